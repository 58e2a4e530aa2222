(** Multiplicities of roots over an algebraically closed field of
    characteristic 0. *)
From mathcomp Require Import all_ssreflect all_algebra.
From mathcomp.zify Require Import zify.

Set Implicit Arguments.
Unset Strict Implicit.
Unset Printing Implicit Defensive.
Import GRing.Theory.
Local Open Scope ring_scope.

Section Mult.
Variable F : closedFieldType.
Hypothesis char0 : [char F] =i pred0.
Implicit Types (p q : {poly F}) (x : F) (rs xs : seq F).

Definition mult p x m : Prop := exists2 q, q.[x] != 0 & p = q * ('X - x%:P) ^+ m.

Lemma mult0 p x : mult p x 0 -> p.[x] != 0.
Proof. by case=> q h ->; rewrite expr0 mulr1. Qed.

Lemma multS p x m : mult p x m.+1 -> p.[x] = 0.
Proof. by case=> q h ->; rewrite hornerM exprS hornerM hornerXsubC subrr mul0r mulr0. Qed.

Lemma nat_neq0 n : (n.+1%:R : F) != 0.
Proof. by have /charf0P-> := char0. Qed.

Lemma mult_deriv p x m : mult p x m.+1 -> mult p^`() x m.
Proof.
case=> q h ->; exists (q^`() * ('X - x%:P) + q *+ m.+1).
  by rewrite hornerD hornerM hornerXsubC subrr mulr0 add0r hornerMn -mulr_natr mulf_neq0 // nat_neq0.
rewrite derivM deriv_exp derivXsubC mul1r /=.
by rewrite mulrDl -mulrA -exprS mulrnAl mulrnAr.
Qed.

Lemma mult_size p x m : mult p x m -> (m < size p)%N.
Proof.
case=> q h ->; have q0 : q != 0 by apply: contraNneq h => ->; rewrite horner0.
rewrite size_mul ?expf_neq0 ?polyXsubC_eq0 // size_exp_XsubC addnS /=.
by move: q0; rewrite -size_poly_gt0; case: (size q) => // k _; rewrite addSn ltnS leq_addl.
Qed.

(** A product of linear factors. *)
Definition fromroots (c : F) rs : {poly F} := c *: \prod_(r <- rs) ('X - r%:P).

Lemma mult_count c rs x : c != 0 -> mult (fromroots c rs) x (count_mem x rs).
Proof.
move=> c0; rewrite /fromroots; elim: rs => [|r rs [q h E]] /=.
  by exists c%:P; rewrite ?hornerC // big_nil expr0 mulr1 alg_polyC.
rewrite big_cons scalerAr E; case: eqP => [->|/eqP ne].
  by exists q; rewrite // add1n exprS mulrCA.
exists (('X - r%:P) * q); last by rewrite add0n mulrA.
by rewrite hornerM hornerXsubC mulf_neq0 // subr_eq0 eq_sym.
Qed.

Lemma fromroots_root c rs x : c != 0 -> ((fromroots c rs).[x] == 0) = (x \in rs).
Proof.
move=> c0; have := mult_count rs x c0; rewrite -has_pred1 has_count.
by case: (count_mem x rs) => [|k] => [/mult0/negbTE|/multS->]; rewrite ?eqxx.
Qed.

Lemma size_fromroots c rs : c != 0 -> size (fromroots c rs) = (size rs).+1.
Proof. by move=> c0; rewrite size_scale // size_prod_XsubC. Qed.

Lemma fromrootsP p : exists rs, p = fromroots (lead_coef p) rs.
Proof. by case: (closed_field_poly_normal p) => rs; exists rs. Qed.

(** The roots outside [xs], if these contain the multiple ones. *)
Lemma count_xs rs xs : uniq xs -> sumn [seq count_mem x rs | x <- xs] = count (mem xs) rs.
Proof.
elim: rs => [|r rs IH] u /=; first by elim: xs u => //= x xs IH /andP[_ /IH].
rewrite -IH // {IH}; elim: xs u => //= x xs IH /andP[nx u].
rewrite inE IH //; case: (eqVneq r x) => [->|ne] /=; last by lia.
by rewrite (negbTE nx); lia.
Qed.

Definition outside xs rs := [seq r <- rs | r \notin xs].

Lemma size_outside rs xs : uniq xs ->
  size (outside xs rs) = (size rs - sumn [seq count_mem x rs | x <- xs])%N.
Proof.
move=> u; rewrite count_xs // size_filter -(count_predC (mem xs) rs) addKn.
exact: eq_count.
Qed.

Lemma uniq_outside c rs xs : c != 0 ->
  (forall x, (fromroots c rs)^`().[x] = 0 -> x \in xs) -> uniq (outside xs rs).
Proof.
move=> c0 h; apply: count_mem_uniq => x; rewrite /outside count_filter mem_filter.
case: (boolP (x \in xs)) => hx /=.
  by rewrite (eq_count (a2 := pred0)) ?count_pred0 // => y /=; case: eqP => // ->; rewrite hx.
rewrite (eq_count (a2 := pred1 x)) => [|y /=]; last by case: eqP => // ->; rewrite hx.
have := mult_count rs x c0; rewrite -has_pred1 has_count.
case: (count_mem x rs) => [|[|k]] // m.
by move: hx; rewrite h //; apply: multS (mult_deriv m).
Qed.
End Mult.
