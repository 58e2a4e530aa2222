(** Polynomials that are not written in expanded form.  sympy's [==] and
    dictionary keys are about expressions: x*(y + 1) and x*y + x are different
    keys.  Of the operations of sympywrapper.py only differentiation (and
    multiplication by a number) can return something unexpanded. *)
From Coq Require Import ZArith String.
From mathcomp Require Import all_ssreflect all_algebra all_real_closed.
From Verif Require Import Py VtsInst MuchModel MuchSpec MuchSeq MuchReal MuchInst MuchFull MuchEx.
From Verif Require Import CohenModel CohenSpec CohenEx.

Set Implicit Arguments.
Unset Strict Implicit.
Unset Printing Implicit Defensive.
Import GRing.Theory Num.Theory Order.TTheory.
Local Open Scope ring_scope.

(** ** What the theorems say about two forms of one problem *)

Section Same.
Variables (P : eqType) (K : realDomainType) (A : algebra P K).
Variables (C : idomainType) (den : P -> {poly C}).
Hypothesis ctr : algebra_contract A den.
Variable setiter : seq P -> seq P.
Hypothesis so : set_order setiter.

Lemma sat_same (R : rcfType) (ev : {rmorphism C -> R}) l e g l' e' g' :
  map den l = map den l' -> map den e = map den e' -> map den g = map den g' ->
  forall x, real_sat den ev l e g x -> real_sat den ev l' e' g' x.
Proof.
have S (s s' : seq P) : map den s = map den s' -> forall p, p \in s' -> exists2 q, q \in s & den q = den p.
  by move=> E p ps; have := map_f den ps; rewrite -E => /mapP[q qs ->]; exists q.
move=> El Ee Eg x [hl he hg]; split=> p ps.
- by have [q qs E] := S _ _ El _ ps; rewrite /value -E; apply: hl.
- by have [q qs E] := S _ _ Ee _ ps; rewrite /value -E; apply: he.
- by have [q qs E] := S _ _ Eg _ ps; rewrite /value -E; apply: hg.
Qed.

Lemma same_form (l e g l' e' g' : seq P) :
  map den l = map den l' -> map den e = map den e' -> map den g = map den g' ->
  has_parameters A den (l ++ e ++ g) -> has_parameters A den (l' ++ e' ++ g') ->
  exists N d b d' b',
    (forall n, (N <= n)%N -> real_full A setiter n l e g = Ok (d, b) /\
                             real_full A setiter n l' e' g' = Ok (d', b')) /\
    forall (R : rcfType) (ev : {rmorphism C -> R}), sign_ok A den ev ->
      (exists2 c, c \in d & real_clause_holds den ev c) <->
      (exists2 c, c \in d' & real_clause_holds den ev c).
Proof.
move=> El Ee Eg hp hp'.
have [N [d [b [run eqv]]]] := real_full_equivalent ctr so hp.
have [N' [d' [b' [run' eqv']]]] := real_full_equivalent ctr so hp'.
exists (maxn N N'), d, b, d', b'; split=> [n|R ev sg].
  by rewrite geq_max => /andP[h h']; rewrite run // run'.
split.
  by case/(eqv R ev sg) => x sx; apply/(eqv' R ev sg); exists x; apply: sat_same sx.
by case/(eqv' R ev sg) => x sx; apply/(eqv R ev sg); exists x; apply: sat_same sx.
Qed.

Lemma same_form_closed (l e g l' e' g' : seq P) :
  map den l = map den l' -> map den e = map den e' -> map den g = map den g' ->
  ~ has_parameters A den (l ++ e ++ g) -> ~ has_parameters A den (l' ++ e' ++ g') ->
  exists N b b',
    (forall n, (N <= n)%N -> real_full A setiter n l e g = Ok ([::], b) /\
                             real_full A setiter n l' e' g' = Ok ([::], b')) /\
    forall (R : rcfType) (ev : {rmorphism C -> R}), sign_ok A den ev -> b = b'.
Proof.
move=> El Ee Eg hp hp'.
have [N [b [run eqv]]] := real_full_decides ctr so hp.
have [N' [b' [run' eqv']]] := real_full_decides ctr so hp'.
exists (maxn N N'), b, b'; split=> [n|R ev sg].
  by rewrite geq_max => /andP[h h']; rewrite run // run'.
apply/idP/idP.
  by case/(eqv R ev sg) => x sx; apply/(eqv' R ev sg); exists x; apply: sat_same sx.
by case/(eqv' R ev sg) => x sx; apply/(eqv R ev sg); exists x; apply: sat_same sx.
Qed.
End Same.

(** ** Expressions: expanded ones and others *)

Section Forms.
Variables (U : eqType) (ex : U -> Pxy).
Notation PF := [eqType of Pxy + U].
Variables (dU : U -> PF) (tU : U -> nat -> PF).
Definition toPoly (p : PF) : Pxy := match p with inl q => q | inr u => ex u end.
Definition fden (p : PF) : {poly Cy} := toPoly p.

Definition algf : algebra PF ZD := {|
  a_LT := fun p => inl (a_LT algxy (toPoly p));
  a_LC := fun p => inl (a_LC algxy (toPoly p));
  a_LS := fun p => a_LS algxy (toPoly p);
  a_degree := fun p => a_degree algxy (toPoly p);
  a_div := fun p q => let r := a_div algxy (toPoly p) (toPoly q) in (inl r.1, inl r.2);
  a_tail := fun p => inl (a_tail algxy (toPoly p));
  a_e_var := inl (a_e_var algxy);
  a_has_variable := fun p => a_has_variable algxy (toPoly p);
  a_pseudo_div := fun p q => let r := a_pseudo_div algxy (toPoly p) (toPoly q) in (inl r.1, inl r.2);
  a_derivative := fun p => match p with inl q => inl (a_derivative algxy q) | inr u => dU u end;
  a_zero := inl (a_zero algxy);
  a_sign := fun p => a_sign algxy (toPoly p);
  a_sub := fun p q => inl (a_sub algxy (toPoly p) (toPoly q));
  a_times := fun p n => match p with inl q => inl (a_times algxy q n) | inr u => tU u n end
|}.

Hypothesis ex0 : forall u, idx (ex u) <> 0.
Hypothesis dUE : forall u, fden (dU u) = (idx (ex u))^`().
Hypothesis tUE : forall u n, fden (tU u n) = idx (ex u) *+ n.

Lemma algf_ops : algebra_ops algf fden.
Proof.
have A := contract_ops idx_contract.
split.
- exact: (den_zero A).
- by move=> [q|u] h; [congr inl; apply: (den_zero_only A)|case: (ex0 h)].
- by move=> p; exact: (den_degree A).
- by move=> p; exact: (den_LC A).
- by move=> [q|u] n; [exact: (den_times A)|exact: tUE].
- by move=> p; exact: (den_tail A).
- by move=> p; exact: (den_sub_LT A).
- by move=> [q|u]; [exact: (den_derivative A)|exact: dUE].
- by move=> p; exact: (den_div A).
- by move=> p q; exact: (den_pseudo_div A).
- exact: (zero_scalar A).
- exact: (zero_sign A).
Qed.

Lemma algf_sign_ok (R : rcfType) (y : R) : sign_ok algf fden (evy y).
Proof. by move=> p; exact: (idx_sign_ok y). Qed.
End Forms.

(** ** Expressions whose derivatives come out expanded: (x - 1)*(x + 1), whose
    derivative sympy writes 2*x. *)
Definition U1 := [eqType of {p : Pxy | (1 < size (p : {poly Cy}))%N}].
Definition alg1 := @algf U1 val (fun u : U1 => inl (a_derivative algxy (val u)))
  (fun (u : U1) n => inl (a_times algxy (val u) n)).
Definition den1 := @fden U1 val.
Notation P1 := [eqType of Pxy + U1].

Lemma alg1_inl n (p : Pxy) : iter n (a_derivative alg1) (inl p) = inl (iter n (a_derivative algxy) p).
Proof. by elim: n => [//|n IH]; rewrite !iterS IH. Qed.

Lemma alg1_contract : algebra_contract alg1 den1.
Proof.
split.
  apply: algf_ops => [u|u|u n].
  - by move=> E; have := valP u; rewrite -[val u]/(idx (val u)) E size_poly0.
  - exact: (den_derivative idx_contract).
  - exact: (den_times idx_contract).
move=> [p|u].
  by rewrite alg1_inl; congr inl; exact: (den_last idx_contract).
have [k Ek] : exists k, a_degree algxy (val u) = k.+1.
  exists (size (val u : {poly Cy})).-2; rewrite -[LHS]/((size (val u : {poly Cy})).-1).
  by have := valP u => /=; case: (size _) => [|[|n]].
have := den_last idx_contract (val u).
rewrite -[a_degree alg1 _]/(a_degree algxy (val u)) Ek !iterSr => E.
by rewrite -[a_derivative alg1 _]/(inl (a_derivative algxy (val u)) : P1) alg1_inl E.
Qed.

Lemma alg1_scalars : scalars_exact alg1 den1.
Proof.
have [s1 s2] := idx_scalars; split=> -[p|u] c; first 2 last.
- by congr inl; exact: s2.
- by move: c; rewrite /const leqNgt => /negP; case; exact: (valP u).
- by move=> v; have [h1 h2] := s1 p c v; split=> // /h2 E; congr inl.
- by move: c; rewrite /const leqNgt => /negP; case; exact: (valP u).
Qed.

(** ** Products n * y ^ k * (b) with a sum b: sympy differentiates the last
    factor only, and does not multiply out; it does when the derivative of b
    is a single term. *)
Definition terms (p : Pxy) : nat := sumn [seq count (fun a : ZD => a != 0) (c : {poly ZD}) | c <- (p : {poly Cy})].
Definition yk (k : nat) : Cy := mky (nseq k 0 ++ [:: 1]).
Definition mulout (n k : nat) (b : Pxy) : Pxy :=
  a_times algxy (mkx [seq muly (yk k) c | c <- (b : {poly Cy})]) n.
Definition formed (u : nat * nat * Pxy) : bool := [&& 0 < u.1.1, 0 < u.1.2 & 1 < terms u.2]%N.
Definition U2 := [eqType of {u : nat * nat * Pxy | formed u}].
Definition form (n k : nat) (b : Pxy) : [eqType of Pxy + U2] :=
  (if formed (n, k, b) as c return (formed (n, k, b) = c -> Pxy + U2)
   then fun e => inr (exist _ (n, k, b) e) else fun _ => inl (mulout n k b)) erefl.
Definition ex2 (u : U2) : Pxy := let: (n, k, b) := val u in mulout n k b.
Definition alg2 := @algf U2 ex2 (fun u => let: (n, k, b) := val u in form n k (a_derivative algxy b))
  (fun u m => let: (n, k, b) := val u in form (n * m) k b).
Definition den2 := @fden U2 ex2.

Lemma mulout_idx n k b : idx (mulout n k b) = (yk k *: idx b) *+ n.
Proof.
rewrite (den_times idx_contract); congr (_ *+ n); rewrite /idx mkxE.
apply/polyP => i; rewrite coef_Poly coefZ.
by case: (ltnP i (size (b : {poly Cy}))) => h; [rewrite (nth_map 0) ?mulyE|rewrite !nth_default ?mulr0 ?size_map].
Qed.

Lemma form_den n k b : den2 (form n k b) = idx (mulout n k b).
Proof.
rewrite /form; move: (erefl (formed (n, k, b))).
by case: {2 3}(formed _).
Qed.

Lemma yk_neq0 k : yk k != 0.
Proof.
apply/eqP => /(congr1 (fun p : {poly ZD} => p`_k)).
by rewrite /yk /mky mkE coef_Poly nth_cat size_nseq ltnn subnn coef0 => /eqP.
Qed.

Lemma muln_neq0 (p : {poly Cy}) n : (0 < n)%N -> p != 0 -> p *+ n != 0.
Proof.
move=> n0 p0; rewrite -size_poly_gt0 in p0.
apply/eqP => /(congr1 (fun q : {poly Cy} => (q`_(size p).-1 : {poly ZD})`_(size (lead_coef p)).-1)).
rewrite coefMn -lead_coefE coefMn -lead_coefE !coef0 => /eqP.
by rewrite mulrn_eq0 -leqn0 leqNgt n0 !lead_coef_eq0 -size_poly_eq0 -leqn0 leqNgt p0.
Qed.

Lemma alg2_ops : algebra_ops alg2 den2.
Proof.
apply: algf_ops => [[[[n k] b] h]|[[[n k] b] h]|[[[n k] b] h] m]; rewrite /ex2 /=.
- rewrite mulout_idx; have /and3P[n0 _ t] := h; apply/eqP/muln_neq0 => //.
  rewrite -size_poly_eq0 size_scale ?yk_neq0 // size_poly_eq0; apply/eqP => b0; move: t.
  by rewrite -[b]/(idx b) b0 /terms polyseq0.
- by rewrite -/den2 form_den !mulout_idx (den_derivative idx_contract) derivMn derivZ.
- by rewrite -/den2 form_den !mulout_idx mulrnA.
Qed.

Lemma alg2_sign_ok (R : rcfType) (y : R) : sign_ok alg2 den2 (evy y).
Proof. exact: algf_sign_ok. Qed.
Lemma alg1_sign_ok (R : rcfType) (y : R) : sign_ok alg1 den1 (evy y).
Proof. exact: algf_sign_ok. Qed.

(** y*(x*y + x) and x*y^2 + x*y. *)
Local Open Scope Z_scope.
Definition folded := form 1 1 (px [:: [::]; [:: 1; 1]]).
Definition unfolded : [eqType of Pxy + U2] := inl (px [:: [::]; [:: 0; 1; 1]]).
Local Close Scope Z_scope.
Lemma folded_same : folded <> unfolded /\ den2 folded = den2 unfolded.
Proof.
split; last by rewrite form_den; congr idx; apply/eqP; vm_compute.
have E : (if folded is inr _ then true else false) by vm_compute.
by move=> F; rewrite F in E.
Qed.

Definition outcome (T : Type) (r : res T) : res unit := if r is Err e then Err e else Ok tt.
Lemma outcome_ok (T : Type) (r : res T) : outcome r = Ok tt -> exists x, r = Ok x.
Proof. by case: r => [x|//] _; exists x. Qed.
Lemma outcome_err (T : Type) (r : res T) e : outcome r = Err e -> r = Err e.
Proof. by case: r => [//|e'] [->]. Qed.

(** The code looks for the row of y^2 + y; the derivative is y*(y + 1). *)
Lemma form_refuted : exists p q, p <> q /\ den2 p = den2 q /\
  real_full alg2 id 50 [::] [:: p] [::] = Err KeyError /\
  exists r, real_full alg2 id 50 [::] [:: q] [::] = Ok r.
Proof.
exists folded, unfolded; have [ne E] := folded_same; split=> [//|]; split=> [//|]; split.
  by apply: outcome_err; vm_compute.
by apply: outcome_ok; vm_compute.
Qed.

(** The same for cohenhorm.py. *)
Notation PF2 := [eqType of Pxy + U2].
Definition by_deg2 (p q : PF2) : bool := (a_degree alg2 q < a_degree alg2 p)%N.
Definition run2 n l e g :=
  ch_real_full alg2 (sortedset by_deg2) (ss_add by_deg2) id n l e g.
Lemma form_refuted_cohen : exists p q, p <> q /\ den2 p = den2 q /\
  run2 20 [::] [:: p] [::] = Err (Exc "context lookup"%string) /\
  exists r, run2 20 [::] [:: q] [::] = Ok r.
Proof.
exists folded, unfolded; have [ne E] := folded_same; split=> [//|]; split=> [//|]; split.
  by apply: outcome_err; vm_compute.
by apply: outcome_ok; vm_compute.
Qed.

(** (x - y)*(x + y), also multiplied out. *)
Local Open Scope Z_scope.
Definition px_x2y2 : Pxy := px [:: [:: 0; 0; -1]; [::]; [:: 1]].
Local Close Scope Z_scope.
Definition product : [eqType of Pxy + U1] := inr (exist _ px_x2y2 erefl).
Definition sum : [eqType of Pxy + U1] := inl px_x2y2.
Lemma product_same : product <> sum /\ den1 product = den1 sum.
Proof. by []. Qed.
Lemma product_parameters : has_parameters alg1 den1 ([::] ++ [::] ++ [:: product]) /\
  has_parameters alg1 den1 ([::] ++ [::] ++ [:: sum]).
Proof.
have h (p : [eqType of Pxy + U1]) : toPoly val p = px_x2y2 -> has_parameters alg1 den1 ([::] ++ [::] ++ [:: p]).
  move=> E; exists (a_tail alg1 p); split; first by apply/gen_tail/gen_input; rewrite mem_head.
    by rewrite /const /den1 /fden /= E; vm_compute.
  by rewrite /= E; vm_compute.
by split; apply: h.
Qed.
Definition show1 (r : res (seq (seq P1 * seq P1 * seq P1) * bool)) :=
  let rd1 p := rd (toPoly val p) in
  if r is Ok (d, b) then Some ([seq (map rd1 c.1.1, map rd1 c.1.2, map rd1 c.2) | c <- d], b) else None.
Lemma product_run : show1 (real_full alg1 id 50 [::] [::] [:: product; sum]) = show (real_full algxy id 50 [::] [::] [:: px_x2y2]).
Proof. vm_compute. by []. Qed.
