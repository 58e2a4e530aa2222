(** Floats are exact for 52 steps. *)
From Coq Require Import ZArith SpecFloat String.
From mathcomp Require Import all_ssreflect all_algebra.
From mathcomp.zify Require Import ssrZ zify.
From Verif Require Import Py MuchModel MuchFloat MuchFloatNum MuchFloatSim.

Set Implicit Arguments.
Unset Strict Implicit.
Unset Printing Implicit Defensive.
Import GRing.Theory Num.Theory Order.TTheory.
Local Open Scope ring_scope.
Delimit Scope Z_scope with BZ.

(** 2^200, not to be computed in unary. *)
Lemma big : {z : Z | z = (2 ^ 200)%BZ}.
Proof. by eexists. Qed.
Definition p200 : Z := sval big.
Lemma p200E : p200 = (2 ^ 200)%BZ.
Proof. exact: svalP big. Qed.

Definition qz (z : Z) : rat := (int_of_Z z)%:~R / (int_of_Z p200)%:~R.
Definition fval (f : float_columns) : rat := qz (zval f).
Definition fdom (d : nat) : pred float_columns := fun f =>
  [&& colb f, Z.eqb (zval f mod 2 ^ (199 - Z.of_nat (minn d 52))) 0 & Z.leb (zval f) (2 ^ 200)].

Lemma int_of_Z_le a b : (int_of_Z a <= int_of_Z b) = Z.leb a b.
Proof. lia. Qed.
Lemma p200_gt0 : Z.ltb 0 p200.
Proof. by rewrite p200E. Qed.
Lemma d200 : 0 < (int_of_Z p200)%:~R :> rat.
Proof. by rewrite ltr0z; move: p200_gt0; move: p200 => n h; lia. Qed.
Lemma qz_le a b : (qz a <= qz b) = Z.leb a b.
Proof. by rewrite /qz ler_pmul2r ?invr_gt0 ?d200 // ler_int int_of_Z_le. Qed.
Lemma qz_inj : injective qz.
Proof.
move=> a b /eqP; rewrite eq_le !qz_le => /andP[/Z.leb_le h1 /Z.leb_le h2]; lia.
Qed.
Lemma qz_mid a b w : (a + b = 2 * w)%BZ -> qz w = (qz a + qz b) / 2%:R.
Proof.
move=> E; rewrite /qz -mulrDl -rmorphD /=.
have -> : int_of_Z a + int_of_Z b = int_of_Z w *+ 2 by lia.
by rewrite rmorphMn /= mulrAC -[_%:~R *+ 2]mulr_natr mulfK.
Qed.

Lemma divZ a n : Z.eqb (a mod 2 ^ n) 0 -> (0 <= n)%BZ -> exists k, (a = k * 2 ^ n)%BZ.
Proof.
move=> /Z.eqb_eq h n0; exists (a / 2 ^ n)%BZ; rewrite Z.mul_comm; apply/Z.div_exact => //.
exact: Z.pow_nonzero.
Qed.
Lemma modZ k n m : (0 <= m <= n)%BZ -> Z.eqb ((k * 2 ^ n) mod 2 ^ m) 0.
Proof.
move=> h; have -> : (k * 2 ^ n = k * 2 ^ (n - m) * 2 ^ m)%BZ.
  by rewrite -Z.mul_assoc -Z.pow_add_r; [congr (_ * 2 ^ _)%BZ; lia|lia|lia].
by rewrite Z.mod_mul //; apply: Z.pow_nonzero; lia.
Qed.

Lemma fdomP d f : (d <= 52)%N -> fdom d f -> exists k,
  [/\ colb f = true, (zval f = k * 2 ^ (199 - Z.of_nat d))%BZ, (0 <= k <= 2 ^ (Z.of_nat d + 1))%BZ & (zval f <= 2 ^ 200)%BZ].
Proof.
move=> hd; rewrite /fdom; have /minn_idPl-> := hd => /and3P[h1 h2 /Z.leb_le h3].
have [|k Ek] := divZ h2; first lia.
have p0 : (0 < 2 ^ (199 - Z.of_nat d))%BZ by apply: Z.pow_pos_nonneg; lia.
exists k; split=> //; split; apply: (proj2 (Z.mul_le_mono_pos_r _ _ _ p0)); rewrite -Ek.
  exact: zval_nonneg.
rewrite -Z.pow_add_r; try lia.
by have -> : (Z.of_nat d + 1 + (199 - Z.of_nat d) = 200)%BZ by lia.
Qed.

Lemma fmid d (a b : float_columns) : (d < 52)%N -> fdom d a -> fdom d b ->
  fdom d.+1 (mid a b) /\ (zval a + zval b = 2 * zval (mid a b))%BZ.
Proof.
move=> hd /(fdomP (ltnW hd)) [ka [a1 a2 a3 a4]] /(fdomP (ltnW hd)) [kb [b1 b2 b3 b4]].
set j := (199 - Z.of_nat d)%BZ in a2 b2.
have Es : (zval a + zval b = (ka + kb) * 2 ^ j)%BZ by rewrite a2 b2; lia.
have hk : (0 <= ka + kb <= 2 ^ 53)%BZ.
  have : (2 ^ (Z.of_nat d + 1) + 2 ^ (Z.of_nat d + 1) = 2 ^ (Z.of_nat d + 2))%BZ.
    have -> : (Z.of_nat d + 2 = Z.succ (Z.of_nat d + 1))%BZ by lia.
    by rewrite Z.pow_succ_r; lia.
  have := Z.pow_le_mono_r 2 (Z.of_nat d + 2) 53; lia.
have [||s1 s2] := add_exact _ _ _ _ a1 b1 Es hk; first lia.
  by rewrite (_ : 2 ^ (scale + 1) = 2 ^ 200 + 2 ^ 200)%BZ //; lia.
have Ew : (zval (SFadd 53 1024 a b) = 2 * ((ka + kb) * 2 ^ (j - 1)))%BZ.
  rewrite s2 Es; have {1}-> : (j = 1 + (j - 1))%BZ by lia.
  by rewrite Z.pow_add_r; lia.
have [|h1 h2] := half_exact _ _ s1 Ew.
  have := Z.pow_le_mono_r 2 52 (j - 1); case: (Z.eq_dec (ka + kb) 0) => [->|ne]; first by left.
  by right; nia.
have Em : zval (mid a b) = ((ka + kb) * 2 ^ (j - 1))%BZ by exact: h2.
split; last by rewrite Em; rewrite -s2; exact: Ew.
rewrite /fdom Em; have /minn_idPl-> : (d.+1 <= 52)%N := hd.
apply/and3P; split; first exact: h1; first by apply: modZ; lia.
by apply/Z.leb_le; lia.
Qed.

Lemma qz0 : qz 0 = 0.
Proof. by rewrite /qz mul0r. Qed.
Lemma qz1 : qz p200 = 1.
Proof. by rewrite /qz divff // gt_eqF ?d200. Qed.

Lemma float_exact : exact_to fval fdom 52.
Proof.
split.
- by [].
- by [].
- by [].
- exact: qz0.
- rewrite /fval (@qz_mid p200 0) ?qz0 ?qz1 ?addr0 //.
  by rewrite p200E.
- rewrite -qz1 /fval; congr qz; by rewrite p200E.
- move=> d f /and3P[h1 h2 h3]; apply/and3P; split=> //.
  have [|k ->] := divZ h2; first by have := geq_minr d 52; lia.
  by apply: modZ; move: (d) => d0; lia.
- move=> a b /and3P[ha _ _] /and3P[hb _ _] /qz_inj; exact: zval_inj.
- move=> a b /and3P[ha _ _] /and3P[hb _ _]; rewrite qz_le; exact: leb_zval.
- move=> d hd a b ha hb; have [h1 h2] := fmid hd ha hb; split=> //.
  exact: qz_mid.
Qed.

(** Up to 52 polynomials in the variable that is eliminated, the code with
    floats does what the code with exact columns does. *)
Lemma float_full_exact (P : eqType) (K : realDomainType) (A : algebra P K) setiter n s l e g :
  muchnik_sequence A n (sortedset (key_lt A) [:: a_zero A]) (l ++ e ++ g) = Ok s ->
  (size (nonconst_frag A s) <= 52)%N ->
  float_full A setiter n l e g = real_full A setiter n l e g.
Proof. exact: (full_exact float_exact). Qed.
