(** Thom's lemma: a root of a polynomial is determined by the signs of the
    derivatives there. *)
From mathcomp Require Import all_ssreflect all_algebra.
From mathcomp.real_closed Require Import polyrcf polyorder.

Set Implicit Arguments.
Unset Strict Implicit.
Unset Printing Implicit Defensive.
Import GRing.Theory Num.Theory Order.POrderTheory Order.TotalTheory.
Local Open Scope ring_scope.

Section Thom.
Variable R : rcfType.
Implicit Types (P : {poly R}) (a b x y : R).

Definition same_signs P a b := forall k, sgz P^`(k).[a] = sgz P^`(k).[b].

Lemma same_signs_deriv P a b : same_signs P a b -> same_signs P^`() a b.
Proof. by move=> h k; rewrite -derivSn h. Qed.

Lemma sgz_between (u v w : R) : sgz u = sgz v -> u <= w -> w <= v -> sgz w = sgz u.
Proof.
case: (sgzP u) => hu; case: (sgzP v) => hv // _ uw wv.
- by apply/eqP; rewrite sgz_eq0 eq_le; rewrite hu in uw; rewrite hv in wv; rewrite uw wv.
- by rewrite gtr0_sgz // (lt_le_trans hu uw).
- by rewrite ltr0_sgz // (le_lt_trans wv hv).
Qed.

Lemma deriv_sign_mono P a b : {in `[a, b], forall x, sgz P^`().[x] = sgz P^`().[a]} ->
  {in `[a, b] &, forall x y, x < y -> sgz (P.[y] - P.[x]) = sgz P^`().[a]}.
Proof.
move=> h x y; rewrite !in_itv /= => /andP[ax xb] /andP[ay yb] xy.
have [c /=] := mvt P xy; rewrite in_itv /= => /andP[xc cy] ->.
rewrite sgzM [sgz (y - x)]gtr0_sgz ?subr_gt0 // mulr1 h // in_itv /=.
by rewrite (le_trans ax (ltW xc)) (le_trans (ltW cy) yb).
Qed.

Lemma thom_sign P a b : a < b -> same_signs P a b ->
  {in `[a, b], forall x, sgz P.[x] = sgz P.[a]}.
Proof.
move=> ab; have [n] := ubnP (size P); elim: n P => // n IH P sP ss.
case: (eqVneq P 0) => [->|P0]; first by move=> x _; rewrite !horner0.
have h : {in `[a, b], forall x, sgz P^`().[x] = sgz P^`().[a]}.
  apply: IH; last exact: same_signs_deriv.
  exact: leq_trans (lt_size_deriv P0) sP.
have m := deriv_sign_mono h.
have ain : a \in `[a, b] by rewrite in_itv /= lexx ltW.
have bin : b \in `[a, b] by rewrite in_itv /= lexx ltW.
move=> x xin; have := xin; rewrite in_itv /= => /andP[ax xb].
case: (ltrgtP a x) ax => // [lax _|-> //].
case: (ltrgtP x b) xb => // [lxb _|-> _]; last by rewrite (ss 0%N).
have m1 := m _ _ ain xin lax; have m2 := m _ _ xin bin lxb.
have ss0 : sgz P.[a] = sgz P.[b] := ss 0%N.
move: m1 m2; case: (sgzP P^`().[a]) => _.
- by move/eqP; rewrite sgz_eq0 subr_eq0 => /eqP ->.
- move/eqP; rewrite sgz_cp0 subr_gt0 => /ltW l1 /eqP; rewrite sgz_cp0 subr_gt0 => /ltW l2.
  exact: sgz_between ss0 l1 l2.
- move/eqP; rewrite sgz_cp0 subr_lt0 => /ltW l1 /eqP; rewrite sgz_cp0 subr_lt0 => /ltW l2.
  by rewrite (sgz_between (esym ss0) l2 l1).
Qed.

Lemma thom_lt P a b : P != 0 -> root P a -> same_signs P a b -> a < b -> False.
Proof.
have [n] := ubnP (size P); elim: n P => // n IH P sP P0 ra ss ab.
have h := thom_sign ab (same_signs_deriv ss).
have ain : a \in `[a, b] by rewrite in_itv /= lexx ltW.
have bin : b \in `[a, b] by rewrite in_itv /= lexx ltW.
have := deriv_sign_mono h ain bin ab.
have E : sgz P.[b] = 0 by rewrite -(ss 0%N) (rootP ra) sgz0.
move/eqP: E; rewrite sgz_eq0 => /eqP->; rewrite (rootP ra) subrr sgz0.
move/esym/eqP; rewrite sgz_eq0 -/(root _ _) => ra'.
case: (eqVneq P^`() 0) => [/eqP E|P'0].
  have /size_poly1P[c c0 EP] : size P == 1%N.
    move: P0 E; rewrite -!size_poly_eq0 size_deriv; case: (size P) => // -[] //.
  by move: ra; rewrite EP rootC (negPf c0).
apply: (IH _ _ P'0 ra' (same_signs_deriv ss) ab).
exact: leq_trans (lt_size_deriv P0) sP.
Qed.

Lemma thom P a b : P != 0 -> root P a -> root P b ->
  (forall k, sgz P^`(k.+1).[a] = sgz P^`(k.+1).[b]) -> a = b.
Proof.
move=> P0 ra rb h.
have ss : same_signs P a b by case=> [|k] //; rewrite (rootP ra) (rootP rb).
case: (ltrgtP a b) => // ab; first by case: (thom_lt P0 ra ss ab).
by case: (thom_lt P0 rb _ ab) => k.
Qed.

Lemma mem_rootsR P x : P != 0 -> (x \in rootsR P) = root P x.
Proof. by move=> P0; rewrite -roots_on_rootsR. Qed.

Lemma uniq_rootsR P : uniq (rootsR P).
Proof. exact: uniq_roots. Qed.

End Thom.
