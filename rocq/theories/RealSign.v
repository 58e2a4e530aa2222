(** Signs of finitely many polynomials at a point, just right of a point, and
    at minus infinity. *)
From mathcomp Require Import all_ssreflect all_algebra.
From mathcomp.real_closed Require Import polyrcf polyorder.
From Verif Require Import Thom.

Set Implicit Arguments.
Unset Strict Implicit.
Unset Printing Implicit Defensive.
Import GRing.Theory Num.Theory Order.POrderTheory Order.TotalTheory.
Local Open Scope ring_scope.

Section RealSign.
Variable R : rcfType.
Implicit Types (P : {poly R}) (Ps : seq {poly R}) (a b x y : R).

Lemma right_interval Ps a : all (fun P => P != 0) Ps ->
  exists2 b, a < b & {in Ps, forall P y, a < y < b -> Num.sg P.[y] = sgp_right P a}.
Proof.
elim: Ps => [|P Ps IH] /=; first by exists (a + 1); [rewrite ltr_addl ltr01|move=> P].
case/andP=> P0 /IH[b ab Hb].
have a1 : a < a + 1 by rewrite ltr_addl ltr01.
have [y yin] := neighpr_wit a1 P0.
have ay : a < y by move: yin; rewrite in_itv /= => /andP[].
exists (Num.min b y); first by rewrite lt_minr ab ay.
move=> Q; rewrite inE => /predU1P[->|/Hb H] z; rewrite lt_minr => /and3P[az zb zy]; last first.
  by apply: H; rewrite az zb.
apply: (@sgr_neighpr _ (a + 1)); move: yin; rewrite /neighpr !in_itv /= az => /andP[_].
exact: lt_trans.
Qed.

Lemma right_point Ps a : all (fun P => P != 0) Ps ->
  exists2 y, a < y & {in Ps, forall P, Num.sg P.[y] = sgp_right P a}.
Proof.
move=> /(right_interval a)[b ab Hb]; have [am mb] := midf_lt ab.
by exists ((a + b) / 2%:R) => // P hP; apply: Hb => //; rewrite am mb.
Qed.

Lemma sgp_right_noroot P a x : a < x -> (forall y, a < y <= x -> ~~ root P y) ->
  sgp_right P a = Num.sg P.[x].
Proof.
move=> ax nr.
have P0 : P != 0 by apply: contraNneq (nr x _) => [->|]; rewrite ?root0 // ax lexx.
have [y yin] := neighpr_wit ax P0.
rewrite -(sgr_neighpr yin); apply: (@polyrN0_itv _ `]a, x]).
- by move=> z; rewrite in_itv => /nr.
- by rewrite in_itv /= ax lexx.
- move: yin; rewrite /neighpr !in_itv /= => /andP[-> /= h]; apply: ltW.
  apply: lt_le_trans h _; have := next_root_in P a x.
  by rewrite in_itv /= (max_idPl (ltW ax)) => /andP[].
Qed.

Lemma minf_point Ps : all (fun P => P != 0) Ps ->
  exists y, {in Ps, forall P, Num.sg P.[y] = sgp_minfty P}.
Proof.
move=> h; suff [b Hb] : exists b, {in Ps, forall P y, y <= b -> Num.sg P.[y] = sgp_minfty P}.
  by exists b => P /Hb; exact.
elim: Ps h => [|P Ps IH] /=; first by exists 0.
case/andP=> P0 /IH[b Hb]; exists (Num.min b (- cauchy_bound P)) => Q.
rewrite inE => /predU1P[->|/Hb H] z; rewrite le_minr => /andP[zb zy]; last exact: H.
exact: (sgp_minftyP (le_cauchy_bound P0)).
Qed.

Lemma sgp_minfty_noroot P x : (forall y, y <= x -> ~~ root P y) ->
  sgp_minfty P = Num.sg P.[x].
Proof.
move=> nr; rewrite (@sgp_minftyP _ x P) //; last by rewrite in_itv /=.
Qed.

(** The greatest element of a list below [x]. *)
Lemma max_below (s : seq R) x : 
  (forall y, y \in s -> x <= y) \/
  exists a, [/\ a \in s, a < x & forall y, y \in s -> a < y -> x <= y].
Proof.
elim: s => [|b s IH]; first by left.
case: (ltP b x) => bx; last first.
  case: IH => [H|[a [ha ax H]]]; [left|right].
    by move=> y; rewrite inE => /predU1P[->|/H].
  exists a; rewrite inE ha orbT; split=> // y.
  by rewrite inE => /predU1P[->|/H].
right; case: IH => [H|[a [ha ax H]]].
  exists b; rewrite mem_head; split=> // y.
  by rewrite inE => /predU1P[->|/H //]; rewrite ltxx.
case: (ltP a b) => ab.
  exists b; rewrite mem_head; split=> // y.
  by rewrite inE => /predU1P[->|hy bY]; rewrite ?ltxx // H // (lt_trans ab).
exists a; rewrite inE ha orbT; split=> // y.
rewrite inE => /predU1P[->|/H //]; by rewrite ltNge ab.
Qed.

End RealSign.
