(** Sign changes of a polynomial on an interval where its derivative has no
    root; the ends of the interval may be infinite. *)
From mathcomp Require Import all_ssreflect all_algebra.
From mathcomp.real_closed Require Import polyrcf qe_rcf_th.
From Verif Require Import Py Thom RealSign.

Set Implicit Arguments.
Unset Strict Implicit.
Unset Printing Implicit Defensive.
Import GRing.Theory Num.Theory Order.TTheory.
Local Open Scope ring_scope.

Section Root.
Variable R : rcfType.
Implicit Types (P : {poly R}) (lo hi : option R) (y : R).

Definition above lo y : bool := if lo is Some a then a < y else true.
Definition below hi y : bool := if hi is Some b then y < b else true.
Definition ordered lo hi : bool :=
  match lo, hi with Some a, Some b => a < b | _, _ => true end.

(** The sign at the lower and at the upper end. *)
Definition lsg P lo : int :=
  if lo is Some a then sgz P.[a] else sgz (lead_coef P) * (-1) ^+ (size P).-1.
Definition usg P hi : int :=
  if hi is Some b then sgz P.[b] else sgz (lead_coef P).

(** The interval is met with one sign, or there is one simple root. *)
Definition one_sign P lo hi : Prop :=
  forall y, above lo y -> below hi y -> sgz P.[y] = Num.sg (lsg P lo + usg P hi).
Definition one_root P lo hi : Prop := exists z,
  [/\ above lo z && below hi z, P.[z] = 0,
      forall y, above lo y -> y < z -> sgz P.[y] = lsg P lo &
      forall y, z < y -> below hi y -> sgz P.[y] = usg P hi].

Definition sign_change P lo hi : Prop :=
  let l := lsg P lo in let r := usg P hi in
  ~~ ((l == 0) && (r == 0)) /\
  (if (l == r) || (l * r == 0) then one_sign P lo hi else one_root P lo hi).

Lemma sg_sgz (v : R) : Num.sg (sgz v) = sgz v.
Proof. by case: sgzP. Qed.
Lemma sg_sgz2 (v : R) : Num.sg (sgz v + sgz v) = sgz v.
Proof. by case: sgzP. Qed.

Lemma incr_change P a b : a < b ->
  (forall x y, a <= x -> x < y -> y <= b -> P.[x] < P.[y]) -> sign_change P (Some a) (Some b).
Proof.
move=> ab inc; have Pab := inc _ _ (lexx a) ab (lexx b); split=> /=.
  by apply/negP; rewrite !sgz_eq0 => /andP[/eqP Ea /eqP Eb]; move: Pab; rewrite Ea Eb ltxx.
case: (ltrgtP P.[b] 0) => [b0|b0|b0].
- have a0 := lt_trans Pab b0; rewrite (ltr0_sgz a0) (ltr0_sgz b0) /= => y /= ay yb.
  by rewrite (ltr0_sgz a0) (ltr0_sgz b0) (ltr0_sgz (lt_trans (inc _ _ (ltW ay) yb (lexx b)) b0)).
- case: (ltrgtP P.[a] 0) => [a0|a0|a0].
  + rewrite (ltr0_sgz a0) (gtr0_sgz b0) /=.
    have [|z zin rz] := @ivt_sign _ P a b (ltW ab); first by rewrite (ltr0_sg a0) (gtr0_sg b0) mulr1.
    move: zin; rewrite in_itv /= => /andP[az zb].
    have z0 : P.[z] = 0 by exact/rootP.
    exists z; split=> //=; rewrite ?az ?zb // => y.
    * by move=> ay yz; rewrite (ltr0_sgz a0) ltr0_sgz // -z0 inc ?ltW.
    * by move=> zy yb; rewrite (gtr0_sgz b0) gtr0_sgz // -z0 inc ?ltW.
  + rewrite (gtr0_sgz a0) (gtr0_sgz b0) /= => y /= ay yb.
    rewrite (gtr0_sgz a0) (gtr0_sgz b0) gtr0_sgz //.
    exact: lt_trans a0 (inc _ _ (lexx a) ay (ltW yb)).
  + rewrite a0 sgz0 (gtr0_sgz b0) /= => y /= ay yb.
    by rewrite a0 sgz0 (gtr0_sgz b0) gtr0_sgz // -a0; exact: inc (lexx a) ay (ltW yb).
- have a0 : P.[a] < 0 by rewrite -b0.
  rewrite b0 sgz0 (ltr0_sgz a0) /= => y /= ay yb.
  by rewrite b0 sgz0 (ltr0_sgz a0) ltr0_sgz // -b0; exact: inc (ltW ay) yb (lexx b).
Qed.

Lemma lsgN P lo : lsg (- P) lo = - lsg P lo.
Proof. by case: lo => [a|] /=; rewrite ?hornerN ?lead_coefN ?size_opp sgzN ?mulNr. Qed.
Lemma usgN P hi : usg (- P) hi = - usg P hi.
Proof. by case: hi => [a|] /=; rewrite ?hornerN ?lead_coefN sgzN. Qed.

Lemma sign_changeN P lo hi : sign_change (- P) lo hi -> sign_change P lo hi.
Proof.
rewrite /sign_change /= lsgN usgN !oppr_eq0 eqr_opp mulrNN => -[h1 h2]; split=> //.
case: ifP h2 => _.
  move=> H y ay yb; apply: oppr_inj; have := H y ay yb.
  by rewrite hornerN sgzN lsgN usgN -opprD sgrN.
case=> z [z1 z2 z3 z4]; exists z; split=> // [|y h h'|y h h'].
- by apply/eqP; rewrite -oppr_eq0 -hornerN z2.
- by apply: oppr_inj; rewrite -sgzN -hornerN z3 // lsgN.
- by apply: oppr_inj; rewrite -sgzN -hornerN z4 // usgN.
Qed.

Lemma finite_change P a b : a < b ->
  (forall y, a < y -> y < b -> P^`().[y] != 0) -> sign_change P (Some a) (Some b).
Proof.
move=> ab nr; set m := (a + b) / 2%:R; have [am mb] := midf_lt ab.
have sgE y : a < y -> y < b -> Num.sg P^`().[y] = Num.sg P^`().[m].
  move=> ay yb; apply: (@polyrN0_itv _ `]a, b[); rewrite ?in_itv /= ?ay ?yb ?am ?mb //.
  by move=> z; rewrite in_itv /= => /andP[az zb]; rewrite rootE; exact: nr.
have mon Q : (forall y, a < y -> y < b -> 0 < Q^`().[y]) -> sign_change Q (Some a) (Some b).
  move=> pos; apply: incr_change => // x y ax xy yb.
  have [c] := mvt Q xy; rewrite in_itv /= => /andP[xc cy] E.
  rewrite -subr_gt0 E mulr_gt0 ?subr_gt0 // pos //; first exact: le_lt_trans ax xc.
  exact: lt_le_trans cy yb.
have := nr m am mb; rewrite neq_lt => /orP[m0|m0]; last first.
  by apply: mon => y ay yb; rewrite -sgr_gt0 sgE // sgr_gt0.
apply: sign_changeN; apply: mon => y ay yb.
by rewrite derivN hornerN oppr_gt0 -sgr_lt0 sgE // sgr_lt0.
Qed.

Lemma sgz_pinf P b : (forall y, b <= y -> ~~ root P y) -> forall y, b <= y -> sgz P.[y] = sgz (lead_coef P).
Proof.
move=> nr y yb; rewrite -[RHS]/(sgz (lead_coef P)).
have : Num.sg P.[y] = sgp_pinfty P.
  apply: (@sgp_pinftyP _ b P); last by rewrite in_itv /= yb.
  by move=> z; rewrite in_itv /= andbT => /nr.
by rewrite /sgp_pinfty !sgrEz => /intr_inj.
Qed.

Lemma sgz_minf P a : (forall y, y <= a -> ~~ root P y) -> forall y, y <= a ->
  sgz P.[y] = sgz (lead_coef P) * (-1) ^+ (size P).-1.
Proof.
move=> nr y ya.
have : Num.sg P.[y] = sgp_minfty P.
  apply: (@sgp_minftyP _ a P); last by rewrite in_itv /= ya.
  by move=> z; rewrite in_itv /= => /nr.
rewrite /sgp_minfty sgrM sgrX sgrN1 !sgrEz -[-1 : R]/((-1)%:~R) -rmorphX /= -rmorphM /= => /intr_inj ->.
by rewrite mulrC.
Qed.

Lemma approach P lo hi : P != 0 -> ordered lo hi -> exists ab : R * R,
  [/\ ab.1 < ab.2, sgz P.[ab.1] = lsg P lo, sgz P.[ab.2] = usg P hi,
      (forall y, ab.1 < y -> above lo y) /\ (forall y, y < ab.2 -> below hi y) &
      (forall y, above lo y -> y <= ab.1 -> sgz P.[y] = lsg P lo /\ lsg P lo != 0) /\
      (forall y, below hi y -> ab.2 <= y -> sgz P.[y] = usg P hi /\ usg P hi != 0)].
Proof.
move=> P0 lh; have lc0 : lead_coef P != 0 by rewrite lead_coef_eq0.
set B := cauchy_bound P.
have nl m y : y <= Num.min m (- B) -> ~~ root P y.
  move=> h; apply/negP => /rootP r; have := cauchy_boundP P0 r.
  by rewrite ltNge -normrN; move: h; rewrite le_minr ler_oppr => /andP[_ h]; rewrite (le_trans h) // ler_norm.
have nu m y : Num.max m B <= y -> ~~ root P y.
  move=> h; apply/negP => /rootP r; have := cauchy_boundP P0 r.
  by rewrite ltNge; move: h; rewrite le_maxl => /andP[_ h]; rewrite (le_trans h) // ler_norm.
have l0 : sgz (lead_coef P) * (-1) ^+ (size P).-1 != 0.
  by rewrite mulf_neq0 ?sgz_eq0 // expf_neq0.
have u0 : sgz (lead_coef P) != 0 by rewrite sgz_eq0.
case: lo hi lh => [a|] [b|] /= lh.
- exists (a, b); split=> //=; split=> // y; first by move=> ay ya; have := lt_le_trans ay ya; rewrite ltxx.
  by move=> yb byy; have := lt_le_trans yb byy; rewrite ltxx.
- pose b := Num.max (a + 1) B.
  have bE y : b <= y -> sgz P.[y] = sgz (lead_coef P) by apply: sgz_pinf => z; exact: nu.
  exists (a, b); split=> //=; rewrite ?(bE b) //.
  + by rewrite lt_maxr ltr_addl ltr01.
  + by split=> // y; [move=> ay ya; have := lt_le_trans ay ya; rewrite ltxx|move=> _ /bE].
- pose a := Num.min (b - 1) (- B).
  have aE y : y <= a -> sgz P.[y] = sgz (lead_coef P) * (-1) ^+ (size P).-1.
    by apply: sgz_minf => z; exact: nl.
  exists (a, b); split=> //=; rewrite ?(aE a) //.
  + by rewrite lt_minl ltr_subl_addr ltr_addl ltr01.
  + by split=> // y; [move=> _ /aE|move=> yb byy; have := lt_le_trans yb byy; rewrite ltxx].
- pose b := Num.max 1 B; pose a := Num.min 0 (- B).
  have bE y : b <= y -> sgz P.[y] = sgz (lead_coef P) by apply: sgz_pinf => z; exact: nu.
  have aE y : y <= a -> sgz P.[y] = sgz (lead_coef P) * (-1) ^+ (size P).-1.
    by apply: sgz_minf => z; exact: nl.
  exists (a, b); split=> //=; rewrite ?(bE b) ?(aE a) //.
  + by rewrite (@le_lt_trans _ _ 0) // ?le_minl ?lexx // lt_maxr ltr01.
  + by split=> // y; [move=> _ /aE|move=> _ /bE].
Qed.

Lemma interval_change P lo hi : P != 0 -> ordered lo hi ->
  (forall y, above lo y -> below hi y -> P^`().[y] != 0) -> sign_change P lo hi.
Proof.
move=> P0 lh nr; have [[a b] /= [ab Ea Eb [ain bin] [al bl]]] := approach P0 lh.
have [|h1 h2] := finite_change (P := P) ab; first by move=> y ay yb; apply: nr; [exact: ain|exact: bin].
move: h1 h2; rewrite /= Ea Eb => h1 h2; split=> //; case: ifP h2 => hk.
  move=> H y ay yb; case: (leP y a) => [ya|lay].
    have [-> l0] := al _ ay ya; case: eqVneq hk => [<-|_] /=.
      by rewrite -Ea sg_sgz2.
    by rewrite mulf_eq0 (negbTE l0) /= => /eqP ->; rewrite addr0 -Ea sg_sgz.
  case: (leP b y) => [byy|lyb]; last by rewrite (H y) //= Ea Eb.
  have [-> r0] := bl _ yb byy; case: eqVneq hk => [->|_] /=.
    by rewrite -Eb sg_sgz2.
  by rewrite mulf_eq0 (negbTE r0) orbF => /eqP ->; rewrite add0r -Eb sg_sgz.
case=> z [/= /andP[az zb] z0 zl zr]; exists z; split=> //.
- by rewrite ain // bin.
- move=> y ay yz; case: (leP y a) => [ya|lay]; first by have [] := al _ ay ya.
  by rewrite zl.
- move=> y zy yb; case: (leP b y) => [byy|lyb]; first by have [] := bl _ yb byy.
  by rewrite zr.
Qed.

End Root.
