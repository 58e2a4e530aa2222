(** Fifty-three polynomials are too many for the floats: the equation
    [-x + 52 = 0] is lost. *)
From Coq Require Import ZArith SpecFloat String.
From mathcomp Require Import all_ssreflect all_algebra all_real_closed.
From mathcomp.zify Require Import zify ssrZ.
From Verif Require Import Py VtsInst MuchModel MuchSpec MuchSeq MuchRoot MuchDiag MuchStep MuchSem
  MuchReal MuchInst MuchFull MuchHeap MuchEx MuchFloat MuchFloatSim MuchFloatNum MuchFloatFacts MuchFloatLast.

Set Implicit Arguments.
Unset Strict Implicit.
Unset Printing Implicit Defensive.
Import GRing.Theory Num.Theory Order.TTheory.
Local Open Scope ring_scope.

(** [-x + k]. *)
Definition lin (k : nat) : Pxy := px [:: [:: Z.of_nat k : ZD]; [:: Zneg 1 : ZD]].
Definition f_lesser : seq Pxy := [seq lin k | k <- iota 1 51].
Definition f_equal : seq Pxy := [:: lin 52].
Definition f_greater : seq Pxy := [:: lin 53].

Definition f_check (n : nat) : bool :=
  if muchnik_sequence algxy n (sortedset (key_lt algxy) [:: a_zero algxy])
       (f_lesser ++ f_equal ++ f_greater) is Ok s
  then (nonconst_frag algxy s == [seq lin k | k <- iota 1 53]) && (var_frag algxy s == [::])
  else false.
Lemma f_checked : f_check 4000.
Proof. by vm_cast_no_check (erefl true). Qed.

Lemma f_sequence n : f_check n -> exists s,
  [/\ sequence algxy n (f_lesser ++ f_equal ++ f_greater) = Ok s,
      nonconst_frag algxy s = [seq lin k | k <- iota 1 53] & var_frag algxy s = [::]].
Proof.
rewrite /f_check -/(sequence algxy n (f_lesser ++ f_equal ++ f_greater)).
by case: (sequence _ _ _) => [s|] // /andP[/eqP h1 /eqP h2]; exists s.
Qed.

Lemma f_mono m n : f_check m -> (m <= n)%N -> f_check n.
Proof.
by move=> /f_sequence[s [Es En Ev]] le; rewrite /f_check (sequence_mono Es le) En Ev !eqxx.
Qed.

(** The columns of the roots: 1/2, 3/4, 7/8, ... *)
Fixpoint rq (k : nat) : rat := if k is k'.+1 then (rq k' + 1) / 2%:R else 0.

Section Plan.
Variables (a : rat -> int) (x : rat * rat).
Hypothesis a1 : a x.2 = -1.

Lemma newprs_split l t : a l = 1 -> (forall c, c \in map snd t -> a c = 1) ->
  newprs a l (rcons t x) = rcons (rcons t ((x.1 + (last (0, l) t).2) / 2%:R, x.1)) ((x.1 + x.2) / 2%:R, x.2).
Proof.
elim: t l => [|y t IH] l al h /=; first by rewrite /npairs /keep al a1.
rewrite /npairs /keep al (h y.2) ?mem_head //= IH ?h ?mem_head //.
  by case: t {IH h} y => [|? ?] [].
by move=> c hc; apply: h; rewrite inE hc orbT.
Qed.

Lemma plan_zero l t c sv : a l = 1 -> (forall c, c \in map snd t -> a c = 1) ->
  dget (plan a l (rcons t x)) c = Ok sv -> sv.2 = 0 -> c = x.1.
Proof.
move=> al h; have mem (d : dict [eqType of rat] (rat * int)) : dget d c = Ok sv -> (c, sv) \in d.
  elim: d => //= -[k v] d IH; case: eqP => [-> [->]|_ /IH]; rewrite inE ?eqxx // => ->.
  by rewrite orbT.
move=> /mem; elim: t l al h => [|y t IH] l al h /=.
  rewrite cats0 /plan1 /keep al a1 /= !inE => /or3P[]/eqP[-> ->] //=.
rewrite /plan1 /keep al (h y.2) ?mem_head //= inE => /orP[/eqP[-> ->] //|].
by apply: IH; [apply: h; exact: mem_head|move=> d hd; apply: h; rewrite inE hd orbT].
Qed.
End Plan.

Local Notation A := algxy.
Definition ev0 : {rmorphism Cy -> RA} := evy (0 : RA).
Definition E0 (p : Pxy) : {poly RA} := map_poly ev0 (idx p).

Lemma ev_mky (c : ZD) : ev0 (mky [:: c]) = zr RA c.
Proof. by rewrite /= /mky mkE /horner_eval map_Poly_id0 ?rmorph0 // horner_Poly [horner_rec _ _]/= mul0r add0r. Qed.

Lemma zr_nat k : zr RA (Z.of_nat k) = k%:R.
Proof.
rewrite -[LHS]/((int_of_Z (Z.of_nat k))%:~R) [RHS]pmulrn; congr (_ %:~R).
by case: k => //= k; rewrite SuccNat2Pos.id_succ.
Qed.

Lemma lin_poly k : E0 (lin k) = k%:R%:P - 'X.
Proof.
rewrite /E0 /idx /lin /px mkxE map_Poly_id0 ?rmorph0 // [map _ _]/= -[[:: _; _]]/[:: ev0 _; ev0 _] !ev_mky zr_nat.
have -> : zr RA (Zneg 1) = -1 by [].
by rewrite [Poly _]/= !cons_poly_def mul0r add0r polyCN mulN1r addrC.
Qed.

Lemma lin_size k : size (E0 (lin k)) = 2%N.
Proof. by rewrite lin_poly -opprB size_opp size_XsubC. Qed.
Lemma lin_lead k : lead_coef (E0 (lin k)) = -1.
Proof. by rewrite lin_poly -opprB lead_coefN lead_coefXsubC. Qed.
Lemma lin_sz k : size (idx (lin k)) = 2%N.
Proof.
apply/eqP; rewrite eqn_leq; apply/andP; split; first by rewrite /idx /lin /px mkxE; exact: size_Poly.
by rewrite -{1}(lin_size k) /E0 size_poly.
Qed.
Lemma lin_lc k : ev0 (lead_coef (idx (lin k))) = -1.
Proof. by rewrite -(lin_lead k) !lead_coefE lin_size lin_sz /E0 coef_map. Qed.
Lemma lin_inj : injective lin.
Proof.
move=> i j /(congr1 E0); rewrite !lin_poly => /addIr/polyC_inj/eqP.
by rewrite eqr_nat => /eqP.
Qed.

Lemma sem_size (P : eqType) (R : rcfType) (E : P -> {poly R}) D lo prs xs :
  sem E D lo prs xs -> size (ends prs) = size xs.
Proof.
elim: prs lo xs => [|u ps IH] lo [|z zs] //; first by case: ps {IH}.
by case: ps IH => [|v ps] IH; [case=> ? ? ? //|case=> _ _ _ /IH /= ->].
Qed.

Section Run.
Variable setiter : seq Pxy -> seq Pxy.
Hypothesis order : set_order setiter.
Variable s : seq Pxy.
Variables (n N : nat) (ps : seq Pxy).
Hypothesis Es : sequence A n ps = Ok s.
Hypothesis En : nonconst_frag A s = [seq lin k | k <- iota 1 N.+1].
Hypothesis Ev : var_frag A s = [::].
Local Notation tinv := (tinv A idx ev0).
Local Notation ok := idx_contract.

(** The table after [k] steps. *)
Record table (D : diagram Pxy [eqType of rat]) k t : Prop := {
  tb_inv : tinv D (rcons t (rq k.+1, 1));
  tb_last : (last (0, 0) t).2 = rq k;
  tb_rows : rows D =i constant_frag A s ++ [seq lin i | i <- iota 1 k];
  tb_zero : (0 < k)%N -> forall c, c \in allcols (rcons t (rq k.+1, 1)) -> vd D (lin k) c = 0 -> c = rq k
}.

Lemma table_ready D k t : (k < N.+1)%N -> table D k t -> ready A idx D (lin k.+1).
Proof.
move=> lt [_ _ rE _]; have [us srt _ cl _] := sequence_spec ok Es.
apply: (prefix_ready ok cl srt us (done := [seq lin i | i <- iota 1 k]) (todo := [seq lin i | i <- iota k.+2 (N - k)])) rE.
rewrite En -[lin k.+1 :: _]/(map lin (k.+1 :: iota k.+2 (N - k))) -map_cat; congr map.
rewrite -[k.+1 :: _]/(iota k.+1 (N - k).+1) -{1}[k.+1]add1n -iotaD; congr iota.
by move: lt; clear; lia.
Qed.

Lemma table_points D k t c y : (k < N.+1)%N -> table D k t -> rootcol D c -> desc E0 D c y ->
  sgz (E0 (lin k.+1)).[y] = 1.
Proof.
move=> lt tb /hasP[q hq rq_] d; have rd := table_ready lt tb; have rE := tb_rows tb.
move: rq_; rewrite (isrootE (tb_inv tb) d hq) => /andP[q0 qy].
move: hq; rewrite rE mem_cat => /orP[].
  rewrite (mem_const ok) => /andP[_ /size1_polyC Eq]; move: q0 qy; rewrite /= Eq map_polyC hornerC polyC_eq0.
  by move=> /negbTE->.
case/mapP => i; rewrite mem_iota => /andP[_ ik] Eq; move: qy; rewrite Eq -/(E0 (lin i)) lin_poly.
rewrite !hornerE subr_eq0 => /eqP <-; rewrite lin_poly !hornerE gtr0_sgz // subr_gt0 ltr_nat.
by rewrite add1n in ik.
Qed.

Lemma table_avals D k t : (k < N.+1)%N -> table D k t ->
  [/\ aval A setiter D (lin k.+1) 0 = 1, aval A setiter D (lin k.+1) 1 = -1 &
      forall c, c \in map snd t -> aval A setiter D (lin k.+1) c = 1].
Proof.
move=> lt tb; have rd := table_ready lt tb; have inv := tb_inv tb; have [xs sm] := ti_sem inv.
have l0 : ev0 (lead_coef (idx (lin k.+1))) != 0 by rewrite lin_lc oppr_eq0 oner_eq0.
have [-> -> ae] := aval_sem ok order rd inv l0 sm; rewrite /lsg /usg -/(E0 _) lin_lead lin_size.
split; [by rewrite sgzN sgz1|by rewrite sgzN sgz1|].
have Ee : ends (rcons t (rq k.+1, 1)) = map snd t by rewrite -cats1 ends_cat // cats0.
move=> c hc; rewrite -Ee in hc; have [_ /(_ c hc)[y d]] := sem_mem sm.
have rc : rootcol D c by exact: sv_pt (ti_shape inv) _ hc.
have sz_ := sem_size sm.
have [x hx] : exists x, (c, x) \in zip (ends (rcons t (rq k.+1, 1))) xs.
  exists (nth 0 xs (index c (ends (rcons t (rq k.+1, 1))))).
  rewrite -{1}(nth_index 0 hc) -nth_zip // mem_nth // size_zip -sz_ minnn index_mem //.
have [_ dx] := sem_zip sm hx; rewrite (ae _ _ hx); exact: table_points lt tb rc dx.
Qed.

Lemma table_step D k t : (k < N.+1)%N -> table D k t ->
  exists D' t', real_step A setiter D (lin k.+1) = Ok D' /\ table D' k.+1 t'.
Proof.
move=> lt tb; have rd := table_ready lt tb; have inv := tb_inv tb.
have l0 : ev0 (lead_coef (idx (lin k.+1))) != 0 by rewrite lin_lc oppr_eq0 oner_eq0.
have [a0 a1 ae] := table_avals lt tb.
have [D' [h1 h2 h3] [h4 h5]] := real_step_sem_lc ok order rd inv l0.
rewrite (newprs_split (x := (rq k.+1, 1)) a1 a0 ae) in h3.
eexists D', _; split=> //; split.
- exact: h3.
- by rewrite last_rcons.
- move=> q; rewrite h2 inE (tb_rows tb) !mem_cat -[k.+1 in RHS]addn1 iotaD map_cat mem_cat inE add1n.
  by rewrite orbC -orbA.
move=> _ c; rewrite -(newprs_split (x := (rq k.+1, 1)) a1 a0 ae) inE mem_newprs mem_cat.
have nz c' : c' \in 0 :: map snd (rcons t (rq k.+1, 1)) -> vd D' (lin k.+1) c' <> 0.
  move=> hc; have [-> _] := h5 c' hc; move: hc; rewrite inE map_rcons mem_rcons inE.
  by case/or3P => [/eqP->|/eqP->|/ae->]; rewrite /= ?a0 ?a1.
case/or3P => [/eqP->|hc|hc] v0; try by case: (nz _ _ v0); rewrite inE ?eqxx // hc orbT.
have [sv Ec _] := plan_get hc; have [E1 _] := h4 _ _ Ec; rewrite E1 in v0.
exact: (@plan_zero _ (rq k.+1, 1) a1 _ _ _ _ a0 ae Ec v0).
Qed.

Lemma table_run k : (k <= N.+1)%N -> exists D t,
  real_extend A setiter (start A s [::]) [seq lin i | i <- iota 1 k] = Ok D /\ table D k t.
Proof.
elim: k => [_|k IH lt].
  have [us srt sub cl _] := sequence_spec ok Es.
  have sw : size ([::] : seq int) = size (var_frag A s) by rewrite Ev.
  have as_ := start_assigned us sw; exists (start A s [::]), [::]; split=> //; split=> //.
  - rewrite [rq 1]/= add0r; apply: (assigned_tinv ok cl as_) => q hq; rewrite /sig Ev /=.
    by apply: (sca_sign ok (idx_sign_ok (0 : RA)) hq); rewrite Ev.
  - by move=> q; rewrite cats0; case: as_ => ->.
have [D [t [E1 tb]]] := IH (ltnW lt); have [D' [t' [E2 tb']]] := table_step lt tb.
exists D', t'; split=> //; rewrite -[k.+1]addn1 iotaD map_cat /real_extend foldM_cat.
by rewrite -/(real_extend A setiter _ _) E1 /= add1n E2.
Qed.

(** Any numbers as columns: the table before the last step. *)
Variables (C : columns) (val : C -> rat) (dom : nat -> pred C).
Hypothesis ex : exact_to val dom N.

Definition fstart : diagram Pxy C := fr_assignment_all_zero C A (sca_frag A s).

Lemma ftable_run : exists F t, [/\ freal_extend A setiter fstart [seq lin i | i <- iota 1 N] = Ok F,
  okD dom N F & table (mapD val F) N t].
Proof.
have [D [t [E1 tb]]] := table_run (leqnSn N); have [E2 k0] := root_diagram_mapD ex A (sca_frag A s).
have sl : (0 + size [seq lin i | i <- iota 1 N] <= N)%N by rewrite size_map size_iota.
have [S1 S2] := extend_mapD ex A setiter sl k0.
have E3 : start A s [::] = mapD val fstart by rewrite /start /tabulate Ev; exact: E2.
move: E1; rewrite E3 => E1; have := etrans (esym S1) E1; rewrite /rmap -/fstart.
case E4: (freal_extend _ _ _ _) => [F|] //= -[ED]; exists F, t; rewrite ED; split=> //.
by have := S2 _ E4; rewrite size_map size_iota.
Qed.

Lemma flast_run : (0 < N)%N -> exists c l : C,
  [/\ val c = rq N.+1, val l = rq N, dom N c, dom N l &
   mid c l = l -> mid c (col1 C) = col1 C -> l != c -> col1 C != c -> exists F,
   [/\ freal_extend A setiter fstart [seq lin i | i <- iota 1 N.+1] = Ok F,
       forall y, y \in cols F (a_zero A) -> y \in cols F (lin N) &
       forall y, y \in cols F (a_zero A) -> vd F (lin N) y != 0]].
Proof.
move=> N0; have [F [t [E1 k tb]]] := ftable_run; have NN := ltnSn N; have NL := leqnn N.
have rd := table_ready NN tb; have inv := tb_inv tb; have [a0 a1 ae] := table_avals NN tb.
have rwE : rows (mapD val F) = rows F by exact: rows_mapD.
have zr : a_zero A \in rows F by rewrite -rwE; have [] := sv_zero (ti_shape inv).
have lr : lin N \in rows F.
  by rewrite -rwE (tb_rows tb) mem_cat map_f ?orbT // mem_iota add1n ltnS N0 leqnn.
have pnew : lin N.+1 \notin rows F by rewrite -rwE; exact: rd_new rd.
have hrw z : z \in rows F -> z != a_zero A -> ((a_pseudo_div A (lin N.+1) z).2 \in rows F) &&
    (a_times A (a_LC A z) (fac (a_degree A z)) \in rows F).
  by rewrite -rwE; exact: ready_rows rd z.
have hlc : a_times A (a_LC A (lin N.+1)) (fac (a_degree A (lin N.+1))) \in rows (mapD val F).
  by apply: (rd_lc rd); exact: mem_head.
have v0 : vd (mapD val F) (a_times A (a_LC A (lin N.+1)) (fac (a_degree A (lin N.+1)))) 0 != 0.
  by rewrite (ti_minf inv hlc) (lsg_lcrow ok) lin_lc sgz_eq0 oppr_eq0 oner_eq0.
rewrite rwE in hlc.
have [c [l [vc vl dc dl H]]] := last_step ex order k (ti_shape inv) pnew hrw hlc v0 a0 ae a1.
exists c, l; split=> //; first by rewrite vl (tb_last tb).
move=> ml m1 lc oc; have [||D' E2 [r2 c2]] := H; rewrite ?ml ?m1 //.
have cF y : y \in cols F (a_zero A) -> dom N y /\ val y \in allcols (rcons t (rq N.+1, 1)).
  move=> hy; have dy := okD_dom k hy; split=> //.
  by rewrite -(sv_cols (ti_shape inv) (q := a_zero A)) ?rwE // cols_mapD map_f.
have cN y : y \in cols F (a_zero A) -> cell F (lin N) y = Ok (vd (mapD val F) (lin N) (val y)).
  move=> /cF[dy hy]; rewrite -(cell_mapD ex NL) // cell_vd // (sv_cols (ti_shape inv)) ?rwE //.
have hc : c \in cols F (a_zero A).
  have hx : rq N.+1 \in cols (mapD val F) (a_zero A).
    rewrite (sv_cols (ti_shape inv)) ?rwE // inE mem_flat map_rcons mem_rcons mem_head orbT //.
  by apply/cols_cell; exists (vd (mapD val F) (a_zero A) (rq N.+1)); rewrite -(cell_mapD ex NL) // vc cell_vd.
have hD y : y \in cols D' (a_zero A) -> (y == l) || (y == col1 C) \/ y \in cols F (a_zero A).
  by move/cols_cell => [v]; rewrite c2 // ml m1; case: ifP => _ hv; [left|right; exact: cell_cols hv].
have vD y : y \in cols D' (a_zero A) -> exists2 v, cell D' (lin N) y = Ok v & v != 0.
  move=> hy; rewrite c2 // ml m1; have := hD y hy; case: ifP => [_ _|nl [//|hF]].
    exists (vd (mapD val F) (lin N) (val c)); first exact: cN.
    apply/eqP => /(tb_zero tb N0 (proj2 (cF _ hc))); rewrite -(tb_last tb) -vl => /(ex_inj ex dc dl) E.
    by rewrite E eqxx in lc.
  exists (vd (mapD val F) (lin N) (val y)); first exact: cN.
  have [dy ay] := cF _ hF; apply/eqP => /(tb_zero tb N0 ay); rewrite -(tb_last tb) -vl => /(ex_inj ex dy dl) E.
  by rewrite E eqxx in nl.
exists D'; split.
- rewrite -[N.+1]addn1 iotaD map_cat /freal_extend foldM_cat -/(freal_extend A setiter _ _) E1 /= add1n.
  by rewrite E2.
- by move=> y /vD[v Ev' _]; exact: cell_cols Ev'.
- by move=> y /vD[v Ev' nz]; rewrite (vd_ok Ev').
Qed.
End Run.

(** The floats 1/2, 3/4, 7/8, ... *)
Fixpoint rf (k : nat) : float_columns := if k is k'.+1 then mid (rf k') (col1 float_columns) else col_half float_columns.

Lemma rf_val k : (k <= 52)%N -> fdom k (rf k) /\ fval (rf k) = rq k.+1.
Proof.
have ex := float_exact; elim: k => [_|k IH lt].
  by split; [exact: (ex_h ex)|rewrite (ex_vh ex) /= add0r].
have [d v] := IH (ltnW lt); have d1 : fdom k (col1 float_columns) by exact: (dom_le ex (leq0n k) (ex_1 ex)).
have [d' v'] := ex_mid ex lt d d1; split; first exact: d'.
apply: (etrans v'); rewrite v (ex_v1 ex); reflexivity.
Qed.

Lemma rf_eq k c : (k <= 52)%N -> fdom 52 c -> fval c = rq k.+1 -> c = rf k.
Proof.
move=> le dc vc; have [d v] := rf_val le; apply: (ex_inj float_exact dc (dom_le float_exact le d)).
exact: etrans vc (esym v).
Qed.

(** In floats the middle of the last two roots is one of them, and the middle
    of the last one and 1 is 1. *)
Lemma rf_rounds : [&& mid (rf 52) (rf 51) == rf 51, mid (rf 52) (col1 float_columns) == col1 float_columns,
  rf 51 != rf 52 & col1 float_columns != rf 52].
Proof. by vm_cast_no_check (erefl true). Qed.

Lemma ffull_one (C : columns) (P : eqType) (K : realDomainType) (B : algebra P K) setiter n l e g s F b :
  muchnik_sequence B n (sortedset (key_lt B) [:: a_zero B]) (l ++ e ++ g) = Ok s -> var_frag B s = [::] ->
  freal_extend B setiter (fr_assignment_all_zero C B (sca_frag B s)) (nonconst_frag B s) = Ok F ->
  fgood_real B l e g F = Ok b -> freal_full C B setiter n l e g = Ok ([::], b).
Proof. by move=> E1 E2 E3 E4; rewrite /freal_full E1 /= E2 /= E3 /= E4; case: b {E4}. Qed.

Lemma fgood_none (C : columns) (P : eqType) (K : realDomainType) (B : algebra P K) l p g (F : diagram P C) :
  (forall y, y \in cols F (a_zero B) -> y \in cols F p) ->
  (forall y, y \in cols F (a_zero B) -> vd F p y != 0) -> fgood_real B l [:: p] g F = Ok false.
Proof.
move=> h1 h2; rewrite /fgood_real [foldM _ (cols _ _) _]/= keep_columnsE // !bind_ok.
have -> : [seq c <- cols F (a_zero B) | vd F p c == 0] = [::].
  by apply/eqP; rewrite -size_eq0 size_filter -leqn0 leqNgt -has_count; apply/hasPn => y /h2.
have K2 v ps : foldM (keep_columns F v) [::] ps = Ok [::] by elim: ps.
by rewrite K2 bind_ok K2 bind_ok.
Qed.

Lemma f_run (n : nat) setiter : set_order setiter -> f_check n ->
  float_full algxy setiter n f_lesser f_equal f_greater = Ok ([::], false).
Proof.
move=> order /f_sequence[s [Es En Ev]]; have ex := float_exact.
have [|c [l [vc vl dc dl H]]] := flast_run order Es En Ev ex; first by [].
have Ec := @rf_eq 52 c isT dc vc; have El := @rf_eq 51 l isT dl vl.
move: rf_rounds; rewrite -Ec -El => /and4P[/eqP m1 /eqP m2 m3 m4].
have [F [E1 h1 h2]] := H m1 m2 m3 m4; rewrite -En in E1.
exact: ffull_one Es Ev E1 (fgood_none _ _ h1 h2).
Qed.

Lemma f_solution (R : rcfType) (y : R) : real_sat idx (evy y) f_lesser f_equal f_greater 52%:R.
Proof.
have v k : value idx (evy y) (lin k) 52%:R = k%:R - 52%:R.
  rewrite /lin value_px [map _ _]/= [horner_rec _ _]/= !mul0r !add0r mulN1r addrC; congr (_ - _).
  by rewrite -[LHS]/((int_of_Z (Z.of_nat k))%:~R) [RHS]pmulrn; congr (_ %:~R); case: k => //= k; rewrite SuccNat2Pos.id_succ.
split=> p.
- case/mapP => k; rewrite mem_iota add1n => /andP[_ lk] ->; rewrite v subr_lt0 ltr_nat; exact: leq_trans lk _.
- by rewrite inE => /eqP->; rewrite v subrr.
- by rewrite inE => /eqP->; rewrite v subr_gt0 ltr_nat.
Qed.

(** *** The statements of MuchFloatProps. *)
Section Bound.
Variables (P : eqType) (K : realDomainType) (B : algebra P K) (C : idomainType) (den : P -> {poly C}).
Hypothesis ok : algebra_contract B den.

Lemma nonconst_bound k ps n s : sequence B n ps = Ok s ->
  (forall t, uniq t -> (forall p, p \in t -> generated B den ps p /\ ~~ const den p) -> (size t <= k)%N) ->
  (size (nonconst_frag B s) <= k)%N.
Proof.
move=> Es h; have [us _ _ _ hs] := sequence_spec ok Es; apply: h; first exact: filter_uniq.
move=> p; rewrite (mem_nonconst ok) => /andP[/hs hp sp]; split=> //.
by rewrite /const -ltnNge.
Qed.

Lemma bound_nonconst ps n s t : sequence B n ps = Ok s -> uniq t ->
  (forall p, p \in t -> generated B den ps p /\ ~~ const den p) -> (size t <= size (nonconst_frag B s))%N.
Proof.
move=> Es ut h; have [us _ _ _ hs] := sequence_spec ok Es; apply: uniq_leq_size => // p /h[/hs hp np].
by rewrite (mem_nonconst ok) hp ltnNge.
Qed.

Lemma float_bound setiter l e g :
  (forall t, uniq t -> (forall p, p \in t -> generated B den (l ++ e ++ g) p /\ ~~ const den p) -> (size t <= 52)%N) ->
  forall n, float_full B setiter n l e g = real_full B setiter n l e g.
Proof.
move=> h n; case E: (sequence B n (l ++ e ++ g)) => [s|err].
  exact: float_full_exact E (nonconst_bound E h).
by rewrite /float_full /freal_full /real_full -/(sequence B n (l ++ e ++ g)) E.
Qed.

Lemma float_decides setiter : set_order setiter -> forall l e g,
  (forall t, uniq t -> (forall p, p \in t -> generated B den (l ++ e ++ g) p /\ ~~ const den p) -> (size t <= 52)%N) ->
  ~ has_parameters B den (l ++ e ++ g) ->
  exists N b,
    (forall n, (N <= n)%N -> float_full B setiter n l e g = Ok ([::], b)) /\
    forall (R : rcfType) (ev : {rmorphism C -> R}), sign_ok B den ev ->
      b <-> exists x, real_sat den ev l e g x.
Proof.
move=> order l e g h np; have [N [b [h1 h2]]] := real_full_decides ok order np.
by exists N, b; split=> // n /h1; rewrite float_bound.
Qed.
End Bound.

Lemma f_count (n : nat) t : f_check n -> uniq t ->
  (forall p, p \in t -> generated algxy idx (f_lesser ++ f_equal ++ f_greater) p /\ ~~ const idx p) ->
  (size t <= 53)%N.
Proof.
move=> /f_sequence[s [Es En _]] ut h.
by have := bound_nonconst idx_contract Es ut h; rewrite En size_map size_iota.
Qed.

Lemma float_refuted : exists l e g : seq Pxy,
  [/\ forall t, uniq t -> (forall p, p \in t -> generated algxy idx (l ++ e ++ g) p /\ ~~ const idx p) ->
        (size t <= 53)%N,
      forall (R : rcfType) (y : R), exists x, real_sat idx (evy y) l e g x &
      forall setiter, set_order setiter -> exists N,
        forall n, (N <= n)%N -> float_full algxy setiter n l e g = Ok ([::], false)].
Proof.
exists f_lesser, f_equal, f_greater; split; [by move=> t; exact: f_count f_checked|by move=> R y; exists 52%:R; exact: f_solution|].
move=> setiter order; exists 4000%N => n le; exact: f_run order (f_mono f_checked le).
Qed.

(** Eleven conditions, with the polynomials [-x + 1], ..., [-x + 11]. *)
Definition g_lesser : seq Pxy := [seq lin k | k <- iota 1 9].
Definition g_check (n : nat) : bool :=
  if muchnik_sequence algxy n (sortedset (key_lt algxy) [:: a_zero algxy])
       (g_lesser ++ [:: lin 10] ++ [:: lin 11]) is Ok s then (size (nonconst_frag algxy s) <= 52)%N else false.
Lemma g_checked : g_check 300.
Proof. by vm_cast_no_check (erefl true). Qed.
Lemma g_bound' (n : nat) t : g_check n -> uniq t ->
  (forall p, p \in t -> generated algxy idx (g_lesser ++ [:: lin 10] ++ [:: lin 11]) p /\ ~~ const idx p) ->
  (size t <= 52)%N.
Proof.
move=> + ut h; rewrite /g_check -/(sequence algxy n (g_lesser ++ [:: lin 10] ++ [:: lin 11])).
case E: (sequence _ _ _) => [s|] // le; exact: leq_trans (bound_nonconst idx_contract E ut h) le.
Qed.
Definition g_bound t := @g_bound' 300 t g_checked.
Lemma g_run : show (float_full algxy id 300 g_lesser [:: lin 10] [:: lin 11]) = Some ([::], true).
Proof. by vm_cast_no_check (erefl (Some ([::] : seq (seq (seq (seq ZD)) * seq (seq (seq ZD)) * seq (seq (seq ZD))), true))). Qed.
