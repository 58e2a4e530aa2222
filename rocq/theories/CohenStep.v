(** extend_single_table: the extended table is right. *)
From mathcomp Require Import all_ssreflect all_algebra all_real_closed.
From mathcomp.zify Require Import zify.
From Verif Require Import Py MuchModel MuchSpec MuchSeq MuchDiag MuchStep MuchRoot MuchSem.
From Verif Require Import CohenModel CohenSpec CohenExp CohenCopy CohenSem CohenExt.

Set Implicit Arguments.
Unset Strict Implicit.
Unset Printing Implicit Defensive.
Import GRing.Theory Num.Theory Order.TTheory.
Local Open Scope ring_scope.

Lemma sg_sgn (u : int) : Num.sg u \in signs.
Proof. by rewrite sgrEz; case: sgzP. Qed.

Lemma plan_sgn a l ps c sv : (forall e, e \in l :: map snd ps -> a e \in signs) ->
  dget (plan a l ps) c = Ok sv -> sv.2 \in signs.
Proof.
elim: ps l => // x ps IH l h; rewrite plan_cons dget_cat; case: ifP => _; last first.
  by apply: IH => e he; apply: h; rewrite inE he orbT.
rewrite /plan1; case: ifP => _ /=.
  by case: eqP => // _ [<-]; exact: sg_sgn.
by case: eqP => [_ [<-]|_]; [apply: h; exact: mem_head|case: eqP => [_ [<-]//|_]; case: eqP => // _ [<-]; apply: h; rewrite !inE eqxx orbT].
Qed.

Lemma sem_extin (P : eqType) (R : rcfType) (E : P -> {poly R}) D D' lo prs xs :
  (forall c y, c \in flat prs -> desc E D c y -> desc E D' c y) -> sem E D lo prs xs -> sem E D' lo prs xs.
Proof.
elim: prs lo xs => [|x ps IH] lo [|z xs] // h.
  by case: ps IH h => // _ h di y y1 y2; apply: h; [rewrite mem_head|exact: di].
case: ps IH h => [_ _ /sem1 //|x' ps] IH h; rewrite !semC => -[h1 h2 h3 h4]; split=> //.
- by move=> y y1 y2; apply: h; [rewrite mem_head|exact: h2].
- by apply: h => //; rewrite !inE eqxx orbT.
- by apply: IH => // c y hc; apply: h; rewrite [flat _]/= in_cons in_cons hc !orbT.
Qed.

Section Step.
Variables (P : eqType) (K : realDomainType) (A : algebra P K).
Variables (C : idomainType) (den : P -> {poly C}).
Hypothesis ok : algebra_contract A den.
Hypothesis scal : scalars_exact A den.
Variable setiter : seq P -> seq P.
Hypothesis order : set_order setiter.
Notation table := (diagram P [eqType of rat]).
Implicit Types (D T : table) (con : context P).

Local Notation zero := (a_zero A).
Local Notation hv := (a_has_variable A).
Local Notation LC := (a_LC A).
Local Notation rem p q := (a_pseudo_div A p q).2.
Local Notation sz p := (size (den p)).

(** What extend_single_table needs of its arguments. *)
Record ext_ready T prs con p (pols : seq P) s : Prop := {
  er_shape : shape A T prs;
  er_rows : rows T != [::];
  er_con : forall k s, dget con k = Ok s -> s \in signs;
  er_pols : pols != [::];
  er_rd : forall q, q \in pols -> readable A T con q;
  er_new : p \notin pols;
  er_lc : sign_context_lookup A con (LC p) = Ok s;
  er_s0 : s != 0;
  er_sgn : s \in signs;
  er_rem : forall q c, q \in pols -> 0 < deg A q -> c \in ends prs -> isroot T 0 c q ->
    readable A T con (rem p q);
  er_hlc : forall q, q \in pols -> 0 < deg A q -> hv (LC q) -> dmem con (LC q)
}.

(** What makes the result right at a parameter value. *)
Record ext_right con p (pols : seq P) : Prop := {
  rt_det : forall q, q \in pols -> q = zero \/ determined A con q;
  rt_size : forall q, q \in pols -> (sz q <= sz p)%N
}.

Section One.
Variables (T : table) (prs : seq (rat * rat)) (con : context P) (p : P) (pols : seq P) (s : int).
Hypothesis er : ext_ready T prs con p pols s.

Let sh := er_shape er.

Lemma ext_zero : p != zero.
Proof.
apply: contraNneq (er_s0 er) => E; have := er_lc er.
have -> : LC p = zero by apply/eqP; rewrite (LC_eq0 ok) E.
by rewrite /sign_context_lookup (zero_scalar ok) (zero_sign ok) => -[<-].
Qed.

Lemma ext_deg : (deg A p <= 0) = (a_degree A p == 0%N).
Proof. by rewrite /deg (negbTE ext_zero) /=; case: (a_degree A p). Qed.

Section Copied.
Variable D1 : table.
Notation pr1 := (merged T prs pols).
Hypothesis D1c : forall q c, cell D1 q c = if (q \in pols) && (c \in allcols pr1) then
  Ok (newval A T prs con pols q c) else Err KeyError.
Hypothesis D1r : rows D1 =i pols.
Hypothesis ED1 : copy_table A setiter T pols con = Ok D1.

Let sp := copy_shape ok sh (er_con er) scal (er_pols er) (er_rd er) D1c D1r.
Let sh1 : shape A D1 pr1 := proj1 sp.
Let pt1 : points D1 pr1 := proj2 sp.
Let pn := er_new er.

Notation a := (eval A T con p pols s D1).

Lemma a_sgn c : c \in 0 :: map snd pr1 -> a c \in signs.
Proof.
exact: (eval_sgn ok scal sh (er_con er) (er_pols er) (er_rd er) (er_sgn er) (er_rem er) (er_hlc er) D1c D1r).
Qed.

Lemma a_end c : c \in ends pr1 -> exists q, [/\ q \in pols, hit D1 q c & a c = rv A T con p q c].
Proof.
exact: (eval_end ok scal p s sh (er_con er) (er_pols er) (er_rd er) D1c D1r).
Qed.

Lemma keysE c : c \notin map fst (plan a 0 pr1) -> dget (plan a 0 pr1) c = Err KeyError.
Proof. by move=> /negbTE h; have := dget_keys (plan a 0 pr1) c; rewrite h. Qed.

Lemma keys0 : 0 \notin map fst (plan a 0 pr1).
Proof. by apply/negP => /(plan_cols (sh_path sh1)); rewrite ltxx. Qed.

Lemma one1 : 1 \in map snd pr1.
Proof. by rewrite (snd_ends (sh_nil sh1)) (sh_last sh1) mem_head. Qed.

Lemma pols_neq q : q \in pols -> (q == p) = false.
Proof. by move=> hq; apply/negbTE; apply: contraNneq pn => <-. Qed.

Section Roots.
Variable D' : table.
Hypothesis dp : a_degree A p != 0%N.
Hypothesis cE : ext_cells A T prs con p pols s D1 D'.
Hypothesis rE : rows D' =i p :: pols.

Lemma ext_vd q c : q != p -> c \notin map fst (plan a 0 pr1) -> vd D' q c = vd D1 q c.
Proof. by move=> /negbTE nq nk; rewrite /vd cE keysE // nq. Qed.

Lemma ext_vd0 q : q != p -> vd D' q 0 = vd D1 q 0.
Proof. by move=> nq; apply: ext_vd => //; exact: keys0. Qed.

Lemma ext_shape : ~~ bad a 0 pr1 -> shape A D' (newprs a 0 pr1) /\ points D' (newprs a 0 pr1).
Proof.
move=> nb; have pth := sh_path sh1.
have vdp : vd D' p 0 != 0.
  by rewrite /vd cE keysE ?keys0 // eqxx mem_head /eval eqxx mulf_neq0 ?signr_eq0 // (er_s0 er).
have nq q : q \in pols -> q != p by move/pols_neq->.
split; [split|].
- move=> q; rewrite rE inE => hq c; rewrite inE mem_newprs mem_cat.
  have := dget_keys (plan a 0 pr1) c; case: ifP => [hc|/negbT hc].
    move=> [sv E]; rewrite orbT; have [sv' E'] := plan_get hc; rewrite E in E'; case: E' => <- hs.
    have {}hs : sv.1 \in allcols pr1 by rewrite inE mem_flat hs orbT.
    apply/cols_cell; rewrite cE E; case: (eqVneq q p) hq => [_ _|_ /= hq]; first by eexists.
    by rewrite D1c hq hs; eexists.
  rewrite orFb => E; case: (eqVneq q p) hq => [->|nqp /= hq].
    move=> _; apply/cols_cell/idP => [[w]|h]; rewrite cE E eqxx ?inE; last by rewrite h; eexists.
    by case: ifP.
  have -> : (c \in cols D' q) = (c \in cols D1 q).
    by apply/cols_cell/cols_cell; rewrite cE E (negbTE nqp).
  rewrite (sh_cols sh1) ?D1r // inE mem_flat; congr (_ || _).
  by rewrite (negbTE (contra (@plan_fst a 0 pr1 c) hc)).
- exact: newprs_path.
- by rewrite newprs_nil (sh_nil sh1).
- by rewrite newprs_last (sh_last sh1).
- move=> c /mapP[x hx ->]; have [sv [E h1 h2]] := newprs_int pth nb hx.
  apply/hasPn => q; rewrite rE inE /isroot {1}/vd cE E => /orP[/eqP->|hq].
    by rewrite eqxx (negbTE h2).
  rewrite pols_neq // -/(vd _ _ _) ext_vd0 ?nq //.
  by have /hasPn/(_ q) := sh_int sh1 h1; rewrite D1r => /(_ hq).
- move=> q c; rewrite rE inE => /orP[/eqP->|hq]; first by rewrite ext_deg (negbTE dp).
  move=> le; rewrite inE mem_newprs mem_cat => hc; rewrite ext_vd0 ?nq //.
  case: (boolP (c \in map fst (plan a 0 pr1))) hc => hk hc.
    have [sv E hs] := plan_get hk; rewrite /vd cE E pols_neq // -/(vd _ _ _) -/(vd _ _ _).
    by apply: (sh_const sh1) => //; rewrite ?D1r // inE mem_flat hs orbT.
  rewrite ext_vd ?nq //; apply: (sh_const sh1); rewrite ?D1r //.
  by rewrite inE mem_flat; case/orP: hc => [->//|/= ->]; rewrite !orbT.
- move=> q c; rewrite rE inE => hq; rewrite /vd cE.
  case E: (dget _ c) => [sv|e].
    case: (eqVneq q p) hq => [_ _|_ /= hq]; first exact: plan_sgn a_sgn E.
    by rewrite -/(vd _ _ _); apply: (sh_sgn sh1); rewrite D1r.
  case: (eqVneq q p) hq => [_ _|_ /= hq]; last by rewrite -/(vd _ _ _); apply: (sh_sgn sh1); rewrite D1r.
  by case: ifP => // hc; exact: a_sgn.
- move=> c /(newprs_ends pth) [hc|[d h1 E]]; apply/hasP; last first.
    exists p; first by rewrite rE mem_head.
    by rewrite /isroot {1}/vd cE E eqxx eqxx.
  have /hasP[q hq rq] := pt1 hc; rewrite D1r in hq; exists q; first by rewrite rE inE hq orbT.
  move: rq; rewrite /isroot ext_vd0 ?nq // ext_vd ?nq //.
  exact: (@plan_snd a 0 pr1 pth c (mem_ends hc)).
Qed.
End Roots.

(** *** At a parameter value. *)
Section At.
Variables (R : rcfType) (ev : {rmorphism C -> R}).
Hypothesis sgn : sign_ok A den ev.
Let E p : {poly R} := map_poly ev (den p).
Hypothesis cons : consistent den ev con.
Hypothesis rt : ext_right con p pols.
Hypothesis der : a_degree A p != 0%N -> exists2 d, d \in pols & E d = (E p)^`().

Let v := Point sgn.

Lemma slc_sgz q : q \in pols -> 0 < deg A q -> slc A con q = sgz (ev (lead_coef (den q))).
Proof.
move=> hq pos; have := slcE (er_hlc er) hq pos; rewrite /sign_context_lookup -(cvalue_LC ok v).
case h: (hv (LC q)) => /=; last by case=> <-; apply: sgn; [exact: LC_const|rewrite h].
by rewrite (er_hlc er) ?h // => /(@csP _ _ _ _ _ v _ _ _ cons).
Qed.

Lemma s_sgz : s = sgz (ev (lead_coef (den p))).
Proof.
have := er_lc er; rewrite /sign_context_lookup -(cvalue_LC ok v).
case h: (hv (LC p)) => /=; last by case=> <-; apply: sgn; [exact: LC_const|rewrite h].
by case: (dmem _ _) => //= /(@csP _ _ _ _ _ v _ _ _ cons).
Qed.

Lemma lp0 : ev (lead_coef (den p)) != 0.
Proof. by rewrite -sgz_eq0 -s_sgz (er_s0 er). Qed.

Lemma Ep_size : size (E p) = sz p.
Proof. by rewrite /E size_map_poly_id0 // lp0. Qed.

Lemma Ep_lead : lead_coef (E p) = ev (lead_coef (den p)).
Proof. by rewrite /E lead_coef_map_id0 ?rmorph0 // lp0. Qed.

Lemma Ep0 : E p != 0.
Proof. by rewrite -lead_coef_eq0 Ep_lead lp0. Qed.

Lemma lsg_p : lsg (E p) None = (-1) ^+ a_degree A p * s.
Proof. by rewrite /lsg Ep_lead Ep_size -s_sgz (den_degree ok) mulrC. Qed.

Lemma usg_p : usg (E p) None = s.
Proof. by rewrite /usg Ep_lead -s_sgz. Qed.


Variable xs' : seq R.
Hypothesis tk' : tok den ev D1 pr1 xs'.
Hypothesis zp : forall e x, (e, x) \in zip (ends pr1) xs' -> desc E T e x.

Lemma a_desc e x : (e, x) \in zip (ends pr1) xs' -> a e = sgz (E p).[x].
Proof.
move=> hz; have [he d1] := sem_zip (tk_sem tk') hz; have dT := zp hz.
have [q [hq hh ->]] := a_end he.
have hqD : q \in rows D1 by rewrite D1r.
have all1 : e \in allcols pr1 by rewrite inE mem_flat (mem_ends he) !orbT.
have pos : 0 < deg A q by apply: (hit_pos ok scal sh (er_con er) (er_pols er) (er_rd er) D1c D1r hq all1 hh).
have eT : e \in ends prs by exact: ends_old he.
have rT := hit_root ok scal sh (er_con er) (er_pols er) (er_rd er) D1c D1r hq pos he hh.
have [_ ->] := rvE sh (er_rem er) (er_hlc er) hq pos eT rT.
move: hh; rewrite /hit (tok_root tk' d1 hqD) => /andP[q0 /eqP qx].
have lq : ev (lead_coef (den q)) != 0.
  case: (rt_det rt hq) => [qz|]; last exact: (determined_lc ok scal (v := v) cons).
  by move: pos; rewrite qz /deg eqxx.
have dq : den q != 0 by apply: contraNneq lq => ->; rewrite lead_coef0 rmorph0.
have le := rt_size rt hq.
rewrite slc_sgz // (look_desc ok sgn cons (er_rem er hq pos eT rT) dT).
have [u Eu _] := den_pseudo_div ok dq le.
have : ev (lead_coef (den q)) ^+ (sz p - sz q).+1 * (E p).[x] = (E (rem p q)).[x].
  have /(congr1 (fun Q => Q.[x])) := congr1 (map_poly ev) Eu.
  rewrite rmorphD rmorphM /= map_polyZ /= rmorphX hornerZ hornerD hornerM -/(E q) qx mulr0 add0r.
  by [].
move/(congr1 (@sgz _)); rewrite sgzM sgzX => <-.
have -> : odd (a_degree A p + a_degree A q + 1) = odd (sz p - sz q).+1.
  rewrite !(den_degree ok); move: le; have : (0 < sz q)%N by rewrite size_poly_gt0.
  by lia.
case: (ltrgtP (ev (lead_coef (den q))) 0) lq => // sl _; rewrite ?(gtr0_sgz sl) ?(ltr0_sgz sl) ?expr1n ?mul1r //=.
by rewrite -signr_odd /=; case: (odd _); rewrite /= ?expr1 ?mulN1r ?opprK ?expr0 ?mul1r.
Qed.

Lemma a_minf : a 0 = lsg (E p) None.
Proof. by rewrite lsg_p /eval eqxx. Qed.

Lemma a_pinf : a (last (0, 0) pr1).2 = usg (E p) None.
Proof. by rewrite usg_p (sh_last sh1) /eval. Qed.

Lemma a_der : a_degree A p != 0%N ->
  forall i, i \in map fst pr1 -> forall y, desc E D1 i y -> (E p)^`().[y] != 0.
Proof.
move=> dp i hi y dy; have [d hd Ed] := der dp.
have hdD : d \in rows D1 by rewrite D1r.
have /hasPn/(_ d hdD) := sh_int sh1 hi; rewrite (tok_root tk' dy hdD) -/(E d) Ed.
suff -> : (E p)^`() != 0 by [].
rewrite -size_poly_gt0 size_deriv Ep_size; move: dp; rewrite (den_degree ok).
by case: (sz p) => [|[]].
Qed.

Lemma ext_notbad : a_degree A p != 0%N -> ~~ bad a 0 pr1.
Proof.
move=> dp.
by have [] := sem_step (rows_touch D1 p) Ep0 (sh_path sh1) (tk_sem tk') a_minf a_pinf a_desc (a_der dp).
Qed.

Lemma ext_tok D' : a_degree A p != 0%N -> ext_cells A T prs con p pols s D1 D' -> rows D' =i p :: pols ->
  exists xs2, tok den ev D' (newprs a 0 pr1) xs2.
Proof.
move=> dp cE rE.
have rE1 : rows D' =i p :: rows D1 by move=> q; rewrite rE !inE D1r.
have mt c sv : dget (plan a 0 pr1) c = Ok sv -> matches D1 D' p c sv.
  move=> Ec; split=> [|q]; rewrite /vd cE Ec ?eqxx // D1r => hq; by rewrite pols_neq.
have same c : c \in 0 :: map snd pr1 -> matches D1 D' p c (c, a c).
  move=> hc; have nk : c \notin map fst (plan a 0 pr1).
    by move: hc; rewrite inE => /orP[/eqP->|/(plan_snd a (sh_path sh1))//]; exact: keys0.
  split=> [|q]; rewrite /vd cE keysE // ?eqxx ?hc // D1r => hq.
  by rewrite pols_neq.
have [_ []] := sem_step rE1 Ep0 (sh_path sh1) (tk_sem tk') a_minf a_pinf a_desc (a_der dp) => //.
  by move=> c hc; apply: same; rewrite inE (mem_ends hc) orbT.
move=> xs2 sm2; exists xs2; split=> // q; rewrite rE1 inE.
  have [s1 s2] := same 0 (mem_head _ _); case: (eqVneq q p) => [-> _|_ /= hq]; first by rewrite s1 a_minf.
  by rewrite s2 //; exact: tk_minf tk' _ hq.
have [|s1 s2] := same 1; first by rewrite inE one1 orbT.
case: (eqVneq q p) => [-> _|_ /= hq]; first by rewrite s1 -(sh_last sh1) a_pinf.
by rewrite s2 //; exact: tk_pinf tk' _ hq.
Qed.
End At.

(** *** A constant. *)
Section Const.
Variable D' : table.
Hypothesis dp : a_degree A p = 0%N.
Hypothesis cE : forall q c, cell D' q c =
  if q == p then if c \in allcols pr1 then Ok s else Err KeyError else cell D1 q c.
Hypothesis rE : rows D' =i p :: pols.

Lemma const_vd q c : q \in pols -> vd D' q c = vd D1 q c.
Proof. by move=> hq; rewrite /vd cE pols_neq. Qed.

Lemma const_vdp c : c \in allcols pr1 -> vd D' p c = s.
Proof. by move=> hc; rewrite /vd cE eqxx hc. Qed.

Lemma const_shape : shape A D' pr1.
Proof.
split; [|exact: sh_path sh1|exact: sh_nil sh1|exact: sh_last sh1| | |].
- move=> q; rewrite rE inE => hq c; case: (eqVneq q p) hq => [->|nq /= hq].
    move=> _; apply/cols_cell/idP => [[w]|h]; rewrite cE eqxx; last by rewrite h; eexists.
    by case: ifP.
  by rewrite -(sh_cols sh1 (q := q)) ?D1r //; apply/cols_cell/cols_cell; rewrite cE (negbTE nq).
- move=> c hc; have ha : c \in allcols pr1 by rewrite inE mem_flat hc orbT.
  apply/hasPn => q; rewrite rE inE => /orP[/eqP->|hq]; rewrite /isroot.
    by rewrite const_vdp // (negbTE (er_s0 er)).
  by rewrite !const_vd //; have /hasPn/(_ q) := sh_int sh1 hc; rewrite D1r => /(_ hq).
- move=> q c; rewrite rE inE => /orP[/eqP->|hq] le hc; first by rewrite !const_vdp ?mem_head.
  by rewrite !const_vd //; apply: (sh_const sh1) => //; rewrite D1r.
- move=> q c; rewrite rE inE => /orP[/eqP->|hq]; last by rewrite const_vd //; apply: (sh_sgn sh1); rewrite D1r.
  by rewrite /vd cE eqxx; case: ifP => // _; exact: er_sgn er.
Qed.

Lemma const_points : points D' pr1.
Proof.
move=> c hc; apply/hasP; have /hasP[q hq rq] := pt1 hc; rewrite D1r in hq.
by exists q; [rewrite rE inE hq orbT|rewrite /isroot !const_vd].
Qed.

Lemma const_tok (R : rcfType) (ev : {rmorphism C -> R}) xs' : sign_ok A den ev -> consistent den ev con ->
  tok den ev D1 pr1 xs' -> tok den ev D' pr1 xs'.
Proof.
move=> sgn cons tk'.
have Ep : map_poly ev (den p) = (cvalue den ev p)%:P by apply: (const_E ok); rewrite ext_deg dp.
have cs : s = sgz (cvalue den ev p).
  by rewrite (s_sgz sgn cons) -(cvalue_LC ok (Point sgn)) scal.2 //; apply: (deg_const ok); rewrite ext_deg dp.
split.
- move: (tk_sem tk'); apply: sem_extin => c y hc d q; rewrite rE inE => /orP[/eqP->|hq].
    by rewrite const_vdp ?inE ?hc ?orbT // Ep hornerC.
  by rewrite const_vd //; apply: d; rewrite D1r.
- move=> q; rewrite rE inE => /orP[/eqP->|hq]; first by rewrite const_vdp ?mem_head // Ep lsg_const.
  by rewrite const_vd //; apply: (tk_minf tk'); rewrite D1r.
- move=> q; rewrite rE inE => /orP[/eqP->|hq]; first by rewrite const_vdp ?inE ?(shape_one sh1) ?orbT // Ep usg_const.
  by rewrite const_vd //; apply: (tk_pinf tk'); rewrite D1r.
Qed.
End Const.
End Copied.

(** When the table is right. *)
Definition right_at (R : rcfType) (ev : {rmorphism C -> R}) : Prop :=
  [/\ sign_ok A den ev, consistent den ev con, exists xs, tok den ev T prs xs &
      a_degree A p != 0%N -> exists2 d, d \in pols & map_poly ev (den d) = (map_poly ev (den p))^`()].

Lemma extend_ok : ext_right con p pols ->
  (extend_single_table A setiter T con p pols = Ok None /\
   forall (R : rcfType) (ev : {rmorphism C -> R}), ~ right_at ev) \/
  exists T' prs', [/\ extend_single_table A setiter T con p pols = Ok (Some T'), rows T' =i p :: pols,
    shape A T' prs', points T' prs' &
    forall (R : rcfType) (ev : {rmorphism C -> R}), right_at ev -> exists xs', tok den ev T' prs' xs'].
Proof.
move=> rt; have [D1 ED1 [D1c D1r]] := copy_tableE order sh (er_rows er) (er_pols er) (er_rd er).
case: (eqVneq (a_degree A p) 0%N) => dp.
  right; have [D' E' [cE rE]] := extend_const ok scal sh (er_con er) (er_pols er) (er_rd er) (er_new er) (er_lc er) D1c D1r ED1 dp.
  exists D', (merged T prs pols); split=> //; [exact: const_shape cE rE|exact: const_points cE rE|].
  move=> R ev [sgn cons [xs tk] _]; have [xs' tk' _] := copy_sem ok sgn sh tk cons (er_rd er) D1c D1r.
  by exists xs'; exact: (const_tok D1c D1r dp cE rE sgn cons tk').
have := extendE ok scal sh (er_con er) (er_pols er) (er_rd er) (er_new er) (er_lc er) (er_sgn er) (er_rem er) (er_hlc er) D1c D1r ED1 dp.
case: (boolP (bad _ 0 (merged T prs pols))) => [bd E0|nb [D' E' [cE rE]]].
  left; split=> // R ev [sgn cons [xs tk] der]; have [xs' tk' zp] := copy_sem ok sgn sh tk cons (er_rd er) D1c D1r.
  by have := ext_notbad D1c D1r sgn cons rt der tk' zp dp; rewrite bd.
right; exists D', (newprs (eval A T con p pols s D1) 0 (merged T prs pols)).
have [sh' pt'] := ext_shape D1c D1r dp cE rE nb.
split=> // R ev [sgn cons [xs tk] der]; have [xs' tk' zp] := copy_sem ok sgn sh tk cons (er_rd er) D1c D1r.
exact: (ext_tok D1c D1r sgn cons rt der tk' zp dp cE rE).
Qed.
End One.
End Step.
