(** What the tables of real_extend mean, for the assignment that belongs to a
    value of the parameters. *)
From mathcomp Require Import all_ssreflect all_algebra all_real_closed.
From mathcomp.zify Require Import zify.
From Verif Require Import Py MuchModel MuchSpec MuchSeq MuchRoot MuchDiag MuchStep.

Set Implicit Arguments.
Unset Strict Implicit.
Unset Printing Implicit Defensive.
Import GRing.Theory Num.Theory Order.TTheory.
Local Open Scope ring_scope.

Section Sem.
Variables (P : eqType) (R : rcfType) (E : P -> {poly R}).
Implicit Types (D : diagram P [eqType of rat]) (lo hi : option R).

(** Column [c] describes the point [y]. *)
Definition desc D c (y : R) : Prop := forall q, q \in rows D -> vd D q c = sgz (E q).[y].
Definition intv D c lo hi : Prop := forall y, above lo y -> below hi y -> desc D c y.

Fixpoint sem D lo (prs : seq (rat * rat)) (xs : seq R) : Prop :=
  match prs, xs with
  | [:: x], [::] => intv D x.1 lo None
  | x :: prs', z :: xs' =>
      [/\ ordered lo (Some z), intv D x.1 lo (Some z), desc D x.2 z & sem D (Some z) prs' xs']
  | _, _ => Logic.False
  end.

Lemma sem_ext D D' lo prs xs : (forall c y, desc D c y -> desc D' c y) ->
  sem D lo prs xs -> sem D' lo prs xs.
Proof.
move=> h; elim: prs lo xs => [|x ps IH] lo [|z xs] //.
  by case: ps {IH} => // di y y1 y2; apply: h; exact: di.
have semC D1 : sem D1 lo (x :: ps) (z :: xs) =
  [/\ ordered lo (Some z), intv D1 x.1 lo (Some z), desc D1 x.2 z & sem D1 (Some z) ps xs] by case: (ps).
rewrite !semC => -[h1 h2 h3 h4]; split=> //; [|exact: h|exact: IH].
by move=> y y1 y2; apply: h; exact: h2.
Qed.

Lemma sem_zip D lo prs xs e x : sem D lo prs xs -> (e, x) \in zip (ends prs) xs -> e \in ends prs /\ desc D e x.
Proof.
elim: prs lo xs => [|y [|y' ps] IH] lo [|z xs] // [_ _ dz sm].
have -> : ends [:: y, y' & ps] = y.2 :: ends (y' :: ps) by [].
rewrite [zip _ _]/= -/(ends (y' :: ps)) inE => /orP[/eqP[-> ->]|/(IH _ _ sm)[h d]]; first by rewrite mem_head.
by rewrite inE h orbT.
Qed.

Section Step.
Variables (D D' : diagram P [eqType of rat]) (p : P) (a : rat -> int).
Hypothesis rE : rows D' =i p :: rows D.

Definition matches c (sv : rat * int) : Prop :=
  vd D' p c = sv.2 /\ forall q, q \in rows D -> vd D' q c = vd D q sv.1.

Lemma desc_new c sv y : matches c sv -> desc D sv.1 y -> sv.2 = sgz (E p).[y] -> desc D' c y.
Proof.
move=> [h1 h2] d Ev q; rewrite rE inE => /orP[/eqP->|hq]; first by rewrite h1.
by rewrite h2 // d.
Qed.

Lemma pair_step l x lo hi :
  sign_change (E p) lo hi -> intv D x.1 lo hi -> a l = lsg (E p) lo -> a x.2 = usg (E p) hi ->
  ~~ badpair a l x.2 /\
  ((forall c sv, dget (plan1 a l x) c = Ok sv -> matches c sv) -> l < x.1 -> x.1 < x.2 ->
   if keep a l x.2 then intv D' x.1 lo hi
   else exists w, [/\ ordered lo (Some w), ordered (Some w) hi, intv D' ((x.1 + l) / 2%:R) lo (Some w),
     desc D' x.1 w & intv D' ((x.1 + x.2) / 2%:R) (Some w) hi]).
Proof.
move=> [h1 h2] di al ax; rewrite /badpair al ax; split=> // m lx xx.
move: m; rewrite /plan1 /keep al ax; move: h2; case: ifP => _ h2 m.
  move=> y ya yb; apply: (desc_new (m _ (x.1, _) _)) => /=; first by rewrite eqxx.
    exact: di.
  by rewrite h2.
have /andP[m1 m2] := mid_lt lx; have /andP[m3 m4] := mid_lt xx.
have lnx : (x.1 == (x.1 + l) / 2%:R) = false by rewrite [_ + l]addrC gt_eqF.
have rnx : ((x.1 + x.2) / 2%:R == x.1) = false by rewrite gt_eqF.
have lnrn : ((x.1 + x.2) / 2%:R == (x.1 + l) / 2%:R) = false.
  by rewrite [_ + l]addrC gt_eqF // (lt_trans m2).
have [w [/andP[w1 w2] w0 wl wr]] := h2; exists w.
split; [by case: (lo) w1|by case: (hi) w2| | |].
- move=> y ya yb; apply: (desc_new (m _ (x.1, _) _)) => /=; first by rewrite eqxx.
    by apply: di => //; case: (hi) w2 => //= b; exact: lt_trans.
  by rewrite wl.
- apply: (desc_new (m _ (x.1, _) _)) => /=; first by rewrite lnx eqxx.
    exact: di.
  by rewrite w0 sgz0.
- move=> y ya yb; apply: (desc_new (m _ (x.1, _) _)) => /=; first by rewrite lnrn rnx eqxx.
    by apply: di => //; case: (lo) w1 => //= b /lt_trans; apply.
  by rewrite wr.
Qed.

Hypothesis p0 : E p != 0.

Lemma sem_step ps l lo xs :
  path <%R l (flat ps) -> sem D lo ps xs -> a l = lsg (E p) lo ->
  a (last (0, 0) ps).2 = usg (E p) None ->
  (forall e x, (e, x) \in zip (ends ps) xs -> a e = sgz (E p).[x]) ->
  (forall i, i \in map fst ps -> forall y, desc D i y -> (E p)^`().[y] != 0) ->
  ~~ bad a l ps /\
  ((forall c sv, dget (plan a l ps) c = Ok sv -> matches c sv) ->
   (forall c, c \in ends ps -> matches c (c, a c)) ->
   exists xs', sem D' lo (newprs a l ps) xs').
Proof.
elim: ps l lo xs => [//|x ps IH] l lo xs pth; case: xs => [|z xs].
  case: ps IH pth => // IH pth di al a1 _ nr; move: pth => /= /and3P[h1 h2 _].
  have sc : sign_change (E p) lo None.
    apply: interval_change => //; first by case: (lo).
    by move=> y ya yb; apply: (nr x.1); [rewrite mem_head|exact: di].
  have [nb st] := pair_step sc di al a1; rewrite orbF; split=> //.
  rewrite !cats0 => m _; have {st} := st m h1 h2; rewrite /npairs.
  case: ifP => _; first by exists [::].
  by move=> [w [w1 w2 w3 w4 w5]]; exists [:: w].
have -> : sem D lo (x :: ps) (z :: xs) =
  [/\ ordered lo (Some z), intv D x.1 lo (Some z), desc D x.2 z & sem D (Some z) ps xs] by case: (ps).
case: (eqVneq ps [::]) => [->|n0]; first by case.
have eE : ends (x :: ps) = x.2 :: ends ps by case: (ps) n0.
have lE : last (0, 0) (x :: ps) = last (0, 0) ps by case: (ps) n0.
move: pth => /= /and3P[h1 h2 h3] [oz di dz sm] al a1 ha nr.
have sc : sign_change (E p) lo (Some z).
  apply: interval_change => // y ya yb; apply: (nr x.1); [rewrite mem_head|exact: di] => //.
have ax : a x.2 = usg (E p) (Some z) by apply: ha; rewrite -/(ends (x :: ps)) eE mem_head.
have [nb st] := pair_step sc di al ax.
have [||||nb' st'] := IH x.2 (Some z) xs h3 sm => //.
- by rewrite -lE.
- by move=> e y he; apply: ha; rewrite -/(ends (x :: ps)) eE inE he orbT.
- by move=> i hi; apply: nr; rewrite inE hi orbT.
rewrite negb_or nb nb'; split=> // m me.
have [||xs' sm'] := st'.
- move=> c sv hc; apply: m; rewrite dget_cat ifN //; apply/negP => /(plan1_cols h1 h2)/andP[_ lt].
  have : c \in map fst (plan a x.2 ps).
    by have := dget_keys (plan a x.2 ps) c; case: ifP => // _; rewrite hc.
  by move/(plan_cols h3)/(lt_trans lt); rewrite ltxx.
- by move=> c hc; apply: me; rewrite -/(ends (x :: ps)) eE inE hc orbT.
have dz' : desc D' x.2 z.
  by apply: (desc_new (me x.2 _)) => //; rewrite -/(ends (x :: ps)) eE mem_head.
have semC y l' z' xs'' : sem D' l' (y :: newprs a x.2 ps) (z' :: xs'') =
  [/\ ordered l' (Some z'), intv D' y.1 l' (Some z'), desc D' y.2 z' & sem D' (Some z') (newprs a x.2 ps) xs''].
  by case: (newprs _ _ _).
have {st} : if keep a l x.2 then intv D' x.1 lo (Some z)
   else exists w, [/\ ordered lo (Some w), ordered (Some w) (Some z), intv D' ((x.1 + l) / 2%:R) lo (Some w),
     desc D' x.1 w & intv D' ((x.1 + x.2) / 2%:R) (Some w) (Some z)].
  apply: st => // c sv hc; apply: m; rewrite dget_cat ifT //.
  by have := dget_keys (plan1 a l x) c; case: ifP => // _; rewrite hc.
rewrite /npairs; case: ifP => _.
  by move=> di'; exists (z :: xs'); rewrite semC.
by move=> [w [w1 w2 w3 w4 w5]]; exists (w :: z :: xs'); split=> //; rewrite semC.
Qed.
End Step.
End Sem.

Section Real.
Variables (P : eqType) (K : realDomainType) (A : algebra P K).
Variables (C : idomainType) (den : P -> {poly C}).
Hypothesis ok : algebra_contract A den.
Variable setiter : seq P -> seq P.
Hypothesis order : set_order setiter.
Implicit Types (D : diagram P [eqType of rat]).

Local Notation zero := (a_zero A).
Local Notation degree := (a_degree A).
Local Notation rem p q := (a_pseudo_div A p q).2.
Local Notation lcrow p := (a_times A (a_LC A p) (fac (degree p))).
Local Notation sz p := (size (den p)).

(** Everything that the step for [p] reads is in the table. *)
Record ready (T : eqType) (D : diagram P T) p : Prop := {
  rd_new : p \notin rows D;
  rd_size : (1 < sz p)%N;
  rd_rem : forall z, z \in rows D -> z != zero -> rem p z \in rows D;
  rd_lc : forall z, z \in p :: rows D -> lcrow z \in rows D;
  rd_tail : forall z, z \in p :: rows D -> a_tail A z \in rows D;
  rd_der : forall z, z \in p :: rows D -> a_derivative A z \in rows D;
  rd_le : forall z, z \in rows D -> (sz z <= sz p)%N
}.

Lemma ready_rows (T : eqType) (D : diagram P T) p : ready D p -> forall z, z \in rows D -> z != zero ->
  (rem p z \in rows D) && (lcrow z \in rows D).
Proof. by move=> rd z h0 h; rewrite (rd_rem rd) // (rd_lc rd) // inE h0 orbT. Qed.

Lemma real_step_shape D p prs : ready D p -> sinv A D prs ->
  real_step A setiter D p = Err DiagramExc \/
  exists D' prs', [/\ real_step A setiter D p = Ok D', rows D' =i p :: rows D, sinv A D' prs' &
    forall q, q \in rows D -> cell D' q 0 = cell D q 0].
Proof.
move=> rd inv; have pn := rd_new rd; have hr := ready_rows rd.
have hl := rd_lc rd (mem_head _ _); have ht := rd_tail rd (mem_head _ _).
case: (eqVneq (vd D (lcrow p) 0) 0) => [v0|v0].
  have [D' E [h0 h1 h2]] := real_step_copy ok setiter inv pn hl ht v0.
  right; exists D', prs; split=> // q hq; rewrite h0 ifN //.
  by apply: contraNneq pn => <-.
have := real_stepE order inv pn hr hl v0.
case: ifP => [_|/negbT nb]; first by left.
move=> [D' E [h1 h2]]; right; exists D', (newprs (aval A setiter D p) 0 prs); split=> //.
  exact: plan_inv v0 nb h1 h2.
move=> q hq; rewrite h1; have := dget_keys (plan (aval A setiter D p) 0 prs) 0.
case: ifP => [/(plan_cols (sv_path inv))|_ ->]; first by rewrite ltxx.
by have /negbTE-> : q != p by apply: contraNneq pn => <-.
Qed.

Variables (R : rcfType) (ev : {rmorphism C -> R}).
Let E p : {poly R} := map_poly ev (den p).
Let lc p : R := ev (lead_coef (den p)).

Lemma E_zero : E zero = 0.
Proof. by rewrite /E (den_zero ok) rmorph0. Qed.

Lemma E_tail p : lc p = 0 -> E (a_tail A p) = E p.
Proof.
by move=> h; rewrite /E (den_tail ok) rmorphB /= map_polyZ /= -/(lc p) h scale0r subr0.
Qed.

Lemma E_size p : lc p != 0 -> size (E p) = sz p.
Proof. exact: size_map_poly_id0. Qed.

Lemma E_lead p : lc p != 0 -> lead_coef (E p) = lc p.
Proof. by move=> h; rewrite /E lead_coef_map_id0 ?rmorph0. Qed.

Lemma E_der p : E (a_derivative A p) = (E p)^`().
Proof. by rewrite /E (den_derivative ok) deriv_map. Qed.

Lemma E_lcrow p : E (lcrow p) = (lc p *+ fac (degree p))%:P.
Proof.
by rewrite /E (den_times ok) rmorphMn /= (den_LC ok) map_polyC polyCMn.
Qed.

Lemma fac_gt0 n : (0 < fac n)%N.
Proof. by elim: n => //= n IH; rewrite muln_gt0. Qed.

Lemma sgz_lcrow p y : sgz (E (lcrow p)).[y] = sgz (lc p).
Proof.
by rewrite E_lcrow hornerC -mulr_natr sgzM [sgz _%:R]gtr0_sgz ?mulr1 // ltr0n fac_gt0.
Qed.

Record tinv D prs : Prop := {
  ti_shape : sinv A D prs;
  ti_sem : exists xs, sem E D None prs xs;
  ti_minf : forall q, q \in rows D -> vd D q 0 = lsg (E q) None;
  ti_pinf : forall q, q \in rows D -> vd D q 1 = usg (E q) None
}.

Lemma lsg_lcrow p : lsg (E (lcrow p)) None = sgz (lc p).
Proof.
rewrite /lsg E_lcrow lead_coefC -mulr_natr sgzM [sgz _%:R]gtr0_sgz ?ltr0n ?fac_gt0 // mulr1.
case: (eqVneq (lc p) 0) => [->|n0]; first by rewrite sgz0 mul0r.
by rewrite size_polyC; case: eqP; rewrite /= mulr1.
Qed.

Lemma usg_lcrow p : usg (E (lcrow p)) None = sgz (lc p).
Proof. by rewrite /usg E_lcrow lead_coefC -mulr_natr sgzM [sgz _%:R]gtr0_sgz ?ltr0n ?fac_gt0 // mulr1. Qed.

Lemma lsg_eq0 (Q : {poly R}) : (lsg Q None == 0) = (Q == 0).
Proof. by rewrite /lsg mulf_eq0 signr_eq0 orbF sgz_eq0 lead_coef_eq0. Qed.

Section Meaning.
Variable D : diagram P [eqType of rat].

Lemma sem_mem lo ps xs : sem E D lo ps xs ->
  (forall c, c \in map fst ps -> exists y, desc E D c y) /\
  (forall c, c \in ends ps -> exists y, desc E D c y).
Proof.
have pt (l h : option R) : ordered l h -> exists y, above l y && below h y.
  case: l h => [l|] [h|] //= o.
  - by have [h1 h2] := midf_lt o; exists ((l + h) / 2%:R); rewrite h1 h2.
  - by exists (l + 1); rewrite ltr_addl ltr01.
  - by exists (h - 1); rewrite ltr_subl_addr ltr_addl ltr01.
  - by exists 0.
elim: ps lo xs => [|x ps IH] lo xs; first by [].
case: xs => [|z xs].
  case: ps {IH} => // di; split=> c //=; rewrite inE => /eqP->.
  have [|y /andP[h1 h2]] := pt lo None; first by case: (lo).
  by exists y; exact: di.
have -> : sem E D lo (x :: ps) (z :: xs) =
  [/\ ordered lo (Some z), intv E D x.1 lo (Some z), desc E D x.2 z & sem E D (Some z) ps xs] by case: (ps).
move=> [oz di dz /IH[h1 h2]]; split=> c.
  rewrite inE => /orP[/eqP->|/h1 //].
  by have [y /andP[y1 y2]] := pt _ _ oz; exists y; exact: di.
case: ps h2 {IH h1} => // y ps h2; rewrite [ends _]/= inE => /orP[/eqP->|/h2 //].
by exists z.
Qed.

Lemma sem_cover lo ps xs x : sem E D lo ps xs -> above lo x ->
  exists2 c, c \in flat ps & desc E D c x.
Proof.
elim: ps lo xs => [//|y ps IH] lo [|z xs].
  case: ps {IH} => // di ax; exists y.1; first exact: mem_head.
  exact: di.
have -> : sem E D lo (y :: ps) (z :: xs) =
  [/\ ordered lo (Some z), intv E D y.1 lo (Some z), desc E D y.2 z & sem E D (Some z) ps xs] by case: (ps).
move=> [oz di dz sm] ax; case: (ltrgtP x z) => [xz|zx|->].
- by exists y.1; [exact: mem_head|exact: di].
- by have [c hc d] := IH _ _ sm zx; exists c => //; rewrite !inE hc !orbT.
- by exists y.2 => //; rewrite !inE eqxx orbT.
Qed.

Lemma sem_first ps xs : sem E D None ps xs -> exists hi, intv E D (head (0, 0) ps).1 None hi.
Proof.
case: ps xs => [//|x [|y ps]] [|z xs] //=; first by exists None.
  by case=> _ h _ _; exists (Some z).
by case=> _ h _ _; exists (Some z).
Qed.

Lemma sem_last lo ps xs : sem E D lo ps xs -> exists lo', intv E D (last (0, 0) ps).1 lo' None.
Proof.
elim: ps lo xs => [//|x ps IH] lo [|z xs]; first by case: ps {IH} => // h; exists lo.
have -> : sem E D lo (x :: ps) (z :: xs) =
  [/\ ordered lo (Some z), intv E D x.1 lo (Some z), desc E D x.2 z & sem E D (Some z) ps xs] by case: (ps).
by case: (eqVneq ps [::]) => [->|n0] [_ _ _] // /IH; case: (ps) n0.
Qed.

Lemma tinv_table prs s : tinv D prs -> rows D =i s -> sign_table den ev s D.
Proof.
move=> inv rE; have sh := ti_shape inv; have [xs sm] := ti_sem inv.
have okc c x : c \in allcols prs -> desc E D c x -> forall q, q \in s -> cell D q c = Ok (sgz (value den ev q x)).
  by move=> hc d q; rewrite -rE => hq; rewrite cell_vd ?d // (sv_cols sh).
have flatc c : c \in flat prs -> c \in allcols prs by rewrite [c \in allcols _]inE orbC => ->.
have hd : (head (0, 0) prs).1 \in map fst prs.
  by case: (prs) (sv_nil sh) => // x ? _; rewrite mem_head.
have lst : (last (0, 0) prs).1 \in map fst prs.
  by case: (prs) (sv_nil sh) => // x l _; rewrite /= (map_f fst (mem_last x l)).
have [h1 h2] := sem_mem sm.
exists (allcols prs); split.
- by move=> q; rewrite -rE; exact: sv_cols sh q.
- move=> c hc; suff [x d] : exists x, desc E D c x by exists x; exact: okc.
  move: (hc); rewrite inE mem_flat => /or3P[/eqP->|/h1 //|].
    have [hi di] := sem_first sm.
    have [y yb] : exists y, below hi y by case: (hi) => [b|]; [exists (b - 1); rewrite /= ltr_subl_addr ltr_addl ltr01|exists 0].
    exists y => q hq; have /hasPn/(_ q hq) := sv_int sh hd.
    rewrite /isroot (di y) // sgz_eq0 negb_and negbK (ti_minf inv) // lsg_eq0 => /orP[ny|/eqP->]; last first.
      by rewrite horner0 sgz0 /lsg lead_coef0 sgz0 mul0r.
    rewrite /lsg; symmetry; apply: (sgz_minf (a := y)) => // y' le; rewrite rootE -sgz_eq0 -(di y') //.
      by rewrite (di y) // sgz_eq0.
    by case: (hi) yb => //= b; exact: le_lt_trans.
  rewrite snd_ends ?(sv_nil sh) // (sv_last sh) inE => /orP[/eqP->|/h2 //].
  have [lo di] := sem_last sm.
  have [y ya] : exists y, above lo y by case: (lo) => [b|]; [exists (b + 1); rewrite /= ltr_addl ltr01|exists 0].
  exists y => q hq; have /hasPn/(_ q hq) := sv_int sh lst.
  rewrite /isroot (di y) // sgz_eq0 negb_and negbK (ti_pinf inv) // (ti_minf inv) // lsg_eq0 => /orP[ny|/eqP->]; last first.
    by rewrite horner0 sgz0 /usg lead_coef0 sgz0.
  rewrite /usg; symmetry; apply: (sgz_pinf (b := y)) => // y' le; rewrite rootE -sgz_eq0 -(di y') //.
    by rewrite (di y) // sgz_eq0.
  by case: (lo) ya => //= b h; exact: lt_le_trans h le.
- move=> x; have [|c hc d] := sem_cover (x := x) sm; first by [].
  by exists c; [exact: flatc|apply: okc => //; exact: flatc].
Qed.
End Meaning.

Section One.
Variables (D : diagram P [eqType of rat]) (p : P) (prs : seq (rat * rat)).
Hypothesis rd : ready D p.
Hypothesis inv : tinv D prs.

Lemma isrootE c y : desc E D c y -> forall q, q \in rows D ->
  isroot D 0 c q = (E q != 0) && ((E q).[y] == 0).
Proof. by move=> d q hq; rewrite /isroot d // (ti_minf inv) // sgz_eq0 lsg_eq0 andbC. Qed.

(** The first zero has a leading coefficient that does not vanish. *)
Lemma first_zero c y z : desc E D c y -> z \in rows D -> isroot D 0 c z ->
  (forall q, q \in rows D -> isroot D 0 c q -> (degree z <= degree q)%N) -> lc z != 0.
Proof.
move=> d hz rz mn; apply/eqP => l0.
have ht : a_tail A z \in rows D by apply: (rd_tail rd); rewrite inE hz orbT.
move: (rz); rewrite (isrootE d hz) => /andP[z0 zy].
have zn : z != zero by apply: contraNneq z0 => ->; rewrite E_zero.
have := mn _ ht; rewrite (isrootE d ht) E_tail // z0 zy => /(_ isT).
have := sz_tail ok zn; rewrite !(den_degree ok).
have n1 : (1 < sz z)%N.
  rewrite ltnNge; apply/negP => /size1_polyC Ek.
  by move: l0 z0; rewrite /lc /E Ek lead_coefC map_polyC /= => ->; rewrite eqxx.
by move: n1; lia.
Qed.

Lemma rootvalE c y : c \in allcols prs -> desc E D c y -> rootcol D c -> 
  rootval A setiter D p c = sgz (E p).[y].
Proof.
move=> hc d rc; rewrite /rootval.
have := zeros_head A order (rest_full (ti_shape inv) hc); rewrite -/(rootcol D c) rc.
move=> [z [zs [-> hz rz mn]]]; have lz := first_zero d hz rz mn.
move: (rz); rewrite (isrootE d hz) => /andP[z0 /eqP zy].
have zn : z != zero by apply: contraNneq z0 => ->; rewrite E_zero.
have /andP[hrem hl] := ready_rows rd hz zn.
rewrite !d // sgz_lcrow.
have dz : den z != 0 by rewrite (den_eq0 ok).
have le := rd_le rd hz.
have [u Eu _] := den_pseudo_div ok dz le.
have : lc z ^+ (sz p - sz z).+1 * (E p).[y] = (E (rem p z)).[y].
  have /(congr1 (fun Q => Q.[y])) := congr1 (map_poly ev) Eu.
  rewrite rmorphD rmorphM /= map_polyZ /= rmorphX hornerZ hornerD hornerM -/(E z) zy mulr0 add0r.
  by [].
move/(congr1 (@sgz _)); rewrite sgzM sgzX => <-.
have -> : odd (degree p + degree z + 1) = odd (sz p - sz z).+1.
  rewrite !(den_degree ok); have := rd_size rd; move: le; have : (0 < sz z)%N by rewrite lt0n (sz_eq0 ok).
  by lia.
case: (ltrgtP (lc z) 0) lz => // sl _; rewrite ?(gtr0_sgz sl) ?(ltr0_sgz sl) ?expr1n ?mul1r //=.
by rewrite -signr_odd /=; case: (odd _); rewrite /= ?expr1 ?mulN1r ?opprK ?expr0 ?mul1r.
Qed.

(** The values that the new row takes at the points, and the table after the
    step. *)
Lemma aval_sem xs : lc p != 0 -> sem E D None prs xs ->
  [/\ aval A setiter D p 0 = lsg (E p) None, aval A setiter D p 1 = usg (E p) None &
      forall e x, (e, x) \in zip (ends prs) xs -> aval A setiter D p e = sgz (E p).[x]].
Proof.
move=> l0 sm; have sh := ti_shape inv; have hl := rd_lc rd (mem_head _ _).
have vlc : vd D (lcrow p) 0 = sgz (lc p) by rewrite (ti_minf inv) // lsg_lcrow.
split.
- by rewrite /aval eqxx vlc /lsg E_lead // E_size // (den_degree ok).
- by rewrite /aval eqxx (ti_pinf inv) // usg_lcrow /usg E_lead.
move=> e x /(sem_zip sm)[he dx]; rewrite (aval_ends _ _ sh he); apply: rootvalE => //; last exact: sv_pt sh _ he.
by rewrite inE mem_flat (mem_ends he) !orbT.
Qed.

Lemma real_step_sem_lc : lc p != 0 ->
  exists2 D', [/\ real_step A setiter D p = Ok D', rows D' =i p :: rows D &
    tinv D' (newprs (aval A setiter D p) 0 prs)] &
    (forall c sv, dget (plan (aval A setiter D p) 0 prs) c = Ok sv -> matches D D' p c sv) /\
    (forall c, c \in 0 :: map snd prs -> matches D D' p c (c, aval A setiter D p c)).
Proof.
move=> l0; have sh := ti_shape inv; have pn := rd_new rd; have hr := ready_rows rd.
have hl := rd_lc rd (mem_head _ _).
have vlc : vd D (lcrow p) 0 = sgz (lc p) by rewrite (ti_minf inv) // lsg_lcrow.
have v0 : vd D (lcrow p) 0 != 0 by rewrite vlc sgz_eq0.
have [xs sm] := ti_sem inv; have [a0 a1 ae] := aval_sem l0 sm.
have Ep0 : E p != 0 by rewrite -size_poly_gt0 E_size // (ltn_trans _ (rd_size rd)).
have Ed0 : E (a_derivative A p) != 0.
  by rewrite E_der -size_poly_gt0 size_deriv E_size //; case: (sz p) (rd_size rd).
have ad i : i \in map fst prs -> forall y, desc E D i y -> (E p)^`().[y] != 0.
  move=> hi y dy; have /hasPn/(_ _ (rd_der rd (mem_head _ _))) := sv_int sh hi.
  by rewrite (isrootE dy (rd_der rd (mem_head _ _))) Ed0 E_der.
have a1' : aval A setiter D p (last (0, 0) prs).2 = usg (E p) None by rewrite (sv_last sh).
have := real_stepE order sh pn hr hl v0.
have [nb _] := sem_step (rows_touch D p) Ep0 (sv_path sh) sm a0 a1' ae ad.
rewrite (negbTE nb) => -[D' Er [h1 h2]].
have sh' := plan_inv sh pn v0 nb h1 h2.
have pth := sv_path sh; set a := aval A setiter D p in nb h1 sh' *.
have keys c : c \notin map fst (plan a 0 prs) -> dget (plan a 0 prs) c = Err KeyError.
  by move=> /negbTE h; have := dget_keys (plan a 0 prs) c; rewrite h.
have k0 : 0 \notin map fst (plan a 0 prs).
  by apply/negP => /(plan_cols pth); rewrite ltxx.
have ks c : c \in map snd prs -> c \notin map fst (plan a 0 prs).
  exact: (@plan_snd a 0 prs pth c).
have one : 1 \in map snd prs by rewrite (snd_ends (sv_nil sh)) (sv_last sh) mem_head.
have mt c sv : dget (plan a 0 prs) c = Ok sv -> matches D D' p c sv.
  move=> Ec; split=> [|q hq]; rewrite /vd h1 Ec ?eqxx // hq ifN //.
  by apply: contraNneq pn => <-.
have same c : c \in 0 :: map snd prs -> matches D D' p c (c, a c).
  move=> hc; have nk : c \notin map fst (plan a 0 prs).
    by move: hc; rewrite inE => /orP[/eqP->|/ks].
  split=> [|q hq]; rewrite /vd h1 keys // ?eqxx ?hc //.
  by have /negbTE-> : q != p by apply: contraNneq pn => <-.
exists D'; last by split.
split=> //; split=> //.
- have [_ []] := sem_step h2 Ep0 (sv_path sh) sm a0 a1' ae ad => //.
    by move=> c hc; apply: same; rewrite inE (mem_ends hc) orbT.
  by move=> xs' sm'; exists xs'.
- move=> q; rewrite h2 inE; have [s1 s2] := same 0 (mem_head _ _).
  case: (eqVneq q p) => [-> _|_ /= hq]; first by rewrite s1.
  by rewrite s2 //; exact: ti_minf inv _ hq.
- move=> q; rewrite h2 inE; have [|s1 s2] := same 1; first by rewrite inE one orbT.
  case: (eqVneq q p) => [-> _|_ /= hq]; first by rewrite s1.
  by rewrite s2 //; exact: ti_pinf inv _ hq.
Qed.

Lemma real_step_sem : exists D' prs',
  [/\ real_step A setiter D p = Ok D', rows D' =i p :: rows D & tinv D' prs'].
Proof.
have sh := ti_shape inv; have pn := rd_new rd; have hr := ready_rows rd.
have hl := rd_lc rd (mem_head _ _); have ht := rd_tail rd (mem_head _ _).
have vlc : vd D (lcrow p) 0 = sgz (lc p) by rewrite (ti_minf inv) // lsg_lcrow.
case: (eqVneq (lc p) 0) => [l0|l0]; last first.
  by have [D' [h1 h2 h3] _] := real_step_sem_lc l0; exists D', (newprs (aval A setiter D p) 0 prs).
have v0 : vd D (lcrow p) 0 = 0 by rewrite vlc l0 sgz0.
have [D' Er [h1 h2 h3]] := real_step_copy ok setiter sh pn hl ht v0.
exists D', prs; split=> //; split=> //.
- have [xs sm] := ti_sem inv; exists xs; move: sm; apply: sem_ext => c y d q.
  rewrite h2 inE /vd h1; case: (eqVneq q p) => [-> _|_ /= hq]; last exact: d.
  by rewrite -E_tail //; exact: d.
- move=> q; rewrite h2 inE /vd h1; case: (eqVneq q p) => [-> _|_ /= hq]; last exact: ti_minf inv _ hq.
  by rewrite -E_tail //; exact: ti_minf inv _ ht.
- move=> q; rewrite h2 inE /vd h1; case: (eqVneq q p) => [-> _|_ /= hq]; last exact: ti_pinf inv _ hq.
  by rewrite -E_tail //; exact: ti_pinf inv _ ht.
Qed.

End One.
End Real.
