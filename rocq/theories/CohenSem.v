(** What the tables mean at a value of the parameters: copy_table. *)
From mathcomp Require Import all_ssreflect all_algebra all_real_closed.
From mathcomp.zify Require Import zify.
From Verif Require Import Py MuchModel MuchSpec MuchSeq MuchRoot MuchDiag MuchStep MuchSem.
From Verif Require Import CohenModel CohenSpec CohenExp CohenCopy.

Set Implicit Arguments.
Unset Strict Implicit.
Unset Printing Implicit Defensive.
Import GRing.Theory Num.Theory Order.TTheory.
Local Open Scope ring_scope.

Section Line.
Variables (P : eqType) (R : rcfType) (E : P -> {poly R}).
Implicit Types (D T : diagram P [eqType of rat]) (lo hi : option R).

Lemma between_pt lo hi : ordered lo hi -> exists y : R, above lo y && below hi y.
Proof.
case: lo hi => [l|] [h|] //= o.
- by have [h1 h2] := midf_lt o; exists ((l + h) / 2%:R); rewrite h1 h2.
- by exists (l + 1); rewrite ltr_addl ltr01.
- by exists (h - 1); rewrite ltr_subl_addr ltr_addl ltr01.
- by exists 0.
Qed.

Lemma semC D lo x y ps z xs : sem E D lo [:: x, y & ps] (z :: xs) =
  [/\ ordered lo (Some z), intv E D x.1 lo (Some z), desc E D x.2 z & sem E D (Some z) (y :: ps) xs].
Proof. by []. Qed.

Lemma sem1 D lo x z xs : ~ sem E D lo [:: x] (z :: xs).
Proof. by case. Qed.

Lemma sem_ordered D lo ps xs : sem E D lo ps xs -> ordered lo (ohead xs).
Proof. by case: ps xs => [//|x [|y ps]] [|z xs] //; [case: lo|case|case]. Qed.

Lemma sem_intv D lo ps xs : sem E D lo ps xs -> intv E D (head (0, 0) ps).1 lo (ohead xs).
Proof. by case: ps xs => [//|x [|y ps]] [|z xs] //=; [case|case]. Qed.

Lemma same_sign (Q : {poly R}) lo hi y y' : (forall t, above lo t -> below hi t -> Q.[t] != 0) ->
  above lo y -> below hi y -> above lo y' -> below hi y' -> sgz Q.[y] = sgz Q.[y'].
Proof.
wlog le : y y' / y <= y'.
  by move=> w nr h1 h2 h3 h4; case: (lerP y y') => [|/ltW] le; [exact: w|symmetry; exact: w].
move=> nr h1 h2 h3 h4.
have nr' : {in `[y, y'], forall t, ~~ root Q t}.
  move=> t; rewrite in_itv /= => /andP[t1 t2]; rewrite rootE; apply: nr.
    by case: (lo) h1 => //= a /lt_le_trans; apply.
  by case: (hi) h4 => //= b; exact: le_lt_trans.
have hy : y \in `[y, y'] by rewrite in_itv /= lexx le.
have hy' : y' \in `[y, y'] by rewrite in_itv /= lexx le.
by have := polyrN0_itv nr' hy hy'; rewrite !sgrEz => /intr_inj.
Qed.

Lemma sem_where D lo ps xs x : sem E D lo ps xs -> above lo x ->
  x \in xs \/ exists2 c, c \in map fst ps & desc E D c x.
Proof.
elim: ps lo xs => [//|y [|y' ps] IH] lo [|z xs] //.
- by move=> di ax; right; exists y.1; [exact: mem_head|exact: di].
- by case/sem1.
rewrite semC => -[oz di dz sm] ax; case: (ltrgtP x z) => [xz|zx|->].
- by right; exists y.1; [exact: mem_head|exact: di].
- have [h|[c hc d]] := IH _ _ sm zx; first by left; rewrite inE h orbT.
  by right; exists c => //; rewrite inE hc orbT.
- by left; exact: mem_head.
Qed.

Lemma sem_point D lo ps xs x : sem E D lo ps xs -> x \in xs -> exists2 c, c \in ends ps & desc E D c x.
Proof.
elim: ps lo xs => [//|y [|y' ps] IH] lo [|z xs] //; first by case/sem1.
rewrite semC ends2 => -[oz di dz sm]; rewrite inE => /orP[/eqP->|/(IH _ _ sm)[c hc d]].
  by exists y.2 => //; exact: mem_head.
by exists c => //; rewrite inE hc orbT.
Qed.

Lemma sem_open D lo ps xs c : sem E D lo ps xs -> c \in map fst ps ->
  exists l h, ordered l h /\ intv E D c l h.
Proof.
elim: ps lo xs => [//|y [|y' ps] IH] lo [|z xs] //.
- by move=> di; rewrite inE => /eqP->; exists lo, None; split=> //; case: (lo).
- by case/sem1.
rewrite semC => -[oz di dz sm]; rewrite inE => /orP[/eqP->|/(IH _ _ sm)//].
by exists lo, (Some z).
Qed.

(** By index. *)
Definition pathlo lo (xs : seq R) : bool := if lo is Some a then path <%R a xs else sorted <%R xs.

Lemma sem_index D lo ps xs : sem E D lo ps xs ->
  [/\ size ps = (size xs).+1, pathlo lo xs,
      forall i, (i < size xs)%N -> desc E D (nth 0 (ends ps) i) (nth 0 xs i) &
      forall i y, (i <= size xs)%N -> above lo y -> between_points xs i y -> desc E D (nth 0 (map fst ps) i) y].
Proof.
elim: ps lo xs => [//|x [|x' ps] IH] lo [|z xs] //.
- by move=> di; split=> //; [case: (lo)|move=> [|i] // y _ ya _; exact: di].
- by case/sem1.
rewrite semC => -[oz di dz /IH[h1 h2 h3 h4]]; split.
- by rewrite /= -h1.
- by case: (lo) oz => //= a ->.
- by case=> [|i] //=; rewrite ltnS => /h3.
- case=> [|i] y; first by move=> _ ya [_ /(_ 0%N isT isT)]; exact: di.
  rewrite ltnS => hi ya [b1 b2]; apply: h4 => //; first by have := b1 0%N isT.
  by split=> [j hj|j h hj]; [exact: (b1 j.+1)|exact: (b2 j.+1)].
Qed.

Lemma index_sem D lo is_ es xs : size is_ = (size xs).+1 -> size es = size xs -> pathlo lo xs ->
  (forall i, (i < size xs)%N -> desc E D (nth 0 es i) (nth 0 xs i)) ->
  (forall i y, (i <= size xs)%N -> above lo y -> between_points xs i y -> desc E D (nth 0 is_ i) y) ->
  sem E D lo (zip is_ (rcons es 1)) xs.
Proof.
elim: xs lo is_ es => [|z xs IH] lo [|i is_] [|e es] //.
  case: is_ => // _ _ _ _ h y ya _; apply: (h 0%N) => //.
move=> [s1] [s2] pth h1 h2; rewrite rcons_cons.
have [i' [is' Ei]] : exists i' is', is_ = i' :: is' by case: (is_) s1 => // i' is'; exists i', is'.
have [e' [es' Ee]] : exists e' es', rcons es 1 = e' :: es' by case: (es) => [|e' es']; do 2 eexists.
have pz : path <%R z xs by case: (lo) pth => //= a /andP[].
have sm : sem E D (Some z) (zip is_ (rcons es 1)) xs.
  apply: IH => //.
    by move=> j hj; apply: (h1 j.+1).
  move=> j y hj zy [b1 b2]; apply: (h2 j.+1) => //.
    by case: (lo) pth => //= a /andP[az _]; exact: lt_trans zy.
  split=> [[|k] hk|[|k] hk hk'] //=; first exact: b1.
  exact: b2.
move: sm; rewrite Ei Ee /= => sm; split=> //.
- by case: (lo) pth => //= a /andP[].
- move=> y ya yz; apply: (h2 0%N) => //; split=> // -[|j] _ //=; rewrite ltnS => hj.
  by apply: (lt_trans yz); move: pz; rewrite (path_sortedE lt_trans) => /andP[/allP/(_ _ (mem_nth 0 hj))].
- exact: (h1 0%N).
Qed.

(** A polynomial that vanishes on an interval is zero. *)
Lemma vanishes (Q : {poly R}) lo hi : ordered lo hi -> (forall y, above lo y -> below hi y -> Q.[y] = 0) -> Q = 0.
Proof.
move=> o h; have [a /andP[a1 a2]] := between_pt o.
have [|b /andP[ab b2]] := @between_pt (Some a) hi; first by case: (hi) a2.
have rt y : a < y -> y < b -> Q.[y] = 0.
  move=> ay yb; apply: h; first by case: (lo) a1 => //= c /lt_trans; apply.
  by case: (hi) b2 => //= c; exact: lt_trans.
case: (next_rootP Q a b) => [//|y Q0 _ hy nr|c Q0 _ nr].
  have ay : a < y by have := hy; rewrite in_itv /= => /andP[].
  have yb : y < b by have := hy; rewrite in_itv /= => /andP[].
  have [m1 m2] := midf_lt ay; have := nr ((a + y) / 2%:R); rewrite in_itv /= m1 m2 => /(_ isT).
  by rewrite rootE rt ?eqxx // (lt_trans m2).
have [m1 m2] := midf_lt ab; have := nr ((a + b) / 2%:R); rewrite in_itv /= m1 m2 => /(_ isT).
by rewrite rootE rt ?eqxx.
Qed.

Section Merge.
Variables (kp : rat -> bool) (T D : diagram P [eqType of rat]).

Lemma merged_intv i lo0 hi y0 : above lo0 y0 -> below hi y0 -> desc E D i y0 ->
  (forall q y, q \in rows D -> E q != 0 -> above lo0 y -> below hi y -> (E q).[y] != 0) -> intv E D i lo0 hi.
Proof.
move=> a0 b0 d0 nr y ya yb q hq; rewrite d0 //.
case: (eqVneq (E q) 0) => [->|n0]; first by rewrite !horner0.
by apply: (same_sign (lo := lo0) (hi := hi)) => // t; exact: nr.
Qed.

Lemma mrg_sem ps lo xs i lo0 y0 : sem E T lo ps xs -> (forall y, above lo y -> above lo0 y) ->
  above lo0 y0 -> below (ohead xs) y0 -> desc E D i y0 ->
  (forall q y, q \in rows D -> E q != 0 -> above lo0 y -> ~~ above lo y -> (E q).[y] != 0) ->
  (forall c y, c \in map fst ps -> desc E T c y -> forall q, q \in rows D -> E q != 0 -> (E q).[y] != 0) ->
  (forall c y, c \in ends ps -> ~~ kp c -> desc E T c y -> forall q, q \in rows D -> E q != 0 -> (E q).[y] != 0) ->
  (forall c y, c \in krest kp ps -> desc E T c y -> desc E D c y) ->
  exists2 xs', sem E D lo0 (mrg kp i ps) xs' &
    forall e x, (e, x) \in zip (ends (mrg kp i ps)) xs' -> desc E T e x.
Proof.
elim: ps lo xs i lo0 y0 => [//|x [|y ps] IH] lo xs i lo0 y0.
  case: xs => [|z xs]; last by case/sem1.
  move=> di le a0 b0 d0 nr hi _ _; exists [::]; last by [].
  apply: (merged_intv a0) => // q t hq n0 ta _.
  case tl: (above lo t); last by apply: nr => //; rewrite tl.
  by apply: (hi x.1) => //; [exact: mem_head|exact: di].
case: xs => [//|z xs]; rewrite semC mrg2 => -[oz di dz sm] le a0 b0 d0 nr hi hr hc.
have nrz q t : q \in rows D -> E q != 0 -> above lo0 t -> below (Some z) t -> (E q).[t] != 0.
  move=> hq n0 ta tb; case tl: (above lo t); last by apply: nr => //; rewrite tl.
  by apply: (hi x.1) => //; [exact: mem_head|exact: di].
have oz0 : ordered lo0 (Some z).
  have [t /andP[t1 t2]] := between_pt oz; have := le t t1.
  by case: (lo0) => //= b /lt_trans; apply.
case: ifP => kx.
  have [t /andP[t1 t2]] := between_pt (sem_ordered sm).
  have [||||||xs' sm' zp] := IH _ _ y.1 (Some z) t sm _ t1 t2 => //.
  - apply: hc; first by rewrite krest2 kx mem_cat !inE eqxx orbT.
    by have := sem_intv sm; apply.
  - by move=> q u _ _ /= ->.
  - by move=> c u hcc; apply: hi; rewrite inE hcc orbT.
  - by move=> c u hcc; apply: hr; rewrite ends2 inE hcc orbT.
  - by move=> c u hcc; apply: hc; rewrite krest2 mem_cat hcc orbT.
  have [y' [ps' Em]] : exists y' ps', mrg kp y.1 (y :: ps) = y' :: ps'.
    by have := mrg_nil kp y.1 (y :: ps); case: (mrg kp y.1 (y :: ps)) => // y' ps' _; exists y', ps'.
  rewrite Em in sm' zp *; exists (z :: xs'); last by move=> e w; rewrite ends2 /= inE => /orP[/eqP[-> ->//]|/zp].
  rewrite semC; split=> //.
    exact: merged_intv a0 b0 d0 nrz.
  by apply: hc => //; rewrite krest2 kx mem_cat !inE eqxx.
have bz : below (ohead xs) y0.
  by have := sem_ordered sm; case: (xs) => //= w _ zw; exact: lt_trans zw.
have [|||||xs' sm' zp] := IH _ _ i lo0 y0 sm _ a0 bz d0 => //; last by exists xs'.
- by move=> t /= zt; case: (lo0) oz0 => //= b bz0; exact: lt_trans zt.
- move=> q t hq n0 ta; rewrite /= -leNgt le_eqVlt => /orP[/eqP->|tz]; last exact: nrz.
  by apply: (hr x.2) => //; [rewrite ends2 mem_head|rewrite kx].
- by move=> c u hcc; apply: hi; rewrite inE hcc orbT.
- by move=> c u hcc; apply: hr; rewrite ends2 inE hcc orbT.
- by move=> c u hcc; apply: hc; rewrite krest2 mem_cat hcc orbT.
Qed.
End Merge.
End Line.

Section Tables.
Variables (P : eqType) (K : realDomainType) (A : algebra P K).
Variables (C : idomainType) (den : P -> {poly C}).
Hypothesis ok : algebra_contract A den.
Hypothesis scal : scalars_exact A den.
Variable setiter : seq P -> seq P.
Hypothesis order : set_order setiter.
Notation table := (diagram P [eqType of rat]).
Implicit Types (D T : table) (con : context P).

Local Notation zero := (a_zero A).
Local Notation hv := (a_has_variable A).

Section At.
Variables (R : rcfType) (ev : {rmorphism C -> R}).
Hypothesis sgn : sign_ok A den ev.
Let E p : {poly R} := map_poly ev (den p).

(** [D] is right. *)
Record tok D prs xs : Prop := {
  tk_sem : sem E D None prs xs;
  tk_minf : forall q, q \in rows D -> vd D q 0 = lsg (E q) None;
  tk_pinf : forall q, q \in rows D -> vd D q 1 = usg (E q) None
}.

Lemma tok_root D prs xs c y : tok D prs xs -> desc E D c y -> forall q, q \in rows D ->
  isroot D 0 c q = (E q != 0) && ((E q).[y] == 0).
Proof. by move=> tk d q hq; rewrite /isroot d // (tk_minf tk) // sgz_eq0 lsg_eq0 andbC. Qed.

Lemma const_E p : deg A p <= 0 -> E p = (cvalue den ev p)%:P.
Proof.
move=> /(deg_const ok)/size1_polyC Ep; rewrite /E /cvalue Ep map_polyC /=.
by rewrite coefC.
Qed.

Lemma lsg_const (c : R) : lsg c%:P None = sgz c.
Proof.
rewrite /lsg lead_coefC size_polyC; case: eqP => [->|_]; first by rewrite sgz0 mul0r.
by rewrite /= mulr1.
Qed.

Lemma usg_const (c : R) : usg c%:P None = sgz c.
Proof. by rewrite /usg lead_coefC. Qed.

Section Copy.
Variables (T : table) (prs : seq (rat * rat)) (xs : seq R) (con : context P).
Hypothesis sh : shape A T prs.
Hypothesis tk : tok T prs xs.
Hypothesis cons : consistent den ev con.

Lemma look_constE p c : readable A T con p -> deg A p <= 0 -> look A T con p c = sgz (cvalue den ev p).
Proof.
move=> [_ r2] le; rewrite /look /table_lookup ltNge le /=; case hp: (hv p) => /=; last first.
  by apply: sgn; [exact: deg_const ok _ le|rewrite hp].
rewrite r2 //; have [s Es] := dmem_get (r2 le hp); rewrite Es.
exact: (@csP _ _ _ _ _ (Point sgn) _ _ _ cons Es).
Qed.

Lemma look_minf p : readable A T con p -> look A T con p 0 = lsg (E p) None.
Proof.
move=> rp; case: (ltP 0 (deg A p)) => [pos|le]; last by rewrite look_constE // const_E // lsg_const.
by rewrite look_pos // (tk_minf tk) //; have [r1 _] := rp; exact: r1.
Qed.

Lemma look_pinf p : readable A T con p -> look A T con p 1 = usg (E p) None.
Proof.
move=> rp; case: (ltP 0 (deg A p)) => [pos|le]; last by rewrite look_constE // const_E // usg_const.
by rewrite look_pos // (tk_pinf tk) //; have [r1 _] := rp; exact: r1.
Qed.

Lemma look_desc p c y : readable A T con p -> desc E T c y -> look A T con p c = sgz (E p).[y].
Proof.
move=> rp d; case: (ltP 0 (deg A p)) => [pos|le]; last by rewrite look_constE // const_E // hornerC.
by rewrite look_pos // d //; have [r1 _] := rp; exact: r1.
Qed.

Lemma mtail_gt needed c : c \in mtail (kept T needed) prs -> first_col T prs needed < c.
Proof.
have /andP[_ lt] := first_col_lt sh needed => hc; apply: (lt_le_trans lt); move: hc.
have := mtail_path0 sh (kept T needed); have [y [s ->]] := mtail_head sh (kept T needed).
rewrite /= => /andP[_]; rewrite (path_sortedE lt_trans) => /andP[/allP h _].
by rewrite inE => /orP[/eqP->//|/h/ltW].
Qed.

Lemma krest_neq needed c : c \in krest (kept T needed) prs -> (c == first_col T prs needed) = false.
Proof. by move=> hc; rewrite gt_eqF // mtail_gt // mtail_mem ?(sh_nil sh) // inE hc orbT. Qed.

Lemma krest_all needed c : c \in krest (kept T needed) prs -> c \in allcols (merged T prs needed).
Proof.
by move=> hc; rewrite inE /merged mrg_flat ?(sh_nil sh) // inE mtail_mem ?(sh_nil sh) // inE hc !orbT.
Qed.

Lemma copy_sem needed T' : (forall p, p \in needed -> readable A T con p) ->
  (forall q c, cell T' q c = if (q \in needed) && (c \in allcols (merged T prs needed)) then
      Ok (newval A T prs con needed q c) else Err KeyError) -> rows T' =i needed ->
  exists2 xs', tok T' (merged T prs needed) xs' &
    forall e x, (e, x) \in zip (ends (merged T prs needed)) xs' -> desc E T e x.
Proof.
move=> rd cE rE.
have vE q c : q \in needed -> c \in allcols (merged T prs needed) -> vd T' q c = newval A T prs con needed q c.
  by move=> hq hc; rewrite /vd cE hq hc.
have fc0 := first_col_lt sh needed.
have nfc : (0 == first_col T prs needed) = false by have /andP[h _] := fc0; rewrite lt_eqF.
have fcin : first_col T prs needed \in allcols (merged T prs needed).
  by rewrite /merged inE mrg_flat ?(sh_nil sh) // mem_head orbT.
have one : 1 \in mtail (kept T needed) prs by rewrite mtail_mem ?(sh_nil sh) // (sh_last sh) mem_head.
have nfc1 : (1 == first_col T prs needed) = false by rewrite gt_eqF // mtail_gt.
(* A root of a needed polynomial. *)
have nz c y : desc E T c y -> forall q, q \in rows T' -> E q != 0 -> ~~ rootof T q c -> (E q).[y] != 0.
  move=> d q; rewrite rE => hq n0; case: (ltP 0 (deg A q)) => [pos|le]; last first.
    by move: n0; rewrite const_E // polyC_eq0 hornerC.
  have hqT : q \in rows T by have [r1 _] := rd q hq; exact: r1.
  by rewrite /rootof hqT (tok_root tk d hqT) n0.
have sm := tk_sem tk.
have [y0 /andP[_ y0b]] := between_pt (sem_ordered sm).
have d0 := sem_intv sm (isT : above None y0) y0b.
have hd : (head (0, 0) prs).1 \in map fst prs.
  by case: (prs) (sh_nil sh) => // x ? _; rewrite mem_head.
have nr0 c : c \in map fst prs -> forall q, ~~ rootof T q c.
  move=> hc q; rewrite /rootof; case hq: (q \in rows T) => //=.
  by have /hasPn/(_ q hq) := sh_int sh hc.
have D0 : desc E T' (first_col T prs needed) y0.
  move=> q hq; have hqn : q \in needed by rewrite -rE.
  rewrite vE // /newval eqxx look_minf; last exact: rd.
  case: (eqVneq (E q) 0) => [->|n0]; first by rewrite /lsg lead_coef0 sgz0 mul0r horner0 sgz0.
  rewrite /lsg; symmetry; apply: (sgz_minf (a := y0)) => // y le; rewrite rootE; apply: (nz (head (0, 0) prs).1) => //.
    by apply: (sem_intv sm) => //; case: (ohead xs) y0b => //= b; exact: le_lt_trans.
  exact: nr0.
have [|||||xs' sm' zp] := mrg_sem (kp := kept T needed) (D := T') sm _ (isT : above None y0) y0b D0 => //.
- by move=> c y hc d q hq n0; apply: (nz c) => //; exact: nr0.
- move=> c y hc /hasPn nk d q hq n0; apply: (nz c) => //; apply: nk; by rewrite -rE.
- move=> c y hc d q; rewrite rE => hq; rewrite vE //; last exact: krest_all.
  by rewrite /newval krest_neq // (look_desc (rd q hq) d).
exists xs' => //; split=> // q; rewrite rE => hq; rewrite vE ?mem_head // /newval ?nfc ?nfc1.
- by apply: look_minf; exact: rd.
- by apply: look_pinf; exact: rd.
by rewrite inE /merged mrg_flat ?(sh_nil sh) // inE one !orbT.
Qed.
End Copy.

(** *** Faithful tables. *)
Lemma rcons_ends ps : ps != [::] -> map snd ps = rcons (ends ps) (last (0, 0) ps).2.
Proof. by elim: ps => // x [|y ps] IH _ //; rewrite ends2 rcons_cons -(IH isT). Qed.

Lemma size_ends ps : ps != [::] -> size ps = (size (ends ps)).+1.
Proof. by move/rcons_ends/(congr1 size); rewrite size_map size_rcons. Qed.

Lemma zip_pairs ps : ps != [::] -> (last (0, 0) ps).2 = 1 -> zip (map fst ps) (rcons (ends ps) 1) = ps.
Proof. by move=> n0 <-; rewrite -rcons_ends //; elim: (ps) => //= -[a b] l ->. Qed.

Lemma tok_faithful T prs xs s : shape A T prs -> tok T prs xs -> rows T =i s -> faithful_at den ev s T xs.
Proof.
move=> sh tk rE; have n0 := sh_nil sh.
have [h1 h2 h3 h4] := sem_index (tk_sem tk).
have sE : size (ends prs) = size xs by have := size_ends n0; rewrite h1 => -[].
have colsE q : q \in s -> cols T q =i 0 :: 1 :: map fst prs ++ ends prs.
  move=> hq c; rewrite (sh_cols sh) ?rE // !inE mem_flat mem_cat rcons_ends // mem_rcons inE (sh_last sh).
  by case: (c == 0) => //=; rewrite orbCA.
have cE q c : q \in s -> c \in 0 :: 1 :: map fst prs ++ ends prs -> cell T q c = Ok (vd T q c).
  by move=> hq hc; rewrite cell_vd // colsE.
exists (map fst prs), (ends prs); split=> //.
- split=> //; first by rewrite size_map.
  by rewrite zip_pairs ?(sh_last sh) //; exact: sh_path sh.
- move=> q hq; have hT : q \in rows T by rewrite rE.
  by rewrite !cE ?inE ?eqxx ?orbT // (tk_minf tk) // (tk_pinf tk).
- move=> q i hq hi; have hT : q \in rows T by rewrite rE.
  by rewrite cE ?h3 // !inE mem_cat mem_nth ?orbT // sE.
- move=> q i y hq hi b; have hT : q \in rows T by rewrite rE.
  by rewrite cE ?(h4 i y) // !inE mem_cat mem_nth ?orbT // size_map h1.
Qed.

Lemma points_condensed T prs xs s : shape A T prs -> points T prs -> tok T prs xs -> rows T =i s ->
  condensed den ev s T.
Proof.
move=> sh pt tk rE; exists xs; first exact: tok_faithful sh tk rE.
move=> x; split=> [hx|[q hq [n0 rt]]].
  have [c hc d] := sem_point (tk_sem tk) hx.
  have /hasP[q hq rq] := pt c hc; exists q; first by rewrite -rE.
  by move: rq; rewrite (tok_root tk d hq) => /andP[].
have [//|[c hc d]] := sem_where (x := x) (tk_sem tk) isT.
have hT : q \in rows T by rewrite rE.
by have /hasPn/(_ q hT) := sh_int sh hc; rewrite (tok_root tk d hT) n0 -rootE rt.
Qed.

Lemma lsg_sign (Q : {poly R}) : lsg Q None \in signs.
Proof.
by rewrite /lsg -signr_odd; case: (sgzP (lead_coef Q)) => _; case: (odd _); rewrite ?mul0r ?mul1r ?mulN1r.
Qed.

Lemma sgz_sign (w : R) : sgz w \in signs.
Proof. by case: sgzP. Qed.

Lemma tok_shape T prs xs : (forall q, q \in rows T -> cols T q =i allcols prs) -> path <%R 0 (flat prs) ->
  prs != [::] -> (last (0, 0) prs).2 = 1 -> tok T prs xs -> shape A T prs.
Proof.
move=> colsE pth n0 l1 tk; have [m1 m2] := sem_mem (tk_sem tk).
have colE c q : q \in rows T -> c \in allcols prs -> [\/ vd T q c = lsg (E q) None, vd T q c = usg (E q) None |
    exists y, desc E T c y].
  move=> hq; rewrite inE mem_flat rcons_ends // mem_rcons inE l1.
  case/or4P => [/eqP->|/m1 h|/eqP->|/m2 h]; by [constructor 1; exact: tk_minf tk _ _|constructor 3|
    constructor 2; exact: tk_pinf tk _ _|constructor 3].
split=> //.
- move=> c hc; apply/hasPn => q hq; rewrite /isroot; apply/negP => /andP[/eqP v0].
  have [l [h [o di]]] := sem_open (tk_sem tk) hc.
  rewrite (tk_minf tk) // lsg_eq0 => /eqP; apply; apply: (vanishes o) => y ya yb.
  by apply/eqP; rewrite -sgz_eq0 -(di y) // v0.
- move=> q c hq le hc; rewrite (tk_minf tk) // const_E //.
  by have [->|->|[y ->]] := colE c q hq hc; rewrite // const_E // ?usg_const ?lsg_const // hornerC.
- move=> q c hq; case hc: (c \in cols T q).
    rewrite colsE // in hc; have [->|->|[y ->//]] := colE c q hq hc; [exact: lsg_sign|exact: sgz_sign|exact: sgz_sign].
  rewrite /vd; case Ec: (cell T q c) => [w|//].
  by have := introT (cols_cell T q c) (ex_intro _ w Ec); rewrite hc.
Qed.

Lemma faithful_tok T s xs : rows T =i s -> faithful_at den ev s T xs ->
  exists2 prs, shape A T prs & tok T prs xs.
Proof.
move=> rE [is_ [es [[s1 s2 srt pth] colsE infE ptE intE]]].
set prs := zip is_ (rcons es 1).
have tk : tok T prs xs.
  have dE q c (w : R) : cell T q c = Ok (sgz w) -> vd T q c = sgz w by rewrite /vd => ->.
  split.
  - apply: index_sem => //; last by move=> i y hi _ b q; rewrite rE => hq; apply: dE; exact: intE.
    by move=> i hi q; rewrite rE => hq; apply: dE; exact: ptE.
  - by move=> q; rewrite rE => /infE[h _]; rewrite /vd h.
  - by move=> q; rewrite rE => /infE[_ h]; rewrite /vd h.
have f1 : map fst prs = is_ by apply: unzip1_zip; rewrite size_rcons s1 s2.
have f2 : map snd prs = rcons es 1 by apply: unzip2_zip; rewrite size_rcons s1 s2.
have n0 : prs != [::] by rewrite -size_eq0 -(size_map fst) f1 s1.
exists prs => //; apply: tok_shape tk => //.
- move=> q; rewrite rE => hq c; rewrite colsE // inE [RHS]inE mem_flat f1 f2 mem_rcons !inE mem_cat.
  by case: (c == 0) => //=; rewrite orbCA.
- by rewrite -[(last _ _).2](last_map snd) f2 last_rcons.
Qed.

Lemma copy_condensed T needed con s : rows T =i s -> faithful den ev s T -> consistent den ev con ->
  s != [::] -> needed != [::] -> {subset needed <= s} ->
  (forall p, p \in needed -> deg A p <= 0 -> hv p -> dmem con p) ->
  exists2 T', copy_table A setiter T needed con = Ok T' & rows T' =i needed /\ condensed den ev needed T'.
Proof.
move=> rE [xs /(faithful_tok rE)[prs sh tk]] cons s0 n0 sub kn.
have csg k v : dget con k = Ok v -> v \in signs.
  by move/(@csP _ _ _ _ _ (Point sgn) _ _ _ cons) => ->; exact: sgz_sign.
have rd p : p \in needed -> readable A T con p.
  by move=> hp; split=> [_|]; [rewrite rE; exact: sub|exact: kn].
have rT : rows T != [::].
  case: (s) s0 rE => // x s' _ /(_ x); rewrite mem_head; by case: (rows T).
have [T' ET [cE rE']] := copy_tableE order sh rT n0 rd; exists T' => //; split=> //.
have [sh' pt'] := copy_shape ok sh csg scal n0 rd cE rE'.
have [xs' tk' _] := copy_sem sh tk cons rd cE rE'.
exact: points_condensed sh' pt' tk' rE'.
Qed.
End At.
End Tables.
