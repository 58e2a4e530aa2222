(** copy_table: selecting rows and merging intervals. *)
From mathcomp Require Import all_ssreflect all_algebra.
From mathcomp.zify Require Import zify.
From Verif Require Import Py MuchModel MuchSpec MuchSeq MuchDiag MuchStep CohenModel CohenSpec CohenExp.

Set Implicit Arguments.
Unset Strict Implicit.
Unset Printing Implicit Defensive.
Import GRing.Theory Num.Theory Order.TTheory.
Local Open Scope ring_scope.

(** *** Columns. *)
Lemma sorted_colsE cs s : sorted <%R s -> cs =i s -> sorted_cols cs = s.
Proof.
move=> srt E; rewrite /sorted_cols; apply: (sorted_eq le_trans le_anti).
- exact/sort_sorted/le_total.
- by apply: (@sub_sorted _ <%R) srt; exact: ltW.
rewrite (perm_trans (introT permPl (perm_sort _ _))) //.
apply: uniq_perm; first exact: undup_uniq; first exact: lt_sorted_uniq.
by move=> c; rewrite mem_undup E.
Qed.

Lemma pyget_enumerate (T : Type) (s : seq T) j : pyget (enumerate s) j = let! y := pyget s j in Ok (y, j).
Proof.
rewrite /enumerate /pyget; suff H k : match drop j (zip s (iota k (size s))) with [::] => Err IndexError | a :: _ => Ok a end =
  let! y := (match drop j s with [::] => Err IndexError | a :: _ => Ok a end) in Ok (y, (k + j)%N) by exact: (H 0%N).
elim: s j k => [|x s IH] [|j] k //=; first by rewrite addn0.
by rewrite IH addSnnS.
Qed.

Lemma path_weak (x y : rat) s : x < y -> path <%R y s -> path <%R x s.
Proof. by case: s => //= z s xy /andP[yz ->]; rewrite (lt_trans xy). Qed.

Lemma inner2 k (x y : rat * rat) ps : inner k [:: x, y & ps] = (x.1, k) :: (x.2, k.+1) :: inner k.+2 (y :: ps).
Proof. by []. Qed.

Section Merge.
Variable kp : rat -> bool.

(** The columns that are copied besides the infinities. *)
Fixpoint krest (prs : seq (rat * rat)) : seq rat :=
  if prs is x :: prs' then
    if prs' is y :: _ then (if kp x.2 then [:: x.2; y.1] else [::]) ++ krest prs' else [::]
  else [::].

Fixpoint mrg (i : rat) (prs : seq (rat * rat)) : seq (rat * rat) :=
  if prs is x :: prs' then
    if prs' is y :: _ then if kp x.2 then (i, x.2) :: mrg y.1 prs' else mrg i prs' else [:: (i, x.2)]
  else [::].

Lemma mrg2 i x y prs : mrg i [:: x, y & prs] = if kp x.2 then (i, x.2) :: mrg y.1 (y :: prs) else mrg i (y :: prs).
Proof. by []. Qed.

Lemma krest2 x y prs : krest [:: x, y & prs] = (if kp x.2 then [:: x.2; y.1] else [::]) ++ krest (y :: prs).
Proof. by []. Qed.

Lemma ends2 (x y : rat * rat) prs : ends [:: x, y & prs] = x.2 :: ends (y :: prs).
Proof. by []. Qed.

Definition mtail prs := behead (flat (mrg 0 prs)).

Lemma mrg_flat i prs : prs != [::] -> flat (mrg i prs) = i :: mtail prs.
Proof.
rewrite /mtail; elim: prs i => // x [|y prs] IH i _ //.
by rewrite !mrg2; case: ifP => // _; exact: IH.
Qed.

Lemma mtail2 x y prs : mtail [:: x, y & prs] = if kp x.2 then x.2 :: y.1 :: mtail (y :: prs) else mtail (y :: prs).
Proof. by rewrite /mtail mrg2; case: ifP => // _; rewrite -(mrg_flat y.1). Qed.

Lemma mrg_nil i prs : (mrg i prs == [::]) = (prs == [::]).
Proof. by elim: prs i => // x [|y prs] IH i //; rewrite mrg2; case: ifP => // _; rewrite IH. Qed.

Lemma mrg_last i prs d : (last d (mrg i prs)).2 = (last d prs).2.
Proof.
elim: prs i d => // x [|y prs] IH i d //; rewrite mrg2; case: ifP => _; last by rewrite (IH i d).
by rewrite [last d (_ :: _)]/= (IH y.1 (i, x.2)).
Qed.

Lemma mtail_path l prs : prs != [::] -> path <%R l (flat prs) -> path <%R (head (0, 0) prs).1 (mtail prs).
Proof.
elim: prs l => // x [|y prs] IH l _ /= /and3P[h1 h2 h3]; first by rewrite /mtail /= h2.
have h3' : path <%R x.2 (flat (y :: prs)) by [].
have p := IH _ isT h3'; have /= /andP[xy _] := h3.
have x1y : x.1 < y.1 := lt_trans h2 xy.
by rewrite mtail2; case: ifP => _; [rewrite /= h2 xy|exact: path_weak x1y p].
Qed.

Lemma mtail_mem prs : prs != [::] -> mtail prs =i (last (0, 0) prs).2 :: krest prs.
Proof.
elim: prs => // x [|y prs] IH _ c //.
rewrite mtail2 krest2; have := IH isT c; rewrite [last _ [:: x, y & prs]]/= [last _ (y :: prs)]/=.
by case: ifP => _; rewrite !inE => ->; rewrite ?inE; do !bool_congr.
Qed.

(** The intervals of the merged columns are the first one and old ones, the ends
    are old ones that are kept. *)
Lemma mrg_fst i prs : {subset map fst (mrg i prs) <= i :: map fst prs}.
Proof.
elim: prs i => // x [|y prs] IH i c; first by rewrite !inE => ->.
rewrite mrg2; case: ifP => _; last first.
  by move/IH; rewrite !inE => /or3P[->|->|->]; rewrite ?orbT.
rewrite [map _ _]/= inE => /orP[|/IH]; rewrite !inE; first by move=> ->.
by case/or3P => ->; rewrite ?orbT.
Qed.

Lemma mrg_ends i prs c : c \in ends (mrg i prs) -> kp c /\ c \in ends prs.
Proof.
elim: prs i => // x [|y prs] IH i //; rewrite mrg2 ends2.
case: ifP => [kx|_] hc; last by have [h1 h2] := IH _ hc; rewrite inE h2 orbT.
have : c \in x.2 :: ends (mrg y.1 (y :: prs)).
  by move: hc; case: (mrg y.1 (y :: prs)) => // z l; rewrite inE => /orP[->|->]; rewrite ?orbT.
rewrite inE => /orP[/eqP->|/IH[h1 h2]]; first by split=> //; rewrite mem_head.
by split=> //; rewrite inE h2 orbT.
Qed.
End Merge.

Lemma krest_or kp1 kp2 prs : krest (fun e => kp1 e || kp2 e) prs =i krest kp1 prs ++ krest kp2 prs.
Proof.
elim: prs => // x [|y prs] IH c //; rewrite !krest2 !mem_cat IH mem_cat.
move: (c \in krest kp1 _) (c \in krest kp2 _) => b b'.
by case: (kp1 x.2); case: (kp2 x.2); rewrite ?inE; case: (c == x.2); case: (c == y.1); case: b; case: b'.
Qed.

Lemma krest_eq kp1 kp2 prs : {in ends prs, kp1 =1 kp2} -> krest kp1 prs = krest kp2 prs.
Proof.
elim: prs => // x [|y prs] IH h //; rewrite !krest2 h ?mem_head //; congr (_ ++ _); apply: IH => e he.
by apply: h; rewrite ends2 inE he orbT.
Qed.

Lemma krest0 prs : krest (fun=> false) prs = [::].
Proof. by elim: prs => // x [|y prs] IH. Qed.

Section Copy.
Variables (P : eqType) (K : realDomainType) (A : algebra P K).
Variables (C : idomainType) (den : P -> {poly C}).
Hypothesis ok : algebra_contract A den.
Variable setiter : seq P -> seq P.
Hypothesis order : set_order setiter.
Notation table := (diagram P [eqType of rat]).
Implicit Types (D T : table) (con : context P).

Local Notation zero := (a_zero A).
Local Notation hv := (a_has_variable A).

Record shape D prs : Prop := {
  sh_cols : forall q, q \in rows D -> cols D q =i allcols prs;
  sh_path : path <%R 0 (flat prs);
  sh_nil : prs != [::];
  sh_last : (last (0, 0) prs).2 = 1;
  sh_int : forall c, c \in map fst prs -> ~~ rootcol D c;
  sh_const : forall q c, q \in rows D -> deg A q <= 0 -> c \in allcols prs -> vd D q c = vd D q 0;
  sh_sgn : forall q c, q \in rows D -> vd D q c \in signs
}.

(** Every point is a root. *)
Definition points D prs : Prop := forall c, c \in ends prs -> rootcol D c.

Lemma shape_one D prs : shape D prs -> 1 \in flat prs.
Proof.
move=> sh; have := mem_last (0, 0) prs; rewrite inE; case/orP => [/eqP E|/mem_fst_flat].
  by have := sh_last sh; rewrite E.
by rewrite (sh_last sh) => /andP[_ ->].
Qed.

Lemma shape_sorted D prs : shape D prs -> sorted <%R (allcols prs).
Proof. by move=> sh; exact: sh_path sh. Qed.

(** What [copy_table] needs to find. *)
Definition readable T con p : Prop := (0 < deg A p -> p \in rows T) /\ (deg A p <= 0 -> hv p -> dmem con p).
Definition look T con p c : int := if table_lookup A T p c con is Ok v then v else 0.

Section One.
Variables (T : table) (prs : seq (rat * rat)) (con : context P).
Hypothesis sh : shape T prs.

Lemma lookE p c : readable T con p -> c \in allcols prs -> table_lookup A T p c con = Ok (look T con p c).
Proof.
move=> [r1 r2] hc; rewrite /look /table_lookup.
case: (ltP 0 (deg A p)) => [pos|le]; first by rewrite cell_vd // (sh_cols sh) // r1.
case hp: (hv p) => //=; rewrite r2 //; by have [v ->] := dmem_get (r2 le hp).
Qed.

Lemma look_pos p c : 0 < deg A p -> look T con p c = vd T p c.
Proof. by rewrite /look /table_lookup => ->. Qed.

Lemma look_const p c c' : deg A p <= 0 -> look T con p c = look T con p c'.
Proof. by rewrite /look /table_lookup ltNge => ->. Qed.

(** *** The columns. *)
Definition rootof p c := (p \in rows T) && isroot T 0 c p.

Lemma inner_loop p ps pre l cc : allcols prs = pre ++ l :: flat ps ->
  (forall c, c \in flat ps -> c \in cols T p) -> (forall c, c \in map fst ps -> vd T p c != 0) ->
  exists2 cc', foldM (fun cc x =>
        let! v := cell T p x.1 in
        if v == 0 then
          let! y := pyget (enumerate (allcols prs)) x.2.+1 in
          Ok (y.1 :: x.1 :: cc)
        else Ok cc) cc (inner (size pre).+1 ps) = Ok cc' & cc' =i krest (fun e => vd T p e == 0) ps ++ cc.
Proof.
match goal with |- context [foldM ?f _ _] => set F := f end.
elim: ps pre l cc => [|x ps IH] pre l cc E hc hn; first by exists cc.
have n1 : vd T p x.1 != 0 by apply: hn; exact: mem_head.
have F1 k : F cc (x.1, k) = Ok cc.
  by rewrite /F cell_vd ?bind_ok /= ?(negbTE n1) //; apply: hc; rewrite mem_head.
case: ps IH E hc hn => [|y ps] IH E hc hn; first by exists cc => //=; rewrite F1.
set cc1 := if vd T p x.2 == 0 then y.1 :: x.2 :: cc else cc.
have F2 : F cc (x.2, (size pre).+2) = Ok cc1.
  rewrite /F cell_vd; last by apply: hc; rewrite !inE eqxx orbT.
  rewrite bind_ok pyget_enumerate.
  have -> : pyget (allcols prs) (size pre).+3 = Ok y.1.
    by rewrite /pyget E drop_cat ltnNge leqW ?leqW //= !subSn ?leqW // subnn.
  by rewrite /cc1; case: ifP.
have E' : allcols prs = (pre ++ [:: l; x.1]) ++ x.2 :: flat (y :: ps) by rewrite -catA.
have [||cc' Ec mem] := IH _ x.2 cc1 E'.
- by move=> c h; apply: hc; rewrite [flat _]/= 2!in_cons -/(flat (y :: ps)) h !orbT.
- by move=> c h; apply: hn; rewrite inE h orbT.
move: Ec; rewrite size_cat addn2 => Ec.
exists cc' => [|c]; first by rewrite inner2 [foldM _ _ _]/= F1 bind_ok F2 bind_ok.
rewrite mem krest2 -catA !mem_cat /cc1.
by case: ifP => _; rewrite ?inE //; case: (c == x.2); case: (c == y.1); rewrite ?orbT.
Qed.

Definition kept needed e := has (rootof^~ e) needed.

Lemma copy_colsE needed : exists2 cc, copy_cols T (allcols prs) needed = Ok cc &
  cc =i [:: 0; 1] ++ krest (kept needed) prs.
Proof.
rewrite /copy_cols; match goal with |- context [foldM ?f _ _] => set F := f end.
have H cc0 : exists2 cc, foldM F cc0 needed = Ok cc & cc =i cc0 ++ krest (kept needed) prs; last exact: H.
elim: needed cc0 => [|p needed IH] cc0; first by exists cc0 => //; rewrite /kept /= krest0 cats0.
have skip : (forall e, e \in ends prs -> rootof p e = false) -> cc0 =i cc0 ++ krest (rootof p) prs.
  by move=> h c; rewrite (krest_eq (kp2 := fun=> false)) ?krest0 ?cats0.
have [cc1 F1 m1] : exists2 cc1, F cc0 p = Ok cc1 & cc1 =i cc0 ++ krest (rootof p) prs.
  rewrite /F; case pT: (dmem T p); rewrite [~~ _]/=; last first.
    by exists cc0 => //; apply: skip => e _; rewrite /rootof -[p \in rows T]/(dmem T p) pT.
  rewrite cell_vd; last by rewrite (sh_cols sh) // mem_head.
  rewrite bind_ok; case v0: (vd T p 0 == 0).
    by exists cc0 => //; apply: skip => e _; rewrite /rootof /isroot v0 !andbF.
  rewrite interiorE.
  have [||cc1 -> m1] := @inner_loop p prs [::] 0 cc0 erefl.
  - by move=> c h; rewrite (sh_cols sh) // inE h orbT.
  - by move=> c /(sh_int sh)/hasPn/(_ p pT); rewrite /isroot v0 andbT.
  exists cc1 => // c; rewrite m1 !mem_cat orbC; congr (_ || (c \in _)).
  by apply: krest_eq => e _; rewrite /rootof -[p \in rows T]/(dmem T p) pT /isroot v0 andbT.
rewrite [foldM _ _ _]/= F1 bind_ok; have [cc -> m] := IH cc1; exists cc => // c.
rewrite m !mem_cat m1 mem_cat -orbA; congr (_ || _).
by rewrite -mem_cat; exact/esym/krest_or.
Qed.

(** *** The rows. *)
Definition first_col needed : rat := (head 0 (mtail (kept needed) prs) + 0) / 2%:R.
Definition merged needed := mrg (kept needed) (first_col needed) prs.

Lemma mtail_head kp : exists x s, mtail kp prs = x :: s.
Proof.
have : (last (0, 0) prs).2 \in mtail kp prs by rewrite mtail_mem ?(sh_nil sh) // mem_head.
by case: (mtail kp prs) => // x s _; exists x, s.
Qed.

Lemma mtail_path0 kp : path <%R 0 (mtail kp prs).
Proof.
apply: path_weak (mtail_path kp (sh_nil sh) (sh_path sh)).
by case: (prs) (sh_path sh) (sh_nil sh) => //= x ps /andP[].
Qed.

Lemma first_col_lt needed : 0 < first_col needed < head 0 (mtail (kept needed) prs).
Proof.
have [x [s E]] := mtail_head (kept needed).
have := mtail_path0 (kept needed); rewrite /first_col E /= => /andP[x0 _].
by rewrite addrC mid_lt.
Qed.

Lemma merged_path needed : path <%R 0 (flat (merged needed)).
Proof.
have /andP[h1 h2] := first_col_lt needed.
rewrite /merged mrg_flat ?(sh_nil sh) //= h1 /=.
have [x [s E]] := mtail_head (kept needed).
by have := mtail_path0 (kept needed); move: h2; rewrite E /= => -> /andP[_].
Qed.

Definition newval needed p c := if c == first_col needed then look T con p 0 else look T con p c.

Lemma copy_rowE needed ret p : readable T con p ->
  exists2 ret', copy_row A T con (0 :: mtail (kept needed) prs) ret p = Ok ret' &
   (forall q c, cell ret' q c = if q == p then
      (if c \in allcols (merged needed) then Ok (newval needed p c) else Err KeyError) else cell ret q c)
   /\ rows ret' =i p :: rows ret.
Proof.
move=> rp; rewrite /copy_row; set cc := 0 :: _.
have sub c : c \in cc -> c \in allcols prs.
  rewrite !inE => /orP[->//|]; rewrite mtail_mem ?(sh_nil sh) // inE => /orP[/eqP->|].
    by rewrite (sh_last sh) (shape_one sh) orbT.
  have : {subset krest (kept needed) prs <= flat prs}.
    elim: (prs) => // x [|y ps] IH c'' //; rewrite [krest _ _]/= mem_cat => /orP[|/IH h].
      by case: ifP => //= _; rewrite !inE => /orP[]->; rewrite ?orbT.
    by rewrite /= !inE -[_ \in flat ps]/(c'' \in flat ps) in h *; rewrite h !orbT.
  by move=> h /h->; rewrite orbT.
have H l r : {subset l <= cc} -> exists2 r', foldM (fun ret col =>
    let! v := table_lookup A T p col con in Ok (put ret p col v)) r l = Ok r' &
   (forall q c, cell r' q c = if (q == p) && (c \in l) then Ok (look T con p c) else cell r q c) /\
   (p \in rows r -> rows r' =i rows r).
  elim: l r => [|c l IH] r hs /=; first by exists r => //; split=> // q c; rewrite andbF.
  rewrite lookE //; last by apply/sub/hs; exact: mem_head.
  rewrite !bind_ok; have [|r' -> [c1 c2]] := IH (put r p c (look T con p c)).
    by move=> x hx; apply: hs; rewrite inE hx orbT.
  exists r' => //; split=> [q x|pr].
    rewrite c1 cell_put inE; case: (eqVneq q p) => //= _.
    by case: (x \in l); rewrite ?orbT ?orbF //; case: (eqVneq x c) => // ->.
  have rE : rows (put r p c (look T con p c)) =i rows r.
    by move=> q; rewrite rows_put inE; case: eqP => // ->.
  by move=> q; rewrite c2 ?rE.
have [//|r' -> [c1 c2]] := H cc (dset ret p [::]); rewrite bind_ok.
have [x [s E]] := mtail_head (kept needed).
have -> : pyget cc 1 = Ok (head 0 (mtail (kept needed) prs)) by rewrite /cc E.
rewrite /cc !bind_ok lookE ?inE ?eqxx // !bind_ok -/(first_col needed) -/cc.
eexists; first by []; split=> [q c|q]; last first.
  rewrite rows_put inE c2; last by rewrite /rows keys_dset mem_head.
  by rewrite /rows keys_dset inE orbA orbb.
rewrite cell_put c1 /newval; case: (eqVneq q p) => [->|ne] /=; last first.
  by rewrite /cell /row dget_dset (negbTE ne).
rewrite /merged !inE mrg_flat ?(sh_nil sh) // inE; case: (eqVneq c (first_col needed)) => [_|_] /=.
  by rewrite orbT.
by case: ifP => // _; rewrite /cell /row dget_dset eqxx.
Qed.

Lemma copy_tableE needed : rows T != [::] -> needed != [::] -> (forall p, p \in needed -> readable T con p) ->
  exists2 T', copy_table A setiter T needed con = Ok T' &
   (forall q c, cell T' q c = if (q \in needed) && (c \in allcols (merged needed)) then Ok (newval needed q c)
      else Err KeyError) /\ rows T' =i needed.
Proof.
move=> rT n0 rd; rewrite /copy_table; case En: needed n0 => [//|p0 l] _; rewrite -En => {p0 l En}.
have [k [ks Ek]] : exists k ks, setiter (rows T) = k :: ks.
  case E: (setiter (rows T)) => [|k ks]; last by exists k, ks.
  by have := perm_size (order (rows T)); rewrite E; case: (rows T) rT.
have kr : k \in rows T by rewrite -(perm_mem (order _)) Ek mem_head.
rewrite /pyget Ek /= (sorted_colsE (shape_sorted sh)); last exact: sh_cols sh _ kr.
have [cc -> mcc] := copy_colsE needed; rewrite bind_ok.
have -> : sorted_cols cc = 0 :: mtail (kept needed) prs.
  apply: sorted_colsE; first exact: mtail_path0.
  by move=> c; rewrite mcc mem_cat [RHS]inE mtail_mem ?(sh_nil sh) // (sh_last sh) !inE -!orbA.
have H l r : {subset l <= needed} -> exists2 r', foldM (copy_row A T con (0 :: mtail (kept needed) prs)) r l = Ok r' &
   (forall q c, cell r' q c = if q \in l then (if c \in allcols (merged needed) then Ok (newval needed q c)
      else Err KeyError) else cell r q c) /\ rows r' =i l ++ rows r.
  elim: l r => [|p l IH] r hs /=; first by exists r.
  have [|r1 -> [c1 c2]] := @copy_rowE needed r p; first by apply/rd/hs; exact: mem_head.
  rewrite bind_ok; have [|r' -> [c3 c4]] := IH r1; first by move=> x hx; apply: hs; rewrite inE hx orbT.
  exists r' => //; split=> [q c|q].
    by rewrite c3 c1 inE; case: ifP => h; rewrite ?orbT ?orbF; case: (eqVneq q p) => // ->.
  by rewrite c4 mem_cat c2 inE [RHS]inE mem_cat orbCA.
have [//|r' -> [c1 c2]] := H needed [::]; exists r' => //; split=> [q c|q]; last by rewrite c2 mem_cat orbF.
by rewrite c1; case: (q \in needed).
Qed.

(** The copy has the shape of a table, whose points are roots. *)
Hypothesis con_sgn : forall k s, dget con k = Ok s -> s \in signs.
Hypothesis scal : scalars_exact A den.

Lemma deg_const p : deg A p <= 0 -> const den p.
Proof.
rewrite /deg /const; case: eqP => [->|_]; first by rewrite (den_zero ok) size_poly0.
by rewrite lez_nat leqn0 (den_degree ok) => /eqP; case: (size (den p)) => [|[]].
Qed.

Lemma look_sgn p c : readable T con p -> look T con p c \in signs.
Proof.
move=> [r1 r2]; case: (ltP 0 (deg A p)) => [pos|le]; first by rewrite look_pos // (sh_sgn sh) // r1.
rewrite /look /table_lookup ltNge le /=; case hp: (hv p) => /=.
  by have [s E] := dmem_get (r2 le hp); rewrite (dget_mem E) E; exact: con_sgn E.
by have [|] := scal.1 _ (deg_const le); first by rewrite hp.
Qed.

Lemma copy_shape needed T' : needed != [::] -> (forall p, p \in needed -> readable T con p) ->
  (forall q c, cell T' q c = if (q \in needed) && (c \in allcols (merged needed)) then Ok (newval needed q c)
      else Err KeyError) -> rows T' =i needed ->
  shape T' (merged needed) /\ points T' (merged needed).
Proof.
move=> n0 rd cE rE.
have vE q c : q \in needed -> c \in allcols (merged needed) -> vd T' q c = newval needed q c.
  by move=> hq hc; rewrite /vd cE hq hc.
have nfc : (0 == first_col needed) = false.
  by have /andP[h _] := first_col_lt needed; rewrite lt_eqF.
have v0 q : q \in needed -> vd T' q 0 = look T con q 0.
  by move=> hq; rewrite vE ?mem_head // /newval nfc.
split; first split.
- move=> q; rewrite rE => hq c; apply/cols_cell/idP => [[w]|hc]; first by rewrite cE hq; case: ifP.
  by rewrite cE hq hc; eexists.
- exact: merged_path.
- by rewrite /merged mrg_nil (sh_nil sh).
- by rewrite /merged mrg_last (sh_last sh).
- move=> c hc; apply/hasPn => q; rewrite rE => hq; rewrite /isroot v0 //.
  have hca : c \in allcols (merged needed) by rewrite inE mem_flat hc orbT.
  rewrite vE // /newval; case: (eqVneq c (first_col needed)) => [_|ne]; first by rewrite andbN.
  have hcp : c \in map fst prs.
    by move/mrg_fst: hc; rewrite inE (negbTE ne).
  case: (ltP 0 (deg A q)) => [pos|le]; last by rewrite (look_const c 0 le) andbN.
  rewrite !look_pos //; have [r1 _] := rd q hq.
  by have /hasPn/(_ q (r1 pos)) := sh_int sh hcp.
- move=> q c; rewrite rE => hq le hc; rewrite v0 // vE // /newval; case: ifP => // _.
  exact: look_const.
- move=> q c; rewrite rE /vd cE => hq; case: ifP => // _; rewrite /newval.
  by case: ifP => _; apply: look_sgn; exact: rd.
- move=> c hc; have hca : c \in allcols (merged needed) by rewrite inE mem_flat (mem_ends hc) !orbT.
  have [/hasP[q hq /andP[qT rq]] ce] := mrg_ends hc.
  have ne : (c == first_col needed) = false.
    have /andP[_ lt] := first_col_lt needed; apply/negbTE; rewrite gt_eqF //.
    apply: (lt_le_trans lt); have := mem_ends hc; rewrite /merged => /mapP[x hx ->].
    have : x.2 \in flat (merged needed) by have /andP[] := mem_fst_flat hx.
    rewrite /merged mrg_flat ?(sh_nil sh) // inE => /orP[/eqP Ex|].
      have := merged_path needed; rewrite /merged => pth.
      have : x.1 < x.2.
        move: hx pth; rewrite -/(merged needed); move: 0; elim: (merged needed) => // y l IHl z; rewrite inE => /orP[/eqP->|h] /=.
          by case/and3P.
        by case/and3P => _ _ /IHl->.
      have : first_col needed <= x.1.
        have : x.1 \in flat (merged needed) by have /andP[] := mem_fst_flat hx.
        rewrite /merged mrg_flat ?(sh_nil sh) // inE => /orP[/eqP->//|h].
        have := pth; rewrite mrg_flat ?(sh_nil sh) //= => /andP[_].
        by rewrite (path_sortedE lt_trans) => /andP[/allP/(_ _ h)/ltW].
      by move=> h1 h2; have := le_lt_trans h1 h2; rewrite Ex ltxx.
    have [y [s E]] := mtail_head (kept needed); rewrite E /= inE => /orP[/eqP->//|h].
    have := mtail_path0 (kept needed); rewrite E /= => /andP[_].
    by rewrite (path_sortedE lt_trans) => /andP[/allP/(_ _ h)/ltW].
  apply/hasP; exists q; first by rewrite rE.
  rewrite /isroot v0 // vE // /newval ne.
  have pos : 0 < deg A q.
    rewrite ltNge; apply/negP => le; move: rq; rewrite /isroot (sh_const sh qT le); first by rewrite andbN.
    by rewrite inE mem_flat (mem_ends ce) !orbT.
  by rewrite !look_pos.
Qed.
End One.
End Copy.
