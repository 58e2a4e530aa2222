(** One step of real_extend as a transformation of tables, for any
    assignment. *)
From mathcomp Require Import all_ssreflect all_algebra.
From mathcomp.zify Require Import zify.
From Verif Require Import Py MuchModel MuchSpec MuchSeq MuchDiag.

Set Implicit Arguments.
Unset Strict Implicit.
Unset Printing Implicit Defensive.
Import GRing.Theory Num.Theory Order.TTheory.
Local Open Scope ring_scope.

Lemma mapM_ext (T S : Type) (f g : T -> res S) (l : seq T) :
  (forall x, List.In x l -> f x = g x) -> mapM f l = mapM g l.
Proof.
elim: l => //= x l IH h; rewrite h; last by left.
by rewrite IH // => y hy; apply: h; right.
Qed.

Lemma dget_cat (K : eqType) (V : Type) (d d' : dict K V) k :
  dget (d ++ d') k = if k \in map fst d then dget d k else dget d' k.
Proof.
by elim: d => [|[a b] d IH] //=; rewrite inE; case: eqVneq => //= ne; rewrite IH.
Qed.

(** Columns: minus infinity, then pairs of an interval and the point (or plus
    infinity) after it. *)
Definition flat (prs : seq (rat * rat)) : seq rat := flatten [seq [:: x.1; x.2] | x <- prs].
Definition allcols (prs : seq (rat * rat)) : seq rat := 0 :: flat prs.

Fixpoint inner (k : nat) (prs : seq (rat * rat)) : seq (rat * nat) :=
  match prs with
  | [::] => [::]
  | x :: prs' => (x.1, k) :: if prs' is [::] then [::] else (x.2, k.+1) :: inner k.+2 prs'
  end.

Lemma interiorE prs : interior (zip (allcols prs) (iota 0 (size (allcols prs)))) = inner 1 prs.
Proof.
rewrite /interior /= ; have -> : forall k, pybutlast (zip (flat prs) (iota k (size (flat prs)))) = inner k prs; last by [].
elim: prs => [|x prs IH] k //; rewrite /pybutlast /=.
case: prs IH => [|y prs] IH //; rewrite -[inner k.+2 _]IH /pybutlast.
set z := zip _ _; rewrite -/(flat (y :: prs)) -/z.
have : (0 < size z)%N by rewrite size1_zip ?size_iota.
by case: (size z).
Qed.

Lemma mem_fst_flat x prs : x \in prs -> (x.1 \in flat prs) && (x.2 \in flat prs).
Proof.
elim: prs => //= y prs IH; rewrite inE !in_cons.
by case/orP => [/eqP->|/IH/andP[-> ->]]; rewrite ?eqxx ?orbT.
Qed.

Lemma mem_flat c prs : (c \in flat prs) = (c \in map fst prs) || (c \in map snd prs).
Proof.
elim: prs => //= y prs IH; rewrite !inE -/(flat prs) IH -!orbA; congr (_ || _).
by rewrite orbCA.
Qed.

(** The points that are not plus infinity. *)
Fixpoint ends (prs : seq (rat * rat)) : seq rat :=
  match prs with
  | [::] => [::]
  | x :: prs' => if prs' is [::] then [::] else x.2 :: ends prs'
  end.

Lemma ends_cat s t : t != [::] -> ends (s ++ t) = map snd s ++ ends t.
Proof.
move=> t0; elim: s => //= x s IH; rewrite -IH.
by case: s {IH} => //=; case: t t0.
Qed.

Lemma mem_ends c prs : c \in ends prs -> c \in map snd prs.
Proof.
elim: prs => //= x [|y prs] IH //; rewrite inE [in X in _ -> X]inE.
by case/orP => [->|/IH->]; rewrite ?orbT.
Qed.

(** What a step does, given the values [a] of the new row at the points. *)
Section Plan.
Variable a : rat -> int.

Definition keep l e := (a l == a e) || (a l * a e == 0).
Definition badpair l e := (a l == 0) && (a e == 0).

Definition plan1 l (x : rat * rat) : dict [eqType of rat] (rat * int) :=
  if keep l x.2 then [:: (x.1, (x.1, Num.sg (a l + a x.2)))]
  else [:: ((x.1 + l) / 2%:R, (x.1, a l)); (x.1, (x.1, 0)); ((x.1 + x.2) / 2%:R, (x.1, a x.2))].
Definition npairs l (x : rat * rat) :=
  if keep l x.2 then [:: x]
  else [:: ((x.1 + l) / 2%:R, x.1); ((x.1 + x.2) / 2%:R, x.2)].

Fixpoint plan l (prs : seq (rat * rat)) := if prs is x :: prs' then plan1 l x ++ plan x.2 prs' else [::].
Fixpoint newprs l (prs : seq (rat * rat)) := if prs is x :: prs' then npairs l x ++ newprs x.2 prs' else [::].
Fixpoint bad l (prs : seq (rat * rat)) := if prs is x :: prs' then badpair l x.2 || bad x.2 prs' else false.

Lemma flat_cat s t : flat (s ++ t) = flat s ++ flat t.
Proof. by rewrite /flat map_cat flatten_cat. Qed.

Lemma mem_newprs l prs : flat (newprs l prs) =i map fst (plan l prs) ++ map snd prs.
Proof.
elim: prs l => //= x prs IH l c; rewrite flat_cat mem_cat IH !map_cat !mem_cat inE.
rewrite /npairs /plan1; case: ifP => _ /=; rewrite !inE -!orbA; first by do !bool_congr.
by do !bool_congr.
Qed.

Lemma newprs_nil l prs : (newprs l prs == [::]) = (prs == [::]).
Proof. by case: prs => //= x prs; rewrite /npairs; case: ifP. Qed.

Lemma newprs_last l prs d : (last d (newprs l prs)).2 = (last d prs).2.
Proof.
elim: prs l d => //= x prs IH l d; rewrite last_cat IH /npairs; case: ifP => _ //=.
by case: prs {IH}.
Qed.

Lemma mid_lt (x y : rat) : x < y -> x < (x + y) / 2%:R < y.
Proof. by move=> /midf_lt[-> ->]. Qed.

Lemma newprs_path l prs : path <%R l (flat prs) -> path <%R l (flat (newprs l prs)).
Proof.
elim: prs l => //= x prs IH l /and3P[h1 h2 h3]; rewrite flat_cat cat_path.
rewrite /npairs; case: ifP => _ /=; rewrite ?h1 ?h2 ?IH //.
have /andP[m1 m2] := mid_lt h1; have /andP[m3 m4] := mid_lt h2.
by rewrite [_ + l]addrC m1 m2 m3 m4.
Qed.

(** The columns of the plan lie between the ends. *)
Lemma plan1_cols l x c : l < x.1 -> x.1 < x.2 -> c \in map fst (plan1 l x) -> l < c < x.2.
Proof.
move=> h1 h2; have /andP[m1 m2] := mid_lt h1; have /andP[m3 m4] := mid_lt h2.
rewrite /plan1; case: ifP => _ /=; rewrite !inE; first by move=> /eqP->; rewrite h1 h2.
case/or3P => /eqP->; rewrite ?h1 ?h2 // ?[_ + l]addrC ?m1 ?m4 ?andbT //=.
  exact: lt_trans m2 h2.
exact: lt_trans h1 m3.
Qed.

Lemma path_gt l prs c : path <%R l (flat prs) -> c \in flat prs -> l < c.
Proof. by rewrite (path_sortedE lt_trans) => /andP[/allP h _] /h. Qed.

Lemma plan_cols l prs c : path <%R l (flat prs) -> c \in map fst (plan l prs) -> l < c.
Proof.
elim: prs l => //= x prs IH l /and3P[h1 h2 h3]; rewrite map_cat mem_cat => /orP[].
  by case/(plan1_cols h1 h2)/andP.
by move/(IH _ h3)/(lt_trans h2)/(lt_trans h1).
Qed.

Lemma plan_snd l prs : path <%R l (flat prs) -> {in map snd prs, forall c, c \notin map fst (plan l prs)}.
Proof.
elim: prs l => //= x prs IH l /and3P[h1 h2 h3] c; rewrite inE map_cat mem_cat negb_or.
have gt : c \in map snd prs -> x.2 < c.
  by move=> h; apply: path_gt h3 _; rewrite mem_flat h orbT.
case/orP => [/eqP->|hc]; apply/andP; split.
- by apply/negP => /(plan1_cols h1 h2); rewrite ltxx andbF.
- by apply/negP => /(plan_cols h3); rewrite ltxx.
- by apply/negP => /(plan1_cols h1 h2)/andP[_ /lt_trans/(_ (gt hc))]; rewrite ltxx.
- exact: IH.
Qed.

Lemma plan_fst l prs : {subset map fst prs <= map fst (plan l prs)}.
Proof.
elim: prs l => //= x prs IH l c; rewrite inE map_cat mem_cat => /orP[/eqP->|/IH->]; rewrite ?orbT //.
by rewrite /plan1; case: ifP => _ /=; rewrite !inE eqxx ?orbT.
Qed.

(** What the plan says about one of its columns. *)
Lemma plan_get l prs c : c \in map fst (plan l prs) -> exists2 sv, dget (plan l prs) c = Ok sv &
  sv.1 \in map fst prs.
Proof.
elim: prs l => //= x prs IH l; rewrite map_cat mem_cat dget_cat.
case: ifP => [h _|_ /= /IH[sv -> h]]; last by exists sv => //; rewrite inE h orbT.
move: h; rewrite /plan1; case: ifP => _ /=; rewrite !inE.
  by move=> ->; eexists; [by []|rewrite inE eqxx].
case: eqVneq => [_ _|_]; first by eexists; [by []|rewrite inE eqxx].
case: eqVneq => [_ _|_]; first by eexists; [by []|rewrite inE eqxx].
by move=> /= ->; eexists; [by []|rewrite inE eqxx].
Qed.

Lemma sg_neq0 (v : int) : (Num.sg v == 0) = (v == 0).
Proof. exact: sgr_eq0. Qed.

(** The new intervals carry the values of an old interval and, for the new
    row, a sign. *)
Lemma newprs_int l prs x : path <%R l (flat prs) -> ~~ bad l prs -> x \in newprs l prs ->
  exists sv, [/\ dget (plan l prs) x.1 = Ok sv, sv.1 \in map fst prs & sv.2 != 0].
Proof.
elim: prs l => //= y prs IH l /and3P[h1 h2 h3]; rewrite negb_or => /andP[nb nbs].
rewrite mem_cat dget_cat => /orP[|hx]; last first.
  have [sv [E h v0]] := IH _ h3 nbs hx.
  have gt : y.2 < x.1.
    by apply: path_gt (newprs_path h3) _; have /andP[] := mem_fst_flat hx.
  rewrite ifN; first by exists sv; split=> //; rewrite inE h orbT.
  by apply/negP => /(plan1_cols h1 h2)/andP[_ /(lt_trans gt)]; rewrite ltxx.
have /andP[m1 m2] := mid_lt h1; have /andP[m3 m4] := mid_lt h2.
rewrite /npairs /plan1; case: ifP => hk /=; rewrite !inE.
  move=> /eqP->; rewrite eqxx; eexists; split; [by []|exact: mem_head|rewrite /= sg_neq0].
  move: hk nb; rewrite /keep /badpair; case: eqVneq => [->|_] /=.
    by rewrite andbb -mulr2n mulrn_eq0.
  by rewrite mulf_eq0 => /orP[]/eqP->; rewrite eqxx ?andbT ?add0r ?addr0.
move: hk; rewrite /keep => /negbT; rewrite negb_or mulf_eq0 negb_or => /and3P[_ a1 a2].
case/orP => /eqP-> /=; rewrite eqxx ?orbT.
  by eexists; split; [by []|exact: mem_head|].
have ne1 : ((y.1 + y.2) / 2%:R == (y.1 + l) / 2%:R) = false.
  apply: negbTE; rewrite [_ + l]addrC; apply/eqP => E; move: m3; rewrite E => /lt_trans/(_ m2).
  by rewrite ltxx.
rewrite ne1; have -> : ((y.1 + y.2) / 2%:R == y.1) = false.
  by apply: negbTE; rewrite eq_sym lt_eqF.
by eexists; split; [by []|exact: mem_head|].
Qed.

(** The points but the last. *)
Lemma newprs_ends l prs c : path <%R l (flat prs) -> c \in ends (newprs l prs) ->
  c \in ends prs \/ exists2 d, c \in map fst prs & dget (plan l prs) c = Ok (d, 0).
Proof.
elim: prs l => //= y prs IH l /and3P[h1 h2 h3].
have split1 : ~~ keep l y.2 -> dget (plan1 l y ++ plan y.2 prs) y.1 = Ok (y.1, 0).
  have /andP[m1 m2] := mid_lt h1.
  rewrite /plan1 => /negbTE-> /=.
  have -> : (y.1 == (y.1 + l) / 2%:R) = false by rewrite [_ + l]addrC gt_eqF.
  by rewrite eqxx.
case: (eqVneq prs [::]) IH => [-> _|n0 IH] /=.
  rewrite cats0 /npairs; case: ifP => //= /negbT hk; rewrite inE => /eqP->; right.
  exists y.1; first by [].
  move: (split1 hk); rewrite !dget_cat; case: ifP => //.
  by rewrite /plan1 (negbTE hk) /= !inE eqxx orbT.
have n1 : newprs y.2 prs != [::] by rewrite newprs_nil.
have -> : match prs with [::] => [::] | _ :: _ => y.2 :: ends prs end = y.2 :: ends prs.
  by case: (prs) n0.
rewrite ends_cat // mem_cat [c \in y.2 :: _]inE => /orP[|hc].
  rewrite /npairs; case: ifP => [_|/negbT hk] /=; rewrite inE; first by move=> ->; left.
  case/orP => [/eqP->|]; last by rewrite inE => ->; left.
  by right; exists y.1; rewrite ?mem_head //; exact: split1.
case: (IH _ h3 hc) => [->|[d h E]]; first by left; rewrite orbT.
right; exists d; first by rewrite inE h orbT.
rewrite dget_cat ifN //; apply/negP => /(plan1_cols h1 h2)/andP[_ lt].
have := path_gt h3 (c := c); rewrite mem_flat h => /(_ isT)/(lt_trans lt); by rewrite ltxx.
Qed.

End Plan.

Section Step.
Variables (P : eqType) (K : realDomainType) (A : algebra P K).
Variables (C : idomainType) (den : P -> {poly C}).
Hypothesis ok : algebra_contract A den.
Variable setiter : seq P -> seq P.
Hypothesis order : set_order setiter.
Implicit Types (D : diagram P [eqType of rat]).

Local Notation zero := (a_zero A).
Local Notation degree := (a_degree A).
Local Notation rem p q := (a_pseudo_div A p q).2.
Local Notation lcrow p := (a_times A (a_LC A p) (fac (degree p))).

Lemma zeros_of_ext D D' rest c : (forall q, q \in rest -> cell D' q c = cell D q c) ->
  (forall q, q \in rest -> cell D' q 0 = cell D q 0) ->
  zeros_of A setiter D' 0 c rest = zeros_of A setiter D 0 c rest.
Proof.
move=> h1 h2; rewrite /zeros_of; congr bind; apply: mapM_ext => q /InP.
by rewrite (perm_mem (order rest)) => hq; rewrite h1 // h2.
Qed.

Definition rootcol D c := has (isroot D 0 c) (rows D).

(** The shape of a table. *)
Record sinv D prs : Prop := {
  sv_cols : forall q, q \in rows D -> cols D q =i allcols prs;
  sv_path : path <%R 0 (flat prs);
  sv_nil : prs != [::];
  sv_last : (last (0, 0) prs).2 = 1;
  sv_int : forall c, c \in map fst prs -> ~~ rootcol D c;
  sv_pt : forall c, c \in ends prs -> rootcol D c;
  sv_zero : zero \in rows D /\ vd D zero 0 = 0
}.

(** Copying a column of some rows to two others. *)
Lemma copy_loop D L col ln rn : ln != col -> rn != col ->
  (forall q, q \in L -> col \in cols D q) ->
  exists2 D', foldM (fun D q =>
        let! v := cell D q col in
        let D := put D q ln v in
        let! v := cell D q col in
        Ok (put D q rn v)) D L = Ok D' &
   (forall q c, cell D' q c = if (q \in L) && ((c == ln) || (c == rn)) then cell D q col else cell D q c)
   /\ rows D' =i L ++ rows D.
Proof.
move=> n1 n2; elim: L D => [|q L IH] D h /=; first by exists D.
have cq : col \in cols D q by apply: h; exact: mem_head.
rewrite cell_vd // bind_ok cell_put [col == ln]eq_sym (negbTE n1) andbF cell_vd // bind_ok.
set D1 := put _ _ _ _.
have cE r c : cell D1 r c = if (r == q) && ((c == ln) || (c == rn)) then cell D q col else cell D r c.
  rewrite /D1 !cell_put; case: (eqVneq r q) => //= _.
  by rewrite (cell_vd cq); case: (c == rn); case: (c == ln).
rewrite bind_ok; have [|D' -> [c1 c2]] := IH D1.
  move=> r hr; apply/cols_cell; exists (vd D r col).
  rewrite cE ![col == _]eq_sym (negbTE n1) (negbTE n2) andbF cell_vd //.
  by apply: h; rewrite inE hr orbT.
exists D' => //; split=> [r c|r].
  rewrite c1 !cE inE ![col == _]eq_sym (negbTE n1) (negbTE n2) andbF.
  by case: (eqVneq r q) => [->|_] //=; case: (q \in L); case: (_ || _).
by rewrite c2 mem_cat /D1 !(rows_put, inE) mem_cat; case: eqP; rewrite ?orbT.
Qed.

Section New.
Variables (D : diagram P [eqType of rat]) (p : P) (prs : seq (rat * rat)).
Hypothesis inv : sinv D prs.
Hypothesis pnew : p \notin rows D.

Let rest := rows D.

(** The value of the new row in a column with a root. *)
Definition rootval c : int :=
  match zeros_of A setiter D 0 c rest with
  | Ok (z :: _) =>
      let v := vd D (rem p z) c in
      if (vd D (lcrow z) c < 0) && odd (degree p + degree z + 1) then - v else v
  | _ => 0
  end.

Definition aval c : int :=
  if c == 0 then vd D (lcrow p) 0 * (-1) ^+ degree p
  else if c == 1 then vd D (lcrow p) 1
  else rootval c.

(** What is needed of the rows that are already there. *)
Hypothesis have_rows : forall z, z \in rest -> z != zero -> (rem p z \in rest) && (lcrow z \in rest).
Hypothesis have_lc : lcrow p \in rest.

Lemma rest_neq q : q \in rest -> (q == p) = false.
Proof. by move=> h; apply/negbTE; apply: contraNneq pnew => <-. Qed.

Lemma restE q c : q \in rest -> c \in allcols prs -> cell D q c = Ok (vd D q c).
Proof. by move=> h hc; rewrite cell_vd // (sv_cols inv). Qed.

Lemma rest_full c : c \in allcols prs ->
  forall q, q \in rest -> (c \in cols D q) && (0 \in cols D q).
Proof. by move=> hc q hq; rewrite !(sv_cols inv) // hc mem_head. Qed.

Lemma root_columnE D1 c : c \in allcols prs -> (forall q, q != p -> forall c, cell D1 q c = cell D q c) ->
  root_column A setiter p rest D1 c = Ok (if rootcol D c then put D1 p c (rootval c) else D1).
Proof.
move=> hc same; rewrite /root_column.
have nep q : q \in rest -> q != p by move=> h; rewrite rest_neq.
have -> : zeros_of A setiter D1 0 c rest = zeros_of A setiter D 0 c rest.
  by apply: zeros_of_ext => q /nep/same->.
rewrite /rootval /rootcol -/rest; have := zeros_head A order (rest_full hc).
case: ifP => _; last by move=> ->.
move=> [z [zs [-> zr /andP[_ z0] _]]]; rewrite bind_ok /=.
have zn0 : z != zero by apply: contraNneq z0 => ->; have [_ ->] := sv_zero inv.
have /andP[h1 h2] := have_rows zr zn0.
by rewrite (same _ (nep _ h2)) (same _ (nep _ h1)) !restE // !bind_ok.
Qed.

Lemma loop1 (l : seq (rat * nat)) D1 : {subset map fst l <= allcols prs} ->
  (forall q, q != p -> forall c, cell D1 q c = cell D q c) -> p \in rows D1 ->
  exists2 D2, foldM (fun D x => root_column A setiter p rest D x.1) D1 l = Ok D2 &
    (forall q c, cell D2 q c = if (q == p) && ((c \in map fst l) && rootcol D c) then Ok (rootval c)
                               else cell D1 q c) /\ rows D2 =i rows D1.
Proof.
elim: l D1 => [|x l IH] D1 sub same pr /=; first by exists D1 => //; split=> // q c; rewrite andbF.
have hx : x.1 \in allcols prs by apply: sub; exact: mem_head.
rewrite root_columnE // bind_ok; set D' := if _ then _ else _.
have cE q c : cell D' q c = if (q == p) && ((c == x.1) && rootcol D c) then Ok (rootval c) else cell D1 q c.
  rewrite /D'; case: (eqVneq c x.1) => [->|ne] /=.
    by case: (rootcol D x.1); rewrite ?cell_put ?eqxx ?andbT ?andbF.
  by rewrite andbF; case: ifP => _; rewrite // cell_put (negbTE ne) andbF.
have rE : rows D' =i rows D1.
  by rewrite /D'; case: ifP => _ q //; rewrite rows_put inE; case: eqP => [->|].
have [|||D2 -> [c1 c2]] := IH D'.
- by move=> c hc; apply: sub; rewrite inE hc orbT.
- by move=> q nq c; rewrite cE (negbTE nq) same.
- by rewrite rE.
exists D2 => //; split=> [q c|q]; last by rewrite c2 rE.
by rewrite c1 cE inE; case: eqP => //= _; case: (c \in _); rewrite ?orbT ?orbF //=; case: (c == x.1); case: (rootcol D c).
Qed.

Local Arguments between_column : simpl never.

Section Loop2.
Variable zc : seq rat.

Lemma between1 a D1 pre l x t : zc = pre ++ l :: x.1 :: x.2 :: t ->
  0 <= l -> l < x.1 -> x.1 < x.2 ->
  (forall q, q != p -> forall c, (l <= c) || (c == 0) -> cell D1 q c = cell D q c) ->
  cell D1 p l = Ok (a l) -> cell D1 p x.2 = Ok (a x.2) -> {subset p :: rest <= rows D1} ->
  x.1 \in allcols prs -> ~~ rootcol D x.1 ->
  if badpair a l x.2 then between_column A setiter p rest zc D1 (x.1, (size pre).+1) = Err DiagramExc
  else exists2 D2, between_column A setiter p rest zc D1 (x.1, (size pre).+1) = Ok D2 &
    (forall q c, cell D2 q c =
      if dget (plan1 a l x) c is Ok sv then
        if q == p then Ok sv.2 else if q \in rest then cell D q sv.1 else cell D1 q c
      else cell D1 q c) /\ rows D2 =i rows D1.
Proof.
move=> Ezc l0 h1 h2 same pl px sub hx nroot; rewrite /between_column.
have nep q : q \in rest -> q != p by move=> h; rewrite rest_neq.
have -> : zeros_of A setiter D1 0 x.1 rest = zeros_of A setiter D 0 x.1 rest.
  by apply: zeros_of_ext => q /nep hq; rewrite same // ?eqxx ?orbT // ltW.
have := zeros_head A order (rest_full hx); rewrite -/(rootcol D x.1) (negbTE nroot) => ->.
rewrite bind_ok.
have -> : pyget zc (size pre) = Ok l by rewrite /pyget Ezc drop_size_cat.
have -> : pyget zc (size pre).+2 = Ok x.2.
  by rewrite /pyget Ezc drop_cat ltnNge leqW //= subSn // subSn // subnn.
rewrite !bind_ok pl px !bind_ok /badpair; case: ((a l == 0) && (a x.2 == 0)) => //.
rewrite /plan1 -/(keep a l x.2); case: (keep a l x.2) => /=.
  eexists; first by [].
  split=> [q c|q]; last by rewrite rows_put inE; case: eqP => [->|//]; rewrite sub ?mem_head.
  rewrite cell_put; case: (eqVneq c x.1) => [->|_]; rewrite ?andbT ?andbF //=.
  by case: (q == p) => //; case: ifP => // /nep hq; rewrite same // ltW.
have /andP[m1 m2] := mid_lt h1; have /andP[m3 m4] := mid_lt h2.
rewrite [x.1 + l]addrC; set ln := (l + x.1) / 2%:R; set rn := (x.1 + x.2) / 2%:R.
have lnx : ln != x.1 by rewrite lt_eqF.
have rnx : rn != x.1 by rewrite gt_eqF.
have lnrn : ln != rn by rewrite lt_eqF // (lt_trans m2).
set D' := put (put _ _ _ _) _ _ _.
have cE q c : cell D' q c = if (q == p) && (c == rn) then Ok (a x.2) else
   if (q == p) && (c == x.1) then Ok 0 else if (q == p) && (c == ln) then Ok (a l) else cell D1 q c.
  by rewrite /D' !cell_put.
have [|D2 -> [c1 c2]] := @copy_loop D' (setiter rest) x.1 ln rn lnx rnx.
  move=> q; rewrite (perm_mem (order _)) => hq; apply: (@cell_cols _ _ _ _ _ (vd D q x.1)).
  by rewrite cE (negbTE (nep _ hq)) /= same ?nep ?ltW // restE.
exists D2 => //; split=> [q c|q]; last first.
  rewrite c2 mem_cat (perm_mem (order _)) /D' !(rows_put, inE).
  case: (eqVneq q p) => [->|_]; first by rewrite orbT sub ?mem_head.
  by case hq: (q \in rest) => //=; rewrite sub // inE hq orbT.
rewrite c1 (perm_mem (order _)) !cE eqxx [x.1 == rn]eq_sym (negbTE rnx).
rewrite [x.1 == ln]eq_sym (negbTE lnx) !andbF !andbT.
case: (eqVneq q p) => [->|nq] /=.
  rewrite (negbTE pnew) /=; case: (eqVneq c ln) => [->|cl] /=; first by rewrite (negbTE lnx) (negbTE lnrn).
  case: (eqVneq c x.1) => [->|cx] /=; first by rewrite eq_sym (negbTE rnx).
  by case: eqP.
case hq: (q \in rest) => /=; last by case: ifP => // _; case: ifP => // _; case: ifP.
have Ex : cell D1 q x.1 = cell D q x.1 by rewrite same // ltW.
case: (eqVneq c ln) => [->|cl] //=; case: (eqVneq c x.1) => [->|cx] /=; last by case: eqP.
by rewrite eq_sym (negbTE rnx).
Qed.

Lemma loop2 a ps pre l D1 : zc = pre ++ l :: flat ps ->
  0 <= l -> path <%R l (flat ps) -> {subset flat ps <= allcols prs} ->
  (forall c, c \in map fst ps -> ~~ rootcol D c) -> (forall c, c \in ends ps -> rootcol D c) ->
  (forall q, q != p -> forall c, (l <= c) || (c == 0) -> cell D1 q c = cell D q c) ->
  cell D1 p l = Ok (a l) -> (forall c, c \in map snd ps -> cell D1 p c = Ok (a c)) ->
  {subset p :: rest <= rows D1} ->
  if bad a l ps then foldM (between_column A setiter p rest zc) D1 (inner (size pre).+1 ps) = Err DiagramExc
  else exists2 D2, foldM (between_column A setiter p rest zc) D1 (inner (size pre).+1 ps) = Ok D2 &
    (forall q c, cell D2 q c =
      if dget (plan a l ps) c is Ok sv then
        if q == p then Ok sv.2 else if q \in rest then cell D q sv.1 else cell D1 q c
      else cell D1 q c) /\ rows D2 =i rows D1.
Proof.
elim: ps pre l D1 => [|x ps IH] pre l D1 Ezc l0 pth sub nr hr same pl ph rsub /=; first by exists D1.
move: (pth) => /= /and3P[h1 h2 h3].
have hx1 : x.1 \in allcols prs by apply: sub; rewrite mem_head.
have hx2 : x.2 \in allcols prs by apply: sub; rewrite /= !inE eqxx orbT.
have nr1 : ~~ rootcol D x.1 by apply: nr; exact: mem_head.
have phx : cell D1 p x.2 = Ok (a x.2) by apply: ph; exact: mem_head.
have := between1 Ezc l0 h1 h2 same pl phx rsub hx1 nr1.
case: (badpair a l x.2) => [-> //|[D2 -> [c1 c2]]] /=.
have nc c : (x.2 <= c) || (c == 0) -> (c \in map fst (plan1 a l x)) = false.
  move=> h; apply/negP => /(plan1_cols h1 h2)/andP[lc cx]; case/orP: h => [|/eqP E].
    by rewrite leNgt cx.
  by move: lc; rewrite E ltNge l0.
have dn c : (x.2 <= c) || (c == 0) -> dget (plan1 a l x) c = Err KeyError.
  by move/nc => E; have := dget_keys (plan1 a l x) c; rewrite E.
have same2 q : q != p -> forall c, (x.2 <= c) || (c == 0) -> cell D2 q c = cell D q c.
  move=> nq c hc; rewrite c1 dn // same //.
  by case/orP: hc => [hc|->]; rewrite ?orbT // (le_trans _ hc) // ltW // (lt_trans h1).
have px2 : cell D2 p x.2 = Ok (a x.2) by rewrite c1 dn ?lexx.
have ph2 c : c \in map snd ps -> cell D2 p c = Ok (a c).
  move=> hc; rewrite c1 dn; first by apply: ph; rewrite inE hc orbT.
  by rewrite ltW //; apply: path_gt h3 _; rewrite mem_flat hc orbT.
have rsub2 : {subset p :: rest <= rows D2} by move=> q /rsub; rewrite c2.
have fin D3 : (forall q c, cell D3 q c =
      if dget (plan a x.2 ps) c is Ok sv then
        if q == p then Ok sv.2 else if q \in rest then cell D q sv.1 else cell D2 q c
      else cell D2 q c) -> forall q c, cell D3 q c =
      if dget (plan1 a l x ++ plan a x.2 ps) c is Ok sv then
        if q == p then Ok sv.2 else if q \in rest then cell D q sv.1 else cell D1 q c
      else cell D1 q c.
  move=> h q c; rewrite h dget_cat.
  have := dget_keys (plan a x.2 ps) c; have := dget_keys (plan1 a l x) c.
  case: ifP => hc; last first.
    by move=> E _; rewrite c1 E; case: (dget (plan a x.2 ps) c).
  move=> [sv E] _; rewrite c1 E.
  suff -> : dget (plan a x.2 ps) c = Err KeyError by [].
  have := dget_keys (plan a x.2 ps) c; rewrite ifN //.
  apply/negP => /(plan_cols h3); move/(plan1_cols h1 h2): hc => /andP[_ /lt_trans h' /h'].
  by rewrite ltxx.
case: (eqVneq ps [::]) => [E0|n0].
  rewrite E0 /=; exists D2 => //; split=> // q c.
  by rewrite cats0 c1.
have -> : match ps with [::] => [::] | _ :: _ => (x.2, (size pre).+2) :: inner (size pre).+3 ps end =
   (x.2, (size pre).+2) :: inner (size pre).+3 ps by case: (ps) n0.
rewrite /=.
have -> : between_column A setiter p rest zc D2 (x.2, (size pre).+2) = Ok D2.
  rewrite /between_column.
  have -> : zeros_of A setiter D2 0 x.2 rest = zeros_of A setiter D 0 x.2 rest.
    by apply: zeros_of_ext => q hq; rewrite same2 ?rest_neq // ?lexx ?eqxx ?orbT.
  have := zeros_head A order (rest_full hx2); rewrite -/(rootcol D x.2).
  have -> : rootcol D x.2 by apply: hr => /=; case: (ps) n0 => // ? ?; rewrite mem_head.
  by move=> [z [zs [-> _ _ _]]].
rewrite bind_ok; have Ezc' : zc = (pre ++ [:: l; x.1]) ++ x.2 :: flat ps by rewrite -catA.
have := IH (pre ++ [:: l; x.1]) x.2 D2 Ezc'; rewrite size_cat addn2 => /(_ _ h3).
have sub2 : {subset flat ps <= allcols prs} by move=> c hc; apply: sub; rewrite !inE hc !orbT.
have nr2 c : c \in map fst ps -> ~~ rootcol D c by move=> hc; apply: nr; rewrite inE hc orbT.
have hr2 c : c \in ends ps -> rootcol D c.
  by move=> hc; apply: hr => /=; case: (ps) n0 hc => // ? ? _; rewrite [in X in _ -> X]inE orbC => ->.
have x0 : 0 <= x.2 by rewrite (le_trans l0) // ltW // (lt_trans h1).
move=> /(_ x0 sub2 nr2 hr2 same2 px2 ph2 rsub2).
case: (bad a x.2 ps) => // -[D3 -> [e1 e2]]; exists D3 => //; split; first exact: fin.
by move=> q; rewrite e2 c2.
Qed.
End Loop2.


Lemma zero_columnsE D1 : cols D1 zero =i allcols prs -> zero_columns A D1 = allcols prs.
Proof.
move=> E; rewrite /zero_columns; apply: (sorted_eq le_trans le_anti).
- exact/sort_sorted/le_total.
- by apply: (@sub_sorted _ <%R); [exact: ltW|exact: sv_path inv].
rewrite (perm_trans (introT permPl (perm_sort _ _))) //.
apply: uniq_perm; first exact: undup_uniq; first exact/lt_sorted_uniq/(sv_path inv).
by move=> c; rewrite mem_undup E.
Qed.

Lemma map_fst_inner k ps : {subset map fst (inner k ps) <= flat ps}.
Proof.
elim: ps k => //= x ps IH k c; rewrite !inE => /orP[->//|].
case: ps IH => // y ps IH; rewrite -/(inner k.+2 (y :: ps)) /= inE => /orP[->|h]; first by rewrite orbT.
by rewrite -[X in X \in _]/c (IH k.+2) ?orbT.
Qed.

Lemma ends_inner k ps : {subset ends ps <= map fst (inner k ps)}.
Proof.
elim: ps k => //= x [|y ps] IH k c //; rewrite inE => /orP[/eqP->|h]; rewrite /= !inE ?eqxx ?orbT //.
by have := IH k.+2 c h; rewrite /= inE => ->; rewrite !orbT.
Qed.

Lemma snd_ends ps : ps != [::] -> map snd ps =i (last (0, 0) ps).2 :: ends ps.
Proof.
elim: ps => // x [|y ps] IH _ c //=; rewrite !inE; have := IH isT c; rewrite /= !inE => ->.
by rewrite orbCA.
Qed.

Lemma ends_lt ps l : path <%R l (flat ps) -> {in ends ps, forall c, c < (last (0, 0) ps).2}.
Proof.
elim: ps l => // x [|y ps] IH l //= /and3P[h1 h2 h3] c; rewrite inE => /orP[/eqP->|h]; last exact: IH h3 _ h.
apply: (@path_gt x.2 (y :: ps)) => //; rewrite mem_flat; apply/orP; right.
exact: (map_f snd (mem_last y ps)).
Qed.

Lemma inner_lt k ps l : path <%R l (flat ps) -> {in map fst (inner k ps), forall c, c < (last (0, 0) ps).2}.
Proof.
elim: ps k l => // x ps IH k l /= /and3P[h1 h2 h3] c.
have x2 : x.2 <= (last x ps).2.
  case: ps {IH} h3 => // y ps h3; apply/ltW/(@path_gt x.2 (y :: ps)) => //; rewrite mem_flat; apply/orP; right.
  exact: (map_f snd (mem_last y ps)).
rewrite inE => /orP[/eqP->|]; first exact: lt_le_trans h2 x2.
case: ps IH h3 x2 => // y ps IH h3 x2; rewrite [map _ _]/= inE => /orP[/eqP->|h]; last exact: IH h3 _ h.
apply: (@path_gt x.2 (y :: ps)) => //; rewrite mem_flat; apply/orP; right.
exact: (map_f snd (mem_last y ps)).
Qed.

Lemma aval_ends c : c \in ends prs -> aval c = rootval c.
Proof.
move=> h; rewrite /aval; have := ends_lt (sv_path inv) h; rewrite (sv_last inv) => /lt_eqF->.
by have := path_gt (sv_path inv); move/(_ c); rewrite mem_flat (mem_ends h) orbT => /(_ isT)/gt_eqF->.
Qed.

Lemma real_stepE : vd D (lcrow p) 0 != 0 ->
  if bad aval 0 prs then real_step A setiter D p = Err DiagramExc
  else exists2 D', real_step A setiter D p = Ok D' &
    (forall q c, cell D' q c =
       if dget (plan aval 0 prs) c is Ok sv then
         if q == p then Ok sv.2 else if q \in rest then cell D q sv.1 else cell D q c
       else if (q == p) && (c \in 0 :: map snd prs) then Ok (aval c) else cell D q c)
    /\ rows D' =i p :: rows D.
Proof.
move=> v0; rewrite /real_step.
have pz : (p == zero) = false by apply/negbTE; apply: contraNneq pnew => ->; have [] := sv_zero inv.
have one : 1 \in allcols prs.
  have := mem_last (0, 0) prs; rewrite inE; case/orP => [/eqP E|/mem_fst_flat].
    by have := sv_last inv; rewrite E.
  by rewrite (sv_last inv) inE => /andP[_ ->]; rewrite orbT.
rewrite restE ?mem_head // bind_ok (negbTE v0) cell_put (rest_neq have_lc) restE // bind_ok.
set D1 := put (put _ _ _ _) _ _ _.
have cE q c : cell D1 q c = if q == p then
    (if c == 1 then Ok (aval 1) else if c == 0 then Ok (aval 0) else cell D p c) else cell D q c.
  by rewrite /D1 !cell_put /aval !eqxx; case: eqP => [->|].
have rE : rows D1 =i p :: rows D.
  by move=> q; rewrite /D1 !(rows_put, inE); case: (q == p).
have -> : zero_columns A D1 = allcols prs.
  apply: zero_columnsE => c; rewrite -(sv_cols inv (proj1 (sv_zero inv))).
  by apply: cols_eq => {}c; rewrite cE [zero == p]eq_sym pz.
rewrite touch_row; last by rewrite rE inE (proj1 (sv_zero inv)) orbT.
rewrite interiorE.
have same1 q : q != p -> forall c, cell D1 q c = cell D q c by move=> /negbTE h c; rewrite cE h.
have p1 : p \in rows D1 by rewrite rE mem_head.
have sub1 : {subset map fst (inner 1 prs) <= allcols prs}.
  by move=> c /map_fst_inner h; rewrite inE h orbT.
have [D2 -> [c1 c2]] := loop1 sub1 same1 p1; rewrite bind_ok.
have same2 q : q != p -> forall c, cell D2 q c = cell D q c.
  by move=> /negbTE h c; rewrite c1 cE h.
have same3 q : q != p -> forall c, (0 <= c) || (c == 0) -> cell D2 q c = cell D q c.
  by move=> h c _; exact: same2.
have pl : cell D2 p 0 = Ok (aval 0).
  rewrite c1 eqxx andTb cE !eqxx ifN //; apply/negP => /andP[/map_fst_inner/(path_gt (sv_path inv))].
  by rewrite ltxx.
have ph c : c \in map snd prs -> cell D2 p c = Ok (aval c).
  rewrite snd_ends ?(sv_nil inv) // (sv_last inv) inE c1 eqxx andTb cE eqxx => /orP[/eqP->|hc]; last first.
    by rewrite (ends_inner 1 hc) (sv_pt inv hc) (aval_ends hc).
  rewrite eqxx ifN //; apply/negP => /andP[/(inner_lt (sv_path inv))].
  by rewrite (sv_last inv) ltxx.
have rs2 : {subset p :: rest <= rows D2} by move=> q; rewrite c2 rE.
have sub2 : {subset flat prs <= allcols prs} by move=> c h; rewrite inE h orbT.
have := loop2 (erefl : allcols prs = [::] ++ 0 :: flat prs) (lexx 0) (sv_path inv) sub2 (sv_int inv) (sv_pt inv) same3 pl ph rs2.
case: (bad aval 0 prs) => // -[D3 -> [e1 e2]]; exists D3 => //; split=> [q c|q]; last by rewrite e2 c2 rE.
rewrite e1; have := dget_keys (plan aval 0 prs) c; case: ifP => [_ [sv ->]|nk ->].
  by case: (eqVneq q p) => // nq; rewrite same2.
case: (eqVneq q p) => [->|nq] /=; last exact: same2.
rewrite inE; case: (eqVneq c 0) => [->|n0] //=; case: ifP => [/ph //|ns].
have nf : (c \in flat prs) = false.
  by rewrite mem_flat ns orbF; apply/negP => /(plan_fst aval 0); rewrite nk.
rewrite c1 eqxx andTb ifN; last by apply/negP => /andP[/map_fst_inner]; rewrite nf.
rewrite cE eqxx (negbTE n0) ifN //; apply: contraFneq nf => ->.
by move: one; rewrite inE.
Qed.

Lemma p_zero : p != zero.
Proof. by apply: contraNneq pnew => ->; have [] := sv_zero inv. Qed.

(** The table after a step that inserts roots has the right shape. *)
Lemma plan_inv D' : vd D (lcrow p) 0 != 0 -> ~~ bad aval 0 prs ->
  (forall q c, cell D' q c =
     if dget (plan aval 0 prs) c is Ok sv then
       if q == p then Ok sv.2 else if q \in rest then cell D q sv.1 else cell D q c
     else if (q == p) && (c \in 0 :: map snd prs) then Ok (aval c) else cell D q c) ->
  rows D' =i p :: rows D -> sinv D' (newprs aval 0 prs).
Proof.
move=> v0 nb cE rE; have pth := sv_path inv.
have keys c : c \notin map fst (plan aval 0 prs) -> dget (plan aval 0 prs) c = Err KeyError.
  by move=> /negbTE h; have := dget_keys (plan aval 0 prs) c; rewrite h.
have pcell0 c : cell D p c = Err KeyError.
  by apply: cell_err; apply: contra pnew; exact: cols_row.
have k0 : 0 \notin map fst (plan aval 0 prs).
  by apply/negP => /(plan_cols pth); rewrite ltxx.
have cD q c : c \notin map fst (plan aval 0 prs) -> q != p -> cell D' q c = cell D q c.
  by move=> h /negbTE h'; rewrite cE keys // h'.
have vD q c : c \notin map fst (plan aval 0 prs) -> q != p -> vd D' q c = vd D q c.
  by move=> h h'; rewrite /vd cD.
have vd0 q : q != p -> vd D' q 0 = vd D q 0 by exact: vD.
have vdp : vd D' p 0 != 0.
  by rewrite /vd cE keys // eqxx mem_head /aval eqxx mulf_neq0 // signr_eq0.
split.
- move=> q; rewrite rE inE => hq c; rewrite inE mem_newprs mem_cat.
  have := dget_keys (plan aval 0 prs) c; case: ifP => [hc|/negbT hc].
    move=> [sv E]; rewrite orbT; have [sv' E'] := plan_get hc; rewrite E in E'; case: E' => <- hs.
    have {}hs : sv.1 \in allcols prs by rewrite inE mem_flat hs orbT.
    apply/cols_cell; rewrite cE E; case: (eqVneq q p) hq => [_ _|_ /= hq]; first by eexists.
    by rewrite hq restE //; eexists.
  rewrite orFb => E; case: (eqVneq q p) hq => [->|nq /= hq].
    move=> _; apply/cols_cell/idP => [[v]|h]; rewrite cE E eqxx andTb inE; last by rewrite h; eexists.
    by case: ifP => // _; rewrite pcell0.
  have -> : (c \in cols D' q) = (c \in cols D q).
    by apply/cols_cell/cols_cell; rewrite cD.
  rewrite (sv_cols inv) // inE mem_flat; congr (_ || _).
  by rewrite (negbTE (contra (@plan_fst aval 0 prs c) hc)).
- exact: newprs_path.
- by rewrite newprs_nil (sv_nil inv).
- by rewrite newprs_last (sv_last inv).
- move=> c /mapP[x hx ->]; have [sv [E h1 h2]] := newprs_int pth nb hx.
  apply/hasPn => q; rewrite rE inE /isroot {1}/vd cE E => /orP[/eqP->|hq].
    by rewrite eqxx (negbTE h2).
  rewrite (rest_neq hq) hq -/(vd _ _ _) vd0 ?rest_neq //.
  by have /hasPn/(_ q hq) := sv_int inv h1.
- move=> c /(newprs_ends pth) [hc|[d h1 E]]; apply/hasP; last first.
    exists p; first by rewrite rE mem_head.
    by rewrite /isroot {1}/vd cE E eqxx eqxx.
  have /hasP[q hq rq] := sv_pt inv hc; exists q; first by rewrite rE inE hq orbT.
  move: rq; rewrite /isroot vd0 ?rest_neq // vD ?rest_neq //.
  exact: (@plan_snd aval 0 prs pth c (mem_ends hc)).
- have [h1 h2] := sv_zero inv; split; first by rewrite rE inE h1 orbT.
  by rewrite vd0 // eq_sym p_zero.
Qed.

Hypothesis have_tail : a_tail A p \in rest.

Lemma real_step_copy : vd D (lcrow p) 0 = 0 -> exists2 D', real_step A setiter D p = Ok D' &
  [/\ forall q c, cell D' q c = if q == p then cell D (a_tail A p) c else cell D q c,
      rows D' =i p :: rows D & sinv D' prs].
Proof.
move=> v0; rewrite /real_step restE ?mem_head // bind_ok v0 eqxx.
have nt : p != a_tail A p.
  by apply/eqP => E; have := sz_tail ok p_zero; rewrite -E ltnn.
have ct : cols D (a_tail A p) != [::].
  apply/eqP => E; have := sv_cols inv have_tail 0; by rewrite E in_nil mem_head.
have [D' -> [c1 c2]] := copy_tailE nt ct; exists D' => //.
have cE q c : cell D' q c = if q == p then cell D (a_tail A p) c else cell D q c.
  rewrite c1; case: ifP => // _; case: ifP => // /negbT h.
  by rewrite (cell_err h); apply: cell_err; apply: contra pnew; exact: cols_row.
have vE q c : vd D' q c = if q == p then vd D (a_tail A p) c else vd D q c.
  by rewrite /vd cE; case: ifP.
have cmem q : cols D' q =i if q == p then cols D (a_tail A p) else cols D q.
  by case: ifP => h; apply: cols_eq => c; rewrite cE h.
have root c : rootcol D' c = rootcol D c.
  apply/hasP/hasP => [[q]|[q hq]].
    rewrite c2 inE /isroot !vE; case: (eqVneq q p) => [_ _|_ /= hq] rq; first by exists (a_tail A p).
    by exists q.
  by exists q; [rewrite c2 inE hq orbT|rewrite /isroot !vE rest_neq].
split=> //; split.
- move=> q; rewrite c2 inE => /orP[/eqP->|hq] c; rewrite cmem ?eqxx ?rest_neq //; exact: sv_cols inv _ _ _.
- exact: sv_path inv.
- exact: sv_nil inv.
- exact: sv_last inv.
- by move=> c hc; rewrite root; exact: sv_int inv _ hc.
- by move=> c hc; rewrite root; exact: sv_pt inv _ hc.
- by have [h1 h2] := sv_zero inv; rewrite c2 inE h1 orbT vE eq_sym (negbTE p_zero).
Qed.

End New.
End Step.
