(** Facts about diagrams as finite maps. *)
From mathcomp Require Import all_ssreflect all_algebra.
From mathcomp.zify Require Import zify.
From Verif Require Import Py MuchModel MuchSpec MuchSeq.

Set Implicit Arguments.
Unset Strict Implicit.
Unset Printing Implicit Defensive.
Import GRing.Theory Num.Theory Order.TTheory.
Local Open Scope ring_scope.

Section Dict.
Variables (K : eqType) (V : Type).
Implicit Types (d : dict K V).

Lemma dget_dset d k v k' : dget (dset d k v) k' = if k' == k then Ok v else dget d k'.
Proof.
elim: d => [|[a b] d IH] /=; first by case: eqP.
case: eqVneq => [->|ne] /=; first by case: eqP.
by rewrite IH; case: (eqVneq k' a) => // ->; rewrite eq_sym (negbTE ne).
Qed.

Lemma keys_dset d k v : map fst (dset d k v) =i k :: map fst d.
Proof.
elim: d => [|[a b] d IH] //= x; case: eqVneq => [->|ne] /=; rewrite !inE ?IH ?inE.
  by rewrite orbA orbb.
by rewrite orbCA.
Qed.

Lemma dget_keys d k : if k \in map fst d then exists v, dget d k = Ok v else dget d k = Err KeyError.
Proof.
elim: d => [|[a b] d IH] //=; rewrite inE; case: eqVneq => [->|ne] /=; first by exists b.
exact: IH.
Qed.

Lemma dget_rcons d k v k' : k \notin map fst d ->
  dget (rcons d (k, v)) k' = if k' == k then Ok v else dget d k'.
Proof.
elim: d => [|[a b] d IH] //=; rewrite inE negb_or => /andP[ne h]; rewrite IH //.
by case: (eqVneq k' a) => // ->; rewrite eq_sym (negbTE ne).
Qed.
End Dict.

Section Diagram.
Variables (P C : eqType).
Implicit Types (D : diagram P C) (q : P) (c : C).

(** The cell as a number. *)
Definition vd D q c : int := if cell D q c is Ok v then v else 0.

Lemma cell_put D q c v q' c' :
  cell (put D q c v) q' c' = if (q' == q) && (c' == c) then Ok v else cell D q' c'.
Proof.
rewrite /cell /put /row dget_dset; case: (eqVneq q' q) => [->|_] //=.
by rewrite dget_dset.
Qed.

Lemma rows_put D q c v : rows (put D q c v) =i q :: rows D.
Proof. exact: keys_dset. Qed.

Lemma cols_cell D q c : reflect (exists v, cell D q c = Ok v) (c \in cols D q).
Proof.
rewrite /cell /cols; have := dget_keys (row D q) c; case: (c \in _) => h; first exact: ReflectT.
by apply: ReflectF => -[v]; rewrite h.
Qed.

Lemma cell_vd D q c : c \in cols D q -> cell D q c = Ok (vd D q c).
Proof. by move/cols_cell => [v E]; rewrite /vd E. Qed.

Lemma cell_err D q c : c \notin cols D q -> cell D q c = Err KeyError.
Proof. by rewrite /cell /cols; have := dget_keys (row D q) c; case: (c \in _). Qed.

Lemma cell_cols D q c v : cell D q c = Ok v -> c \in cols D q.
Proof. by move=> E; apply/cols_cell; exists v. Qed.

Lemma vd_ok D q c v : cell D q c = Ok v -> vd D q c = v.
Proof. by rewrite /vd => ->. Qed.

Lemma cols_put D q c v q' : cols (put D q c v) q' =i if q' == q then c :: cols D q' else cols D q'.
Proof.
move=> c'; apply/cols_cell/idP => [[w]|].
  rewrite cell_put; case: (eqVneq q' q) => [->|_] /=; last exact: cell_cols.
  by case: (eqVneq c' c) => [->|_]; [rewrite mem_head|rewrite inE => /cell_cols->; rewrite orbT].
rewrite cell_put; case: (eqVneq q' q) => [->|_] /=; last by move/cols_cell.
by case: (eqVneq c' c) => [->|ne]; [exists v|rewrite inE (negbTE ne) => /cols_cell].
Qed.

Lemma cell_touch D q q' c : cell (touch D q) q' c = cell D q' c.
Proof.
rewrite /touch; case: ifP => // /negbT h; rewrite /cell /row dget_rcons //.
case: (eqVneq q' q) => // ->; have := dget_keys D q; move: h; rewrite /dmem => /negbTE ->.
by move=> ->.
Qed.

Lemma rows_touch D q : rows (touch D q) =i q :: rows D.
Proof.
rewrite /touch /rows; case: ifP => h x; rewrite ?map_rcons ?mem_rcons //.
by rewrite inE; case: eqP => [->|].
Qed.

Lemma touch_row D q : q \in rows D -> touch D q = D.
Proof. by rewrite /touch /dmem /rows => ->. Qed.

Lemma cols_row D q c : c \in cols D q -> q \in rows D.
Proof.
by rewrite /cols /row /rows; have := dget_keys D q; case: (q \in _) => // ->.
Qed.

Lemma cols_eq D D' q q' : (forall c, cell D q c = cell D' q' c) -> cols D q =i cols D' q'.
Proof. by move=> h c; apply/cols_cell/cols_cell => -[v E]; exists v; rewrite -?h // h. Qed.

Lemma diagram_copyE D : diagram_copy D = D.
Proof. by rewrite /diagram_copy; elim: D => //= -[a b] D ->. Qed.

(** A [for] loop that succeeds for every element. *)
Lemma foldM_ok (T S : Type) (f : S -> T -> res S) (g : S -> T -> S) (I : S -> Prop) (l : seq T) s :
  (forall s x, List.In x l -> I s -> f s x = Ok (g s x) /\ I (g s x)) -> I s ->
  foldM f s l = Ok (foldl g s l) /\ I (foldl g s l).
Proof.
elim: l s => [|x l IH] s h Is //=; have [-> I'] := h _ _ (or_introl erefl) Is.
by rewrite bind_ok; apply: IH => // s' y hy; apply: h; right.
Qed.

Lemma mapM_ok (T S : Type) (f : T -> res S) (g : T -> S) (l : seq T) :
  (forall x, List.In x l -> f x = Ok (g x)) -> mapM f l = Ok (map g l).
Proof.
elim: l => [|x l IH] //= h; rewrite h; last by left.
by rewrite bind_ok IH ?bind_ok // => y hy; apply: h; right.
Qed.
End Diagram.

Lemma InP (T : eqType) (x : T) l : reflect (List.In x l) (x \in l).
Proof.
elim: l => [|y l IH] /=; first exact: ReflectF.
rewrite inE; apply: (iffP orP) => [[/eqP->|/IH]|[->|/IH]]; auto.
Qed.

Section Zeros.
Variables (P : eqType) (K : realDomainType) (A : algebra P K).
Variables (C : idomainType) (den : P -> {poly C}).
Hypothesis ok : algebra_contract A den.
Variable setiter : seq P -> seq P.
Hypothesis order : set_order setiter.
Variable T : eqType.
Implicit Types (D : diagram P T) (c : T) (rest : seq P).

(** Row [q] has a root in column [c] ([c0] is the column of generic values). *)
Definition isroot D c0 c q := (vd D q c == 0) && (vd D q c0 != 0).

Lemma zeros_ofE D c0 c rest :
  (forall q, q \in rest -> (c \in cols D q) && (c0 \in cols D q)) ->
  exists zs, [/\ zeros_of A setiter D c0 c rest = Ok zs,
    zs =i [seq q <- rest | isroot D c0 c q] & by_degree A zs].
Proof.
move=> h; rewrite /zeros_of.
rewrite (mapM_ok (g := fun q => (isroot D c0 c q, q))); last first.
  move=> q /InP; rewrite (perm_mem (order rest)) => /h/andP[h1 h2].
  by rewrite !cell_vd.
rewrite bind_ok; eexists; split; [by []| |exact: by_degree_sortedset].
have -> : [seq x.2 | x <- [seq (isroot D c0 c q, q) | q <- setiter rest] & x.1] =
          [seq q <- setiter rest | isroot D c0 c q].
  by elim: (setiter rest) => //= x l IH; case: ifP => _ /=; rewrite ?IH.
by move=> q; rewrite mem_sortedset !mem_filter (perm_mem (order rest)).
Qed.

Lemma zeros_head D c0 c rest :
  (forall q, q \in rest -> (c \in cols D q) && (c0 \in cols D q)) ->
  if has (isroot D c0 c) rest then
    exists z zs, [/\ zeros_of A setiter D c0 c rest = Ok (z :: zs), z \in rest, isroot D c0 c z &
      forall q, q \in rest -> isroot D c0 c q -> (a_degree A z <= a_degree A q)%N]
  else zeros_of A setiter D c0 c rest = Ok [::].
Proof.
move=> h; have [[|z zs] [E mem srt]] := zeros_ofE h.
  case: hasP => // -[q qr rq]; have := mem q; rewrite in_nil mem_filter.
  by rewrite rq qr.
have zr : z \in [seq q <- rest | isroot D c0 c q] by rewrite -mem mem_head.
move: zr; rewrite mem_filter => /andP[z1 z2].
have -> : has (isroot D c0 c) rest by apply/hasP; exists z.
exists z, zs; split=> // q qr rq.
have : q \in z :: zs by rewrite mem mem_filter rq.
rewrite inE => /orP[/eqP-> //|qz].
by move: srt; rewrite /by_degree /= (path_sortedE (@by_degree_trans _ _ A)) => /andP[/allP/(_ _ qz)].
Qed.

(** Copying the row of the tail. *)
Lemma copy_tailE D p : p != a_tail A p -> cols D (a_tail A p) != [::] ->
  exists2 D', copy_tail A D p = Ok D' &
   (forall q c, cell D' q c = if q == p then
      (if c \in cols D (a_tail A p) then cell D (a_tail A p) c else cell D p c) else cell D q c) /\
   rows D' =i p :: rows D.
Proof.
move=> ne; set t := a_tail A p in ne *; rewrite /copy_tail -/t => n0.
have tr : t \in rows D.
  by case E: (cols D t) n0 => [//|c cs] _; apply: (@cols_row _ _ _ _ c); rewrite E mem_head.
rewrite touch_row //.
have H cs D1 : {subset cs <= cols D t} -> (forall c, cell D1 t c = cell D t c) ->
  exists2 D', foldM (fun D' col => let! v := cell D' t col in Ok (put D' p col v)) D1 cs = Ok D' &
   (forall q c, cell D' q c = if (q == p) && (c \in cs) then cell D t c else cell D1 q c) /\
   rows D' =i if cs is [::] then rows D1 else p :: rows D1.
  elim: cs D1 => [|c cs IH] D1 sub eqt /=.
    by exists D1 => //; split=> // q c; rewrite andbF.
  have := sub c; rewrite mem_head => /(_ isT) cD.
  rewrite eqt cell_vd // !bind_ok.
  have [||D' -> [c1 c2]] := IH (put D1 p c (vd D t c)).
  - by move=> x hx; apply: sub; rewrite inE hx orbT.
  - by move=> x; rewrite cell_put eq_sym (negbTE ne) /= eqt.
  exists D' => //; split=> [q x|].
    rewrite c1 cell_put inE; case: (eqVneq q p) => //= _.
    case: (x \in cs); rewrite ?orbT // orbF; case: eqP => // ->.
    by rewrite cell_vd.
  move=> x; rewrite c2; case: (cs) => [|? ?]; rewrite ?inE rows_put !inE //.
  by rewrite orbA orbb.
have [//|//|D' E [c1 c2]] := H (cols D t) D.
exists D' => //; split; last by move=> x; rewrite c2; case: (cols D t) n0.
by move=> q c; rewrite c1; case: eqP => [->|] //=.
Qed.

End Zeros.
