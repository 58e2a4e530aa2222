(** If the numbers used as columns are exact to some depth, a run that does
    not go deeper does the same as the run with exact columns. *)
From Coq Require Import String.
From mathcomp Require Import all_ssreflect all_algebra.
From Verif Require Import Py MuchModel MuchFloat.

Set Implicit Arguments.
Unset Strict Implicit.
Unset Printing Implicit Defensive.
Import GRing.Theory Num.Theory Order.TTheory.
Local Open Scope ring_scope.

(** [dom d]: the columns that can be there after [d] steps; [val]: their
    values. *)
Record exact_to (C : columns) (val : C -> rat) (dom : nat -> pred C) (B : nat) : Prop := {
  ex_0 : dom 0%N (col0 C);
  ex_h : dom 0%N (col_half C);
  ex_1 : dom 0%N (col1 C);
  ex_v0 : val (col0 C) = 0;
  ex_vh : val (col_half C) = 1 / 2%:R;
  ex_v1 : val (col1 C) = 1;
  ex_sub : forall d, {subset dom d <= dom d.+1};
  ex_inj : {in dom B &, injective val};
  ex_le : {in dom B &, forall a b, col_le a b = (val a <= val b)};
  ex_mid : forall d, (d < B)%N -> {in dom d &, forall a b,
    mid a b \in dom d.+1 /\ val (mid a b) = (val a + val b) / 2%:R}
}.

Definition rmap (S T : Type) (g : S -> T) (r : res S) : res T := let! x := r in Ok (g x).

Lemma foldM_sim (S1 S2 X1 X2 : Type) (g : S1 -> S2) (h : X1 -> X2) (I : S1 -> Prop)
  (f1 : S1 -> X1 -> res S1) (f2 : S2 -> X2 -> res S2) l s :
  (forall s x, List.In x l -> I s -> f2 (g s) (h x) = rmap g (f1 s x) /\
     (forall s', f1 s x = Ok s' -> I s')) -> I s ->
  foldM f2 (g s) (map h l) = rmap g (foldM f1 s l) /\ (forall s', foldM f1 s l = Ok s' -> I s').
Proof.
elim: l s => [|x l IH] s H Is /=; first by split=> // s' [<-].
have [-> H2] := H s x (or_introl erefl) Is; case E: (f1 s x) => [s'|e] //=.
by apply: IH; [move=> s1 y hy; apply: H; right|exact: H2].
Qed.

Section Sim.
Variables (C : columns) (val : C -> rat) (dom : nat -> pred C) (B : nat).
Hypothesis ex : exact_to val dom B.
Variables (P : eqType) (K : realDomainType) (A : algebra P K).
Variable setiter : seq P -> seq P.
Local Notation zero := (a_zero A).
Local Notation diag := (diagram P C).
Local Notation E := exact_columns.

Definition mapr (r : dict C int) : dict [eqType of rat] int := [seq (val x.1, x.2) | x <- r].
Definition mapD (D : diag) : diagram P [eqType of rat] := [seq (x.1, mapr x.2) | x <- D].
Definition okr d (r : dict C int) := all (dom d) (map fst r).
Definition okD d (D : diag) := all (fun x => okr d x.2) D.

Lemma dom_le d d' : (d <= d')%N -> {subset dom d <= dom d'}.
Proof.
move=> /subnK <-; elim: (d' - d)%N => [|k IH] x //= /IH h; exact: (ex_sub ex).
Qed.
Lemma okD_le d d' D : (d <= d')%N -> okD d D -> okD d' D.
Proof.
move=> le /allP h; apply/allP => x /h /allP hx; apply/allP => c /hx; exact: dom_le.
Qed.

Lemma val_eq a b d : (d <= B)%N -> dom d a -> dom d b -> (val a == val b) = (a == b).
Proof.
move=> le ha hb; apply/eqP/eqP => [|-> //]; apply: (ex_inj ex); exact: dom_le le _ _.
Qed.

Section Depth.
Variable d : nat.
Hypothesis dB : (d <= B)%N.

Lemma dget_mapr r c : okr d r -> dom d c -> dget (mapr r) (val c) = dget r c.
Proof.
elim: r => [|[a v] r IH] //= /andP[ha hr] hc; rewrite (val_eq dB) // IH //.
Qed.
Lemma dset_mapr r c v : okr d r -> dom d c -> dset (mapr r) (val c) v = mapr (dset r c v).
Proof.
elim: r => [|[a w] r IH] //= /andP[ha hr] hc; rewrite (val_eq dB) //; case: eqP => //= _.
by rewrite IH.
Qed.
Lemma okr_dset r c v : okr d r -> dom d c -> okr d (dset r c v).
Proof.
elim: r => [|[a w] r IH] /=; first by rewrite /okr /= => _ ->.
move=> /andP[ha hr] hc; case: eqP => _ /=; apply/andP; split=> //; exact: IH.
Qed.

Lemma row_mapD D q : row (mapD D) q = mapr (row D q).
Proof.
by rewrite /row; elim: D => [|[a r] D IH] //=; case: (q == a).
Qed.
Lemma okr_row D q : okD d D -> okr d (row D q).
Proof.
rewrite /row; elim: D => [|[a r] D IH] //= /andP[h hD]; case: (q == a) => //; exact: IH.
Qed.
Lemma cell_mapD D q c : okD d D -> dom d c -> cell (mapD D) q (val c) = cell D q c.
Proof. by move=> h hc; rewrite /cell row_mapD dget_mapr // okr_row. Qed.
Lemma put_mapD D q c v : okD d D -> dom d c -> put (mapD D) q (val c) v = mapD (put D q c v).
Proof.
move=> h hc; rewrite /put row_mapD dset_mapr ?okr_row //.
move: (dset (row D q) c v) => r; elim: D {h} => [|[a w] D IH] //=; case: (q == a) => //=.
by rewrite IH.
Qed.
Lemma okD_put D q c v : okD d D -> dom d c -> okD d (put D q c v).
Proof.
move=> h hc; rewrite /put; have := okr_dset v (okr_row q h) hc; move: (dset (row D q) c v) => r hr.
elim: D h => [|[a w] D IH] /=; first by rewrite /okD /= hr.
move=> /andP[h1 h2]; case: (q == a) => /=; apply/andP; split=> //; exact: IH.
Qed.
Lemma okD_dom D q c : okD d D -> c \in cols D q -> dom d c.
Proof. by move=> h; rewrite /cols => hc; have /allP := okr_row q h; apply. Qed.
Lemma rows_mapD D : rows (mapD D) = rows D.
Proof. by rewrite /rows /mapD -map_comp. Qed.
Lemma cols_mapD D q : cols (mapD D) q = map val (cols D q).
Proof. by rewrite /cols row_mapD /mapr -!map_comp. Qed.
Lemma touch_mapD D q : touch (mapD D) q = mapD (touch D q).
Proof.
rewrite /touch /dmem -/(rows _) rows_mapD -/(rows _); case: ifP => // _.
by rewrite /mapD map_rcons.
Qed.
Lemma okD_touch D q : okD d D -> okD d (touch D q).
Proof. by rewrite /touch; case: ifP => // _ h; rewrite /okD all_rcons. Qed.

Lemma zeros_mapD D c rest : okD d D -> dom d c ->
  zeros_of A setiter (mapD D) 0 (val c) rest = zeros_of A setiter D (col0 C) c rest.
Proof.
move=> h hc; rewrite /zeros_of; congr bind; elim: (setiter rest) => //= q l ->.
rewrite cell_mapD //; rewrite -(ex_v0 ex) cell_mapD //.
exact: dom_le (leq0n _) _ (ex_0 ex).
Qed.

Lemma copy_tail_mapD D p : okD d D ->
  copy_tail A (mapD D) p = rmap mapD (copy_tail A D p) /\
  (forall D', copy_tail A D p = Ok D' -> okD d D').
Proof.
move=> h; rewrite /copy_tail touch_mapD cols_mapD.
apply: (foldM_sim (I := okD d)); last exact: okD_touch.
move=> D1 c hc h1; have dc : dom d c.
  apply: (okD_dom (q := a_tail A p) h); move: hc; elim: (cols _ _) => //= x l IH [->|/IH].
    exact: mem_head.
  by rewrite inE => ->; rewrite orbT.
rewrite cell_mapD //; case: (cell D1 _ c) => [v|e] //=; rewrite put_mapD //; split=> // D' [<-].
exact: okD_put.
Qed.

Lemma undup_val (l : seq C) : all (dom d) l -> undup (map val l) = map val (undup l).
Proof.
elim: l => //= c l IH /andP[hc hl]; rewrite IH //.
have -> : (val c \in map val l) = (c \in l).
  apply/mapP/idP => [[x hx /eqP]|hc']; last by exists c.
  by rewrite (val_eq dB) // ?(allP hl) // => /eqP->.
by case: ifP.
Qed.

Lemma zero_columns_mapD D : okD d D ->
  fzero_columns (C := E) A (mapD D) = map val (fzero_columns A D) /\ all (dom d) (fzero_columns A D).
Proof.
move=> h; have ha : all (dom d) (cols D zero) by apply/allP => c; exact: okD_dom h.
have hu : all (dom d) (undup (cols D zero)) by apply/allP => c; rewrite mem_undup => /(allP ha).
split; last by rewrite /fzero_columns all_sort.
rewrite /fzero_columns cols_mapD undup_val //.
apply: (homo_sort_map_in (P := dom d)) hu.
- by move=> a b ha' hb' /le_anti /eqP; rewrite (val_eq dB) // => /eqP.
- by move=> a b c _ _ _; exact: le_trans.
- by move=> a b ha' hb'; rewrite !(ex_le ex) ?(dom_le dB) //; exact: le_total.
- by move=> a b ha' hb'; rewrite (ex_le ex) ?(dom_le dB).
Qed.

Lemma root_mapD p rest D c : okD d D -> dom d c ->
  froot_column (C := E) A setiter p rest (mapD D) (val c) = rmap mapD (froot_column A setiter p rest D c) /\
  (forall D', froot_column A setiter p rest D c = Ok D' -> okD d D').
Proof.
move=> h hc; rewrite /froot_column zeros_mapD //; case: (zeros_of _ _ _ _ _ _) => [[|z zs]|e] //=.
  by split=> // D' [<-].
rewrite !cell_mapD //; case: (cell D _ c) => [cv|e] //=; case: (cell D _ c) => [v|e] //=.
rewrite put_mapD //; split=> // D' [<-]; exact: okD_put.
Qed.
End Depth.

Lemma pyget_map (S T : Type) (g : S -> T) l i : pyget (map g l) i = rmap g (pyget l i).
Proof. by rewrite /pyget -map_drop; case: (drop i l). Qed.
Lemma pyget_all (T : Type) (p : pred T) l i x : all p l -> pyget l i = Ok x -> p x.
Proof.
rewrite -{1}(cat_take_drop i l) all_cat /pyget => /andP[_]; case: (drop i l) => //= y s /andP[h _] [<-].
exact: h.
Qed.

Lemma InP' (T : eqType) (x : T) l : List.In x l -> x \in l.
Proof. by elim: l => //= y l IH [->|/IH h]; rewrite inE ?eqxx // h orbT. Qed.

Lemma between_mapD d p rest zc D c ind : (d < B)%N -> okD d.+1 D -> dom d c -> all (dom d) zc ->
  fbetween_column (C := E) A setiter p rest (map val zc) (mapD D) (val c, ind) =
    rmap mapD (fbetween_column A setiter p rest zc D (c, ind)) /\
  (forall D', fbetween_column A setiter p rest zc D (c, ind) = Ok D' -> okD d.+1 D').
Proof.
move=> dB h hc hz; have sub := ex_sub ex (d := d); have hc' := sub _ hc.
rewrite /fbetween_column (zeros_mapD dB) //; case: (zeros_of _ _ _ _ _ _) => [[|z zs]|e] //=; last first.
  by split=> // D' [<-].
rewrite !pyget_map; case E1: (pyget zc ind.-1) => [l|e] //=; case E2: (pyget zc ind.+1) => [r|e] //=.
have hl := pyget_all hz E1; have hr := pyget_all hz E2; have hl' := sub _ hl; have hr' := sub _ hr.
rewrite !(cell_mapD dB) //; case: (cell D p l) => [lv|e] //=; case: (cell D p r) => [rv|e] //=.
case: ifP => // _; case: ifP => _ /=.
  rewrite (put_mapD dB) //; split=> // D' [<-]; exact: okD_put.
have [ml <-] := ex_mid ex dB hc hl; have [mr <-] := ex_mid ex dB hc hr.
set ln := mid c l; set rn := mid c r.
have k1 : okD d.+1 (put D p ln lv) by exact: okD_put.
have k2 : okD d.+1 (put (put D p ln lv) p c 0) by exact: okD_put.
have k3 : okD d.+1 (put (put (put D p ln lv) p c 0) p rn rv) by exact: okD_put.
rewrite (put_mapD dB) // (put_mapD dB) // (put_mapD dB) //.
rewrite -[X in foldM _ (mapD _) X]map_id.
apply: (foldM_sim (I := okD d.+1)) k3 => D1 q _ h1.
rewrite (cell_mapD dB) //; case: (cell D1 q c) => [v|e] //=.
rewrite (put_mapD dB) //; have h2 : okD d.+1 (put D1 q ln v) by exact: okD_put.
rewrite (cell_mapD dB) //; case: (cell _ q c) => [w|e] //=.
by rewrite (put_mapD dB) //; split=> // D' [<-]; exact: okD_put.
Qed.

Lemma zip_val zc k : zip (map val zc) (iota k (size (map val zc))) =
  map (fun x => (val x.1, x.2)) (zip zc (iota k (size zc))).
Proof. by rewrite size_map; elim: zc k => //= c zc IH k; rewrite IH. Qed.
Lemma interior_map (S T : Type) (g : S -> T) l : interior (map g l) = map g (interior l).
Proof. by rewrite /interior behead_map /pybutlast size_map map_take. Qed.
Lemma interior_In (T : Type) (x : T) l : List.In x (interior l) -> List.In x l.
Proof.
rewrite /interior /pybutlast; case: l => //= y l; move: (size l).-1 => n h; right.
elim: l n h => [|z l IH] [|n] //= [->|/IH]; auto.
Qed.

Lemma step_mapD d D p : (d < B)%N -> okD d D ->
  freal_step (C := E) A setiter (mapD D) p = rmap mapD (freal_step A setiter D p) /\
  (forall D', freal_step A setiter D p = Ok D' -> okD d.+1 D').
Proof.
move=> dB h; have dB' := ltnW dB; have h1 := okD_le (leqnSn d) h.
have z0 : dom d (col0 C) := dom_le (leq0n _) (ex_0 ex).
have z1 : dom d (col1 C) := dom_le (leq0n _) (ex_1 ex).
rewrite /freal_step -{1}[col0 E](ex_v0 ex) (cell_mapD dB') //.
case: (cell D _ (col0 C)) => [v|e] //=; case: ifP => _.
  have [-> c2] := copy_tail_mapD dB' p h; split=> // D' /c2; exact: okD_le.
rewrite -(ex_v0 ex) -(ex_v1 ex) (put_mapD dB') //.
set D0 := put D p _ _; have h0 : okD d D0 by exact: okD_put.
rewrite (cell_mapD dB') //; case: (cell D0 _ _) => [v1|e] //=.
rewrite (put_mapD dB') //; set D1 := put D0 p _ _; have k1 : okD d D1 by exact: okD_put.
rewrite rows_mapD touch_mapD; have [-> hz] := zero_columns_mapD dB' k1.
set D2 := touch D1 zero; have k2 : okD d D2 by exact: okD_touch.
rewrite zip_val interior_map; set zz := zip _ _.
have inz x : List.In x (interior zz) -> dom d x.1.
  move=> /(@interior_In _ _ _); rewrite /zz; move: (iota _ _) => io hx; apply: (allP hz); move: hx.
  elim: (fzero_columns A D1) io => [|c l IH] [|i io] //= [<-|/IH hx]; rewrite inE ?eqxx //.
  by rewrite hx orbT.
have [-> k3] := @foldM_sim _ _ _ _ mapD (fun x : C * nat => (val x.1, x.2)) (okD d)
  (fun (D0 : diag) (x : C * nat) => froot_column A setiter p (rows D) D0 x.1)
  (fun D0 (x : rat * nat) => froot_column (C := E) A setiter p (rows D) D0 x.1)
  (interior zz) D2 (fun s x hx hs => root_mapD dB' p (rows D) hs (inz x hx)) k2.
case E3: (foldM _ D2 _) => [D3|e] //=; have {}k3 := okD_le (leqnSn d) (k3 _ E3).
apply: (foldM_sim (I := okD d.+1)) k3 => D4 [c ind] /inz hc k4.
exact: between_mapD.
Qed.

Lemma extend_mapD d D l : (d + size l <= B)%N -> okD d D ->
  freal_extend (C := E) A setiter (mapD D) l = rmap mapD (freal_extend A setiter D l) /\
  (forall D', freal_extend A setiter D l = Ok D' -> okD (d + size l) D').
Proof.
rewrite /freal_extend; elim: l d D => [|p l IH] d D /= dB h.
  by split=> // D' [<-]; rewrite addn0.
have dB' : (d < B)%N by apply: leq_trans dB; rewrite addnS ltnS leq_addr.
have [-> k1] := step_mapD p dB' h; case E1: (freal_step _ _ _ _) => [D1|e] //=.
rewrite addnS -addSn in dB *; exact: IH _ _ dB (k1 _ E1).
Qed.

Lemma extend_all_mapD ds l : (size l <= B)%N -> all (okD 0) ds ->
  fextend_all (C := E) A setiter (map mapD ds) l = rmap (map mapD) (fextend_all A setiter ds l) /\
  (forall ds', fextend_all A setiter ds l = Ok ds' -> all (okD B) ds').
Proof.
move=> lB; elim: ds => [|D ds IH] /=; first by split=> // ds' [<-].
move=> /andP[h /IH[-> k]]; have [|-> k1] := @extend_mapD 0 D l _ h; first exact: lB.
case E1: (freal_extend _ _ _ _) => [D'|e] /=; last by case: ifP.
case E2: (fextend_all _ _ _ _) => [r|e] //=; split=> // ds' [<-] /=; rewrite (k _ E2) andbT.
exact: okD_le lB (k1 _ E1).
Qed.

Lemma keep_mapD D v cs p : okD B D -> all (dom B) cs ->
  keep_columns (mapD D) v (map val cs) p = rmap (map val) (keep_columns D v cs p) /\
  (forall cs', keep_columns D v cs p = Ok cs' -> all (dom B) cs').
Proof.
move=> h; rewrite /keep_columns; elim: cs => [|c cs IH] /=; first by split=> // cs' [<-].
move=> /andP[hc /IH[]]; rewrite (cell_mapD (leqnn B)) //; case: (cell D p c) => [u|e] //=.
case: (mapM _ cs) => [xs|e] /=; case: (mapM _ (map val cs)) => [ys|e'] //= -[E1] E2.
split=> [|cs' [<-]] /=; last by case: ifP => _ /=; rewrite ?hc /= E2.
by case: (u == v) => /=; [exact: (congr1 (fun l => Ok (val c :: l)) E1)|exact: (congr1 (@Ok _) E1)].
Qed.

Lemma good_mapD l e g D : okD B D -> fgood_real (C := E) A l e g (mapD D) = fgood_real A l e g D.
Proof.
move=> h; rewrite /fgood_real cols_mapD.
have step v ps cs : all (dom B) cs ->
  foldM (keep_columns (mapD D) v) (map val cs) ps = rmap (map val) (foldM (keep_columns D v) cs ps) /\
  (forall cs', foldM (keep_columns D v) cs ps = Ok cs' -> all (dom B) cs').
  rewrite -{1}[ps]map_id; apply: (foldM_sim (I := fun cs => all (dom B) cs)) => cs1 p _.
  exact: keep_mapD.
have hc : all (dom B) (cols D zero) by apply/allP => c; exact: okD_dom h.
have [-> h1] := step 0 e _ hc; case E1: (foldM _ _ e) => [c1|] //=.
have [-> h2] := step (-1) l _ (h1 _ E1); case E2: (foldM _ _ l) => [c2|] //=.
have [-> h3] := step 1 g _ (h2 _ E2); case E3: (foldM _ _ g) => [c3|] //=.
by rewrite size_map.
Qed.

Lemma clause_mapD vf D : okD B D -> freal_clause (C := E) vf (mapD D) = freal_clause vf D.
Proof.
move=> h; rewrite /freal_clause; congr bind; elim: vf => //= q l ->.
by rewrite -[0](ex_v0 ex) (cell_mapD (leqnn B)) //; exact: (dom_le (leq0n _) (ex_0 ex)).
Qed.

Lemma root_diagram_mapD s : fr_assignment_all_zero E A s = mapD (fr_assignment_all_zero C A s) /\
  okD 0 (fr_assignment_all_zero C A s).
Proof.
rewrite /fr_assignment_all_zero; have : okD 0 [::] by [].
rewrite -[X in foldl _ X _ = _]/(mapD [::]); elim: s [::] => [|q s IH] D h //=.
set v := if _ then _ else _.
have z0 := ex_0 ex; have zh := ex_h ex; have z1 := ex_1 ex; have lB := leq0n B.
have k1 := okD_put q v h z0; have k2 := okD_put q v k1 zh; have k3 := okD_put q v k2 z1.
have -> : put (put (put (mapD D) q 0 v) q (1 / 2%:R) v) q 1 v =
  mapD (put (put (put D q (col0 C) v) q (col_half C) v) q (col1 C) v); last exact: IH.
by rewrite -(put_mapD lB) // -(put_mapD lB) // -(put_mapD lB) // (ex_v0 ex) (ex_vh ex) (ex_v1 ex).
Qed.

Lemma assign3_mapD D q v : okD 0 D ->
  fassign3 (C := E) (mapD D) q v = mapD (fassign3 D q v) /\ okD 0 (fassign3 D q v).
Proof.
move=> h; rewrite /fassign3.
have cp (T : eqType) (D' : diagram P T) : diagram_copy D' = D'.
  by rewrite /diagram_copy; elim: D' => //= -[a b] D' ->.
rewrite !cp /= -{1}(ex_v0 ex) -{1}(ex_vh ex) -{1}(ex_v1 ex).
have z0 := ex_0 ex; have zh := ex_h ex; have z1 := ex_1 ex; have lB := leq0n B.
have k1 := okD_put q v h z0; have k2 := okD_put q v k1 zh; have k3 := okD_put q v k2 z1.
by rewrite (put_mapD lB) // (put_mapD lB) // (put_mapD lB).
Qed.

Lemma full_assignment_mapD ds vf : all (okD 0) ds ->
  fr_full_assignment (C := E) (map mapD ds) vf = map mapD (fr_full_assignment ds vf) /\
  all (okD 0) (fr_full_assignment ds vf).
Proof.
elim: vf ds => [|q vf IH] ds h //=.
set ds' := flatten [seq [:: fassign3 D q (-1); fassign3 D q 0; fassign3 D q 1] | D <- ds].
have [-> h'] : flatten [seq [:: fassign3 (C := E) D q (-1); fassign3 (C := E) D q 0; fassign3 (C := E) D q 1] | D <- map mapD ds]
   = map mapD ds' /\ all (okD 0) ds'; last exact: IH.
rewrite {}/ds'; elim: ds h => //= D ds IHd /andP[h /IHd[-> ->]].
have [-> ->] := assign3_mapD q (-1) h; have [-> ->] := assign3_mapD q 0 h.
by have [-> ->] := assign3_mapD q 1 h.
Qed.

(** The main lemma: both runs give the same result. *)
Lemma full_exact n s l e g :
  muchnik_sequence A n (sortedset (key_lt A) [:: zero]) (l ++ e ++ g) = Ok s ->
  (size (nonconst_frag A s) <= B)%N ->
  freal_full C A setiter n l e g = real_full A setiter n l e g.
Proof.
move=> Es sB; rewrite -exact_full /freal_full Es /=.
have [-> k0] := root_diagram_mapD (sca_frag A s).
rewrite -[[:: mapD _]]/(map mapD [:: _]).
have [|-> k1] := @full_assignment_mapD [:: fr_assignment_all_zero C A (sca_frag A s)] (var_frag A s).
  by rewrite /= k0.
have [-> k2] := extend_all_mapD sB k1; case E2: (fextend_all _ _ _ _) => [ds|] //=.
have {k2}h := k2 _ E2.
have -> : filterM (fgood_real (C := E) A l e g) (map mapD ds) = rmap (map mapD) (filterM (fgood_real A l e g) ds).
  elim: ds h {E2 k1} => //= D ds IH /andP[hD /IH->]; rewrite good_mapD //.
  by case: (fgood_real _ _ _ _ _) => [b|] //=; case: (filterM _ _) => [r|] //=; case: b.
case E3: (filterM _ _) => [gd|] //=; rewrite size_map.
have hg : all (okD B) gd.
  elim: ds gd h E3 {E2} => [|D ds IH] gd /=; first by move=> _ [<-].
  move=> /andP[hD /IH k]; case: (fgood_real _ _ _ _ _) => [b|] //=.
  by case E4: (filterM _ _) => [r|] //= [<-]; case: b; rewrite /= ?hD /= (k _ E4).
have -> // : mapM (freal_clause (C := E) (var_frag A s)) (map mapD gd) = mapM (freal_clause (var_frag A s)) gd.
by elim: gd hg {E3} => //= D gd IH /andP[hD /IH->]; rewrite clause_mapD.
Qed.
End Sim.
