(** highschool_qe/muchnik.py 103-132, 190-210 once more, with diagrams as
    mutable objects: what MuchModel writes with values is what happens in the
    heap, and the diagrams produced share nothing. *)
From mathcomp Require Import all_ssreflect all_algebra.
From mathcomp.zify Require Import zify.
From Coq Require Import Permutation.
From Verif Require Import Py MuchModel MuchDiag.

Set Implicit Arguments.
Unset Strict Implicit.
Unset Printing Implicit Defensive.

Section Heap.
Variables (P C : eqType).

(** An object is a diagram (a dictionary of references to rows) or a row; a
    reference is a position in the heap. *)
Inductive obj := Outer of dict P nat | Row of dict C int.
Definition heap := seq obj.

Definition load_outer (h : heap) (l : nat) : res (dict P nat) :=
  if drop l h is Outer d :: _ then Ok d else Err TypeError.
Definition load_row (h : heap) (l : nat) : res (dict C int) :=
  if drop l h is Row r :: _ then Ok r else Err TypeError.
Definition store (h : heap) (l : nat) (o : obj) : heap := set_nth (Row [::]) h l o.

(** muchnik.py 103-108: _diagram_copy. *)
Definition h_copy (h : heap) (l : nat) : res (heap * nat) :=
  let! src := load_outer h l in
  let ret := size h in
  let! h2 := foldM (fun h i =>
      let! src := load_outer h l in
      let! rl := dget src i in
      let! r := load_row h rl in
      let h' := rcons h (Row r) in
      let! d := load_outer h' ret in
      Ok (store h' ret (Outer (dset d i (size h))))) (rcons h (Outer [::])) (map fst src) in
  Ok (h2, ret).

(** [diagram[q][c] = (v, q)]: a missing row is created. *)
Definition h_put (h : heap) (l : nat) (q : P) (c : C) (v : int) : res heap :=
  let! d := load_outer h l in
  let! st := (if dmem d q then let! rl := dget d q in Ok (h, rl)
              else Ok (store (rcons h (Row [::])) l (Outer (dset d q (size h))), size h)) in
  let: (h, rl) := st in
  let! r := load_row h rl in
  Ok (store h rl (Row (dset r c v))).

(** The diagram that is stored at a reference, and the references it uses. *)
Definition reads (h : heap) (l : nat) : res (diagram P C) :=
  let! d := load_outer h l in
  mapM (fun x => let! r := load_row h x.2 in Ok (x.1, r)) d.
Definition foot (h : heap) (l : nat) : seq nat :=
  if load_outer h l is Ok d then l :: map snd d else [:: l].

Definition owned h l D := [/\ reads h l = Ok D, uniq (foot h l) & uniq (rows D)].

(** Several diagrams in one heap, none of which uses a reference of another. *)
Definition separate h (xs : seq (nat * diagram P C)) : Prop :=
  List.Forall (fun x => owned h x.1 x.2) xs /\ uniq (flatten [seq foot h x.1 | x <- xs]).

(** *** Framing. *)
Definition agree (h h' : heap) l : Prop := ohead (drop l h') = ohead (drop l h).

Lemma agree_outer h h' l : agree h h' l -> load_outer h' l = load_outer h l.
Proof. by rewrite /agree /load_outer; case: (drop l h') (drop l h) => [|a x] [|b y] //= [->]. Qed.
Lemma agree_row h h' l : agree h h' l -> load_row h' l = load_row h l.
Proof. by rewrite /agree /load_row; case: (drop l h') (drop l h) => [|a x] [|b y] //= [->]. Qed.

Lemma eq_mapM_in (T : eqType) (U : Type) (f g : T -> res U) (l : seq T) :
  (forall x, x \in l -> f x = g x) -> mapM f l = mapM g l.
Proof.
elim: l => //= x l IH e; rewrite e ?mem_head // IH // => y hy.
by apply: e; rewrite inE hy orbT.
Qed.

Lemma frame h h' l : (forall k, k \in foot h l -> agree h h' k) ->
  reads h' l = reads h l /\ foot h' l = foot h l.
Proof.
rewrite /foot /reads => ag.
have hl : agree h h' l by apply: ag; case: (load_outer h l) => *; rewrite mem_head.
rewrite (agree_outer hl); move: ag; case E: (load_outer h l) => [d|] //= ag; split=> //.
apply: eq_mapM_in => x hx; rewrite (@agree_row h) //.
by apply: ag; rewrite inE map_f ?orbT.
Qed.

Lemma drop_head (h : heap) k : (k < size h)%N -> ohead (drop k h) = Some (nth (Row [::]) h k).
Proof. by move=> lt; rewrite (drop_nth (Row [::])). Qed.

Lemma agree_rcons h o k : (k < size h)%N -> agree h (rcons h o) k.
Proof.
move=> lt; rewrite /agree !drop_head ?size_rcons //; last exact: ltnW.
by rewrite nth_rcons lt.
Qed.

Lemma size_store h l o : (l < size h)%N -> size (store h l o) = size h.
Proof. by move=> lt; rewrite /store size_set_nth; apply/maxn_idPr. Qed.

Lemma agree_store h l o k : (l < size h)%N -> (k < size h)%N -> k != l -> agree h (store h l o) k.
Proof.
move=> lt lk ne; rewrite /agree !drop_head ?size_store //.
by rewrite nth_set_nth /= (negbTE ne).
Qed.

Lemma store_same h l o : (l < size h)%N -> ohead (drop l (store h l o)) = Some o.
Proof. by move=> lt; rewrite drop_head ?size_store // nth_set_nth /= eqxx. Qed.

Lemma outer_store h l d : (l < size h)%N -> load_outer (store h l (Outer d)) l = Ok d.
Proof.
by move=> lt; rewrite /load_outer; move: (store_same (Outer d) lt); case: (drop l _) => //= o _ [->].
Qed.
Lemma row_store h l r : (l < size h)%N -> load_row (store h l (Row r)) l = Ok r.
Proof.
by move=> lt; rewrite /load_row; move: (store_same (Row r) lt); case: (drop l _) => //= o _ [->].
Qed.
Lemma row_new h r : load_row (rcons h (Row r)) (size h) = Ok r.
Proof. by rewrite /load_row -cats1 drop_size_cat. Qed.
Lemma outer_new h d : load_outer (rcons h (Outer d)) (size h) = Ok d.
Proof. by rewrite /load_outer -cats1 drop_size_cat. Qed.

Lemma outer_lt h l d : load_outer h l = Ok d -> (l < size h)%N.
Proof. by rewrite /load_outer; case: (ltnP l (size h)) => // /drop_oversize->. Qed.
Lemma row_lt h l d : load_row h l = Ok d -> (l < size h)%N.
Proof. by rewrite /load_row; case: (ltnP l (size h)) => // /drop_oversize->. Qed.

Lemma agree_trans h h' h2 k : agree h h' k -> agree h' h2 k -> agree h h2 k.
Proof. by rewrite /agree => <-. Qed.

Local Notation rd h := (fun x : P * nat => let! r := load_row h x.2 in Ok (x.1, r)).

Lemma reads_inv h l D : reads h l = Ok D -> exists2 d, load_outer h l = Ok d & mapM (rd h) d = Ok D.
Proof. by rewrite /reads; case E: (load_outer h l) => [d|] //=; exists d. Qed.

Lemma mapM_keys h d D : mapM (rd h) d = Ok D -> map fst D = map fst d.
Proof.
elim: d D => [|x d IH] D /=; first by move=> [<-].
case: (load_row h x.2) => //= r; case E: (mapM _ d) => [D'|] //= [<-] /=.
by rewrite (IH D').
Qed.

Lemma mapM_rows h d D k : mapM (rd h) d = Ok D -> k \in map snd d -> (k < size h)%N.
Proof.
elim: d D => [|x d IH] D //=.
case R: (load_row h x.2) => [r|] //=; case E: (mapM _ d) => [D'|] //= _.
by rewrite inE => /orP[/eqP->|]; [exact: row_lt R|exact: IH E].
Qed.

Lemma foot_lt h l D k : reads h l = Ok D -> k \in foot h l -> (k < size h)%N.
Proof.
case/reads_inv => d E1 E2; rewrite /foot E1 inE => /orP[/eqP->|]; first exact: outer_lt E1.
exact: mapM_rows E2.
Qed.

Lemma mapM_dget h d D q rl : mapM (rd h) d = Ok D -> dget d q = Ok rl ->
  exists2 r, load_row h rl = Ok r & dget D q = Ok r.
Proof.
elim: d D => [|[k v] d IH] D //=.
case R: (load_row h v) => [r|] //=; case E: (mapM _ d) => [D'|] //= [<-] /=.
by case: ifP => _; [move=> [<-]; exists r|exact: IH].
Qed.

Lemma mapM_dset h h' d D q rl r : mapM (rd h) d = Ok D -> uniq (map fst d) ->
  (forall x, x \in d -> x.1 != q -> agree h h' x.2) -> load_row h' rl = Ok r ->
  mapM (rd h') (dset d q rl) = Ok (dset D q r).
Proof.
move=> + + + R'; elim: d D => [|[k v] d IH] D /=; first by move=> [<-] _ _; rewrite R'.
case R: (load_row h v) => [r0|] //=; case E: (mapM _ d) => [D'|] //= [<-] /andP[nk u] ag /=.
have ag' x : x \in d -> x.1 != q -> agree h h' x.2 by move=> hx; apply: ag; rewrite inE hx orbT.
case: (eqVneq q k) => [ek|ne] /=.
  rewrite R' /= -(@eq_mapM_in _ _ (rd h)) ?E // => x hx; rewrite (@agree_row h) //.
  by apply: ag' => //; apply: contra nk => /eqP E'; rewrite -ek -E'; exact: map_f.
by rewrite (agree_row (ag (k, v) (mem_head _ _) _)) ?R /= 1?eq_sym // (IH D').
Qed.

Lemma dset_get d q (rl : nat) : dget d q = Ok rl -> dset d q rl = d :> dict P nat.
Proof. by elim: d => [|[k v] d IH] //=; case: ifP => [_ [->]//|_ /IH->]. Qed.

Lemma dget_mem (V : Type) (d : dict P V) q : dmem d q -> exists rl, dget d q = Ok rl.
Proof.
rewrite /dmem; elim: d => [|[k v] d IH] //=; rewrite inE; case: eqP => //= _; first by exists v.
Qed.

Lemma dget_snd (d : dict P nat) q rl : dget d q = Ok rl -> rl \in map snd d.
Proof.
by elim: d => [|[k v] d IH] //=; case: ifP => [_ [->]|_ /IH h]; rewrite inE ?eqxx ?h ?orbT.
Qed.

Lemma dset_new (V : Type) (d : dict P V) q v : ~~ dmem d q -> dset d q v = rcons d (q, v).
Proof.
rewrite /dmem; elim: d => [|[k v'] d IH] //=; rewrite inE negb_or => /andP[/negbTE-> /IH->] //.
Qed.

Lemma dget_notin (V : Type) (d : dict P V) q : ~~ dmem d q -> dget d q = Err KeyError.
Proof. by rewrite /dmem; elim: d => [|[k v] d IH] //=; rewrite inE negb_or => /andP[/negbTE-> /IH]. Qed.

Lemma uniq_dset (V : Type) (d : dict P V) q v : uniq (map fst d) -> uniq (map fst (dset d q v)).
Proof.
elim: d => [|[k v'] d IH] //= /andP[nk u]; case: (eqVneq q k) => [_|ne] /=; first by rewrite nk u.
rewrite IH // andbT; apply: contra nk; have := keys_dset d q v k; rewrite /dmem => ->.
by rewrite inE eq_sym (negbTE ne).
Qed.

Lemma snd_key (d : dict P nat) q x : uniq (map snd d) -> dget d q = Ok x.2 -> x \in d -> x.1 = q.
Proof.
elim: d => [|[k v] d IH] //= /andP[nv u]; case: (eqVneq q k) => [<- [E]|ne G].
  by rewrite inE => /orP[/eqP->//|/(map_f snd)]; rewrite -E (negbTE nv).
rewrite inE => /orP[/eqP E|]; last exact: IH.
by move: nv; rewrite -[v]/((k, v).2) -E (dget_snd G).
Qed.

(** *** Assigning. *)
Lemma put_ok h l D q c v : owned h l D -> exists h',
  [/\ h_put h l q c v = Ok h', owned h' l (put D q c v), (size h <= size h')%N,
      forall k, (k < size h)%N -> k \notin foot h l -> agree h h' k &
      forall k, k \in foot h' l -> k \in foot h l \/ (size h <= k)%N].
Proof.
move=> [R uf uD]; have fl := foot_lt R; have [d E1 E2] := reads_inv R.
have kD := mapM_keys E2; have ud : uniq (map fst d) by rewrite -kD.
move: uf fl; rewrite /foot E1 => /= /andP[nl us] fl; have ll := outer_lt E1.
rewrite /h_put E1 bind_ok; case: (boolP (dmem d q)) => [/dget_mem[rl G]|nq].
  rewrite G /=; have [r R1 R2] := mapM_dget E2 G; rewrite R1 /=.
  have lr := row_lt R1; have hr := dget_snd G.
  have nlr : l != rl by apply: contra nl => /eqP->.
  have al : agree h (store h rl (Row (dset r c v))) l by exact: agree_store.
  have Eo := agree_outer al; exists (store h rl (Row (dset r c v))); rewrite Eo E1 /=; split=> //.
  - split; last exact: uniq_dset.
      rewrite /reads Eo E1 /= -{1}(dset_get G) /put /row R2.
      apply: (mapM_dset (h := h)) => //; last exact: row_store.
      move=> x hx ne; apply: agree_store => //; first exact: (mapM_rows E2 (map_f _ hx)).
      apply: contra ne => /eqP Ex; apply/eqP.
      by apply: (snd_key us) => //; rewrite Ex.
    by rewrite /foot Eo E1 /= nl.
  - by rewrite size_store.
  - by move=> k lk; rewrite inE negb_or => /andP[k1 k2]; apply: agree_store => //; apply: contra k2 => /eqP->.
  - by move=> k; left.
set h1 := store (rcons h (Row [::])) l (Outer (dset d q (size h))).
have lr : (l < size (rcons h (Row [::])))%N by rewrite size_rcons ltnS ltnW.
have s1 : size h1 = (size h).+1 by rewrite size_store // size_rcons.
have nl' : size h != l by rewrite neq_ltn ll orbT.
have R1 : load_row h1 (size h) = Ok [::].
  by rewrite (@agree_row (rcons h (Row [::]))) ?row_new //; apply: agree_store => //; rewrite size_rcons.
have a1 k : (k < size h)%N -> k != l -> agree h h1 k.
  move=> lk ne; apply: agree_trans (agree_rcons (Row [::]) lk) _.
  by apply: agree_store => //; rewrite size_rcons ltnS ltnW.
rewrite /= R1 /=; set h2 := store h1 (size h) _.
have a2 k : (k < size h)%N -> agree h1 h2 k.
  by move=> lk; apply: agree_store; rewrite ?s1 // 1?ltnW // neq_ltn lk.
have s2 : size h2 = (size h).+1 by rewrite size_store s1.
have Eo : load_outer h2 l = Ok (dset d q (size h)).
  by rewrite (agree_outer (a2 _ ll)) outer_store.
have ag k : (k < size h)%N -> k != l -> agree h h2 k by move=> lk /(a1 _ lk)/agree_trans; apply; exact: a2.
have nr : row D q = [::] by rewrite /row dget_notin // /dmem kD.
exists h2; rewrite /foot Eo /= s2; split=> //.
- split; last exact: uniq_dset.
    rewrite /reads Eo /= /put nr; apply: (mapM_dset (h := h)) => //; last by rewrite row_store ?s1.
    move=> x hx _; apply: ag; first exact: (mapM_rows E2 (map_f _ hx)).
    by apply: contra nl => /eqP<-; exact: map_f.
  rewrite /foot Eo (dset_new _ nq) map_rcons /= mem_rcons inE negb_or eq_sym nl' nl /= rcons_uniq us andbT.
  by apply/negP => hk; have := mapM_rows E2 hk; rewrite ltnn.
- by move=> k lk; rewrite inE negb_or => /andP[k1 k2]; apply: ag.
- move=> k; rewrite (dset_new _ nq) map_rcons inE mem_rcons !inE.
  by case/or3P=> [->|/eqP->|->]; [left|right|left; rewrite orbT].
Qed.

(** *** Copying. *)
Lemma copy_loop h l d : load_outer h l = Ok d -> uniq (map fst d) ->
  forall d2 D2 hh d1 D1, {subset d2 <= d} -> mapM (rd h) d2 = Ok D2 ->
  load_outer hh (size h) = Ok d1 -> mapM (rd hh) d1 = Ok D1 -> uniq (map fst d1 ++ map fst d2) ->
  uniq (map snd d1) -> (forall k, k \in map snd d1 -> size h < k)%N ->
  (forall k, (k < size h)%N -> agree h hh k) ->
  exists h' d', [/\ foldM (fun hh i =>
      let! src := load_outer hh l in
      let! rl := dget src i in
      let! r := load_row hh rl in
      let h' := rcons hh (Row r) in
      let! d := load_outer h' (size h) in
      Ok (store h' (size h) (Outer (dset d i (size hh))))) hh (map fst d2) = Ok h',
    load_outer h' (size h) = Ok d',
    mapM (rd h') d' = Ok (D1 ++ D2) &
    [/\ uniq (map snd d'), forall k, k \in map snd d' -> (size h < k)%N &
      forall k, (k < size h)%N -> agree h h' k]].
Proof.
move=> E ud; elim=> [|[i rl] d2 IH] D2 hh d1 D1 sub.
  by move=> /= [<-] E1 M1 u us gt ag; exists hh, d1; rewrite cats0.
rewrite [mapM _ _]/=; case R: (load_row h rl) => [r|] //=; case M2: (mapM _ d2) => [D2'|] //= [<-].
move=> E1 M1 u us gt ag; have ll := outer_lt E.
rewrite (agree_outer (ag _ ll)) E /=.
have G : dget d i = Ok rl.
  have : (i, rl) \in d by apply: sub; rewrite mem_head.
  elim: (d) ud => [|[k v] d0 IH0] //= /andP[nk u0]; rewrite inE => /orP[/eqP[-> ->]|h0]; first by rewrite eqxx.
  by case: eqP => [Ek|_]; [move: nk; rewrite -Ek (map_f fst h0)|exact: IH0].
have lr := row_lt R; have sh := outer_lt E1.
rewrite G /= (agree_row (ag _ lr)) R /= (agree_outer (agree_rcons _ sh)) E1 /=.
have ni : ~~ dmem d1 i by move: u; rewrite cat_uniq /= negb_or => /and3P[_ /andP[]].
rewrite (dset_new _ ni); set h1 := rcons hh (Row r); set h2 := store h1 _ _.
have sh1 : (size h < size h1)%N by rewrite size_rcons ltnS ltnW.
have a2 k : (k < size hh)%N -> k != size h -> agree hh h2 k.
  move=> lk ne; apply: agree_trans (agree_rcons (Row r) lk) _.
  by apply: agree_store => //; rewrite size_rcons ltnS ltnW.
have M1' : mapM (rd h2) (rcons d1 (i, size hh)) = Ok (rcons D1 (i, r)).
  have -> : rcons D1 (i, r) = dset D1 i r by rewrite dset_new // /dmem (mapM_keys M1).
  rewrite -(dset_new _ ni); apply: (mapM_dset (h := hh)) => //.
  - by move: u; rewrite cat_uniq => /and3P[].
  - move=> x hx _; have hs : x.2 \in map snd d1 by exact: map_f.
    by apply: a2; [exact: (mapM_rows M1 hs)|rewrite neq_ltn (gt _ hs) orbT].
  - rewrite (@agree_row h1) ?row_new //; apply: agree_store => //; rewrite ?size_rcons ?ltnSn //.
    by rewrite neq_ltn sh orbT.
have [||||||h' [d' [h3 h4 h5 h6]]] := IH D2' h2 (rcons d1 (i, size hh)) (rcons D1 (i, r)) _ M2 _ M1'.
- by move=> x hx; apply: sub; rewrite inE hx orbT.
- exact: outer_store.
- by rewrite map_rcons cat_rcons.
- rewrite map_rcons rcons_uniq us andbT; apply/negP => hk.
  by have := mapM_rows M1 hk; rewrite ltnn.
- by move=> k; rewrite map_rcons mem_rcons inE => /orP[/eqP->|/gt].
- move=> k lk; apply: agree_trans (ag k lk) _; apply: a2; first exact: ltn_trans lk sh.
  by rewrite neq_ltn lk.
by exists h', d'; rewrite h5 cat_rcons.
Qed.

Lemma copy_ok h l D : owned h l D -> exists h',
  [/\ h_copy h l = Ok (h', size h), owned h' (size h) D,
      forall k, (k < size h)%N -> agree h h' k &
      forall k, k \in foot h' (size h) -> (size h <= k)%N].
Proof.
move=> [R uf uD]; have [d E1 E2] := reads_inv R.
have kD := mapM_keys E2; have ud : uniq (map fst d) by rewrite -kD.
rewrite /h_copy E1 /=.
have [||||h' [d' [h3 h4 h5 [h6 h7 h8]]]] :=
  copy_loop E1 ud (D1 := [::]) (hh := rcons h (Outer [::])) (d1 := [::]) (fun x hx => hx) E2 (outer_new _ _) erefl.
- by [].
- by [].
- by [].
- by move=> k; exact: agree_rcons.
exists h'; rewrite h3; split=> //.
  split=> //; first by rewrite /reads h4.
  by rewrite /foot h4 /= h6 andbT; apply/negP => /h7; rewrite ltnn.
by rewrite /foot h4 => k; rewrite inE => /orP[/eqP->//|/h7/ltnW].
Qed.

(** *** Several diagrams. *)
Local Notation foots h xs := (flatten [seq foot h x.1 | x <- xs]).

Lemma separate_mid h xs1 x xs2 : separate h (xs1 ++ x :: xs2) <-> separate h (x :: xs1 ++ xs2).
Proof.
have pE : perm_eq (foots h (xs1 ++ x :: xs2)) (foots h (x :: xs1 ++ xs2)).
  by rewrite /= !map_cat !flatten_cat /= perm_catCA.
split=> -[F u]; split; rewrite ?(perm_uniq pE) -?(perm_uniq pE) // in u *.
  move/List.Forall_app: F => [F1 /List.Forall_cons_iff[F2 F3]].
  by constructor=> //; apply/List.Forall_app.
move/List.Forall_cons_iff: F => [F1 /List.Forall_app[F2 F3]].
by apply/List.Forall_app; split=> //; constructor.
Qed.

Lemma separate_cons h x xs : separate h (x :: xs) <->
  [/\ owned h x.1 x.2, separate h xs & forall k, k \in foot h x.1 -> k \notin foots h xs].
Proof.
split=> [[/List.Forall_cons_iff[F1 F2]]|[o [F u] n]].
  rewrite /= cat_uniq => /and3P[_ /hasPn n u]; split=> // k hk; apply/negP => /n/negP; exact.
split; first by constructor.
rewrite /= cat_uniq u; case: o => _ -> _; rewrite andbT /=.
by apply/hasPn => k; apply: contraL => /n.
Qed.

Lemma separate_frame h h' xs : (forall k, k \in foots h xs -> agree h h' k) -> separate h xs ->
  separate h' xs /\ foots h' xs = foots h xs.
Proof.
elim: xs => [|x xs IH] ag; first by split=> //; split.
move=> /separate_cons[[R u1 u2] s n].
have [E1 E2] : reads h' x.1 = reads h x.1 /\ foot h' x.1 = foot h x.1.
  by apply: frame => k hk; apply: ag; rewrite /= mem_cat hk.
have [s' E3] : separate h' xs /\ foots h' xs = foots h xs.
  by apply: IH => // k hk; apply: ag; rewrite /= mem_cat hk orbT.
by split; [apply/separate_cons; split=> //|]; rewrite /= ?E2 ?E3 //; split; rewrite ?E1 ?E2.
Qed.

Lemma separate_lt h xs k : separate h xs -> k \in foots h xs -> (k < size h)%N.
Proof.
elim: xs => [|x xs IH] // /separate_cons[[R _ _] s _]; rewrite /= mem_cat => /orP[]; last exact: IH.
exact: foot_lt R.
Qed.

(** An assignment in one diagram changes no other. *)
Lemma separate_put h xs1 l D xs2 q c v : separate h (xs1 ++ (l, D) :: xs2) ->
  exists2 h', h_put h l q c v = Ok h' & separate h' (xs1 ++ (l, put D q c v) :: xs2).
Proof.
move/separate_mid/separate_cons=> [/= o s n].
have [h' [E o' le ag new]] := put_ok q c v o; exists h' => //.
have [|s' E'] := @separate_frame h h' _ _ s.
  move=> k hk; apply: ag; first exact: separate_lt hk.
  by apply/negP => /n; rewrite hk.
apply/separate_mid/separate_cons; split=> //= k hk; rewrite E'.
have [/n//|ge] := new k hk.
by apply/negP => /(separate_lt s); rewrite ltnNge ge.
Qed.

(** A copy is a new diagram with the same contents. *)
Lemma separate_copy h xs l D : separate h xs -> List.In (l, D) xs ->
  exists h' l', h_copy h l = Ok (h', l') /\ separate h' ((l', D) :: xs).
Proof.
move=> s i; have o : owned h l D by case: s => /List.Forall_forall/(_ _ i).
have [h' [E o' ag new]] := copy_ok o; exists h', (size h); split=> //.
have [|s' E'] := @separate_frame h h' _ _ s.
  by move=> k hk; apply: ag; exact: separate_lt hk.
apply/separate_cons; split=> //= k /new ge; rewrite E'.
by apply/negP => /(separate_lt s); rewrite ltnNge ge.
Qed.

Lemma separate_drop h xs1 x xs2 : separate h (xs1 ++ x :: xs2) -> separate h (xs1 ++ xs2).
Proof. by move/separate_mid/separate_cons=> []. Qed.

Lemma separate_perm h xs ys : Permutation xs ys -> separate h xs -> separate h ys.
Proof.
move=> pm [F u]; split; first exact: Permutation_Forall pm F.
suff pE : perm_eq (foots h xs) (foots h ys) by rewrite -(perm_uniq pE).
elim: pm => {F u xs ys} // [x xs ys _ IH|x y xs|xs ys zs _ IH1 _ IH2] /=; first by rewrite perm_cat2l.
  by rewrite perm_catCA.
exact: seq.perm_trans IH1 IH2.
Qed.
End Heap.

(** *** The two full assignments. *)
Section Full.
Variable P : eqType.
Local Open Scope ring_scope.

(** muchnik.py 197-209: the body of the loop of _r_full_assignment. *)
Definition h_r_one (c : P) (st : heap P [eqType of rat] * seq nat) (l : nat) :
    res (heap P [eqType of rat] * seq nat) :=
  let: (h, acc) := st in
  let! x := h_copy h l in
  let! x1 := h_copy x.1 l in
  let! x2 := h_copy x1.1 l in
  let! x3 := h_copy x2.1 l in
  let! h' := foldM (fun h point =>
      let! h := h_put h x1.2 c point (-1) in
      let! h := h_put h x2.2 c point 0 in
      h_put h x3.2 c point 1) x3.1 [:: 0; 1 / 2%:R; 1] in
  Ok (h', acc ++ [:: x1.2; x2.2; x3.2]).

(** muchnik.py 190-210: _r_full_assignment. *)
Fixpoint h_r_full (h : heap P [eqType of rat]) (diagrams : seq nat) (vf : seq P) :
    res (heap P [eqType of rat] * seq nat) :=
  if vf is c :: rest then
    let! st := foldM (h_r_one c) (h, [::]) diagrams in h_r_full st.1 st.2 rest
  else Ok (h, diagrams).

(** muchnik.py 123-131: the body of the loop of _c_full_assignment. *)
Definition h_c_one (c : P) (st : heap P [eqType of nat] * seq nat) (l : nat) :
    res (heap P [eqType of nat] * seq nat) :=
  let: (h, acc) := st in
  let! x1 := h_copy h l in
  let! x2 := h_copy x1.1 l in
  let! h1 := h_put x2.1 x1.2 c 0%N 0 in
  let! h2 := h_put h1 x2.2 c 0%N 1 in
  Ok (h2, acc ++ [:: x1.2; x2.2]).

(** muchnik.py 110-132: _c_full_assignment. *)
Fixpoint h_c_full (h : heap P [eqType of nat]) (diagrams : seq nat) (vf : seq P) :
    res (heap P [eqType of nat] * seq nat) :=
  if vf is c :: rest then
    let! st := foldM (h_c_one c) (h, [::]) diagrams in h_c_full st.1 st.2 rest
  else Ok (h, diagrams).

Lemma r_one_ok c h acc l D rest : separate h ((l, D) :: rest) ->
  exists h' l1 l2 l3, h_r_one c (h, acc) l = Ok (h', acc ++ [:: l1; l2; l3]) /\
  separate h' (rest ++ [:: (l1, assign3 D c (-1)); (l2, assign3 D c 0); (l3, assign3 D c 1)]).
Proof.
move=> s; rewrite /h_r_one.
have [|h0 [l0 [-> s0]]] := separate_copy s (D := D) (l := l); first by left.
have [|h1 [l1 [E1 s1]]] := separate_copy (separate_drop (xs1 := [::]) s0) (D := D) (l := l); first by left.
rewrite bind_ok E1 bind_ok.
have [|h2 [l2 [E2 s2]]] := separate_copy s1 (D := D) (l := l); first by right; left.
rewrite E2 bind_ok.
have [|h3 [l3 [E3 s3]]] := separate_copy s2 (D := D) (l := l); first by right; right; left.
rewrite E3 bind_ok [foldM _ _ _]/=.
have {}s3 := separate_drop (xs1 := [:: _; _; _]) s3.
have [a1 -> t1] := separate_put (xs1 := [:: _; _]) c (0 : rat) (-1) s3; rewrite bind_ok.
have [a2 -> t2] := separate_put (xs1 := [:: _]) c (0 : rat) 0 t1; rewrite bind_ok.
have [a3 -> t3] := separate_put (xs1 := [::]) c (0 : rat) 1 t2; rewrite bind_ok.
have [a4 -> t4] := separate_put (xs1 := [:: _; _]) c (1 / 2%:R : rat) (-1) t3; rewrite bind_ok.
have [a5 -> t5] := separate_put (xs1 := [:: _]) c (1 / 2%:R : rat) 0 t4; rewrite bind_ok.
have [a6 -> t6] := separate_put (xs1 := [::]) c (1 / 2%:R : rat) 1 t5; rewrite bind_ok.
have [a7 -> t7] := separate_put (xs1 := [:: _; _]) c (1 : rat) (-1) t6; rewrite bind_ok.
have [a8 -> t8] := separate_put (xs1 := [:: _]) c (1 : rat) 0 t7; rewrite bind_ok.
have [a9 -> t9] := separate_put (xs1 := [::]) c (1 : rat) 1 t8; rewrite bind_ok.
exists a9, l1, l2, l3; split=> //; apply: separate_perm t9; rewrite /assign3 diagram_copyE.
apply: Permutation_trans (Permutation_app_comm _ _).
exact: (Permutation_app_tail _ (Permutation_rev [:: (_, _); (_, _); (_, _)])).
Qed.

Lemma c_one_ok c h acc l D rest : separate h ((l, D) :: rest) ->
  exists h' l1 l2, h_c_one c (h, acc) l = Ok (h', acc ++ [:: l1; l2]) /\
  separate h' (rest ++ [:: (l1, put (diagram_copy D) c 0%N 0); (l2, put (diagram_copy D) c 0%N 1)]).
Proof.
move=> s; rewrite /h_c_one !diagram_copyE.
have [|h1 [l1 [E1 s1]]] := separate_copy s (D := D) (l := l); first by left.
rewrite E1 bind_ok.
have [|h2 [l2 [E2 s2]]] := separate_copy s1 (D := D) (l := l); first by right; left.
rewrite E2 bind_ok.
have {}s2 := separate_drop (xs1 := [:: _; _]) s2.
have [a1 -> t1] := separate_put (xs1 := [:: _]) c 0%N 0 s2; rewrite bind_ok.
have [a2 -> t2] := separate_put (xs1 := [::]) c 0%N 1 t1; rewrite bind_ok.
exists a2, l1, l2; split=> //; apply: separate_perm t2.
apply: Permutation_trans (Permutation_app_comm _ _).
exact: (Permutation_app_tail _ (Permutation_rev [:: (_, _); (_, _)])).
Qed.

Lemma r_loop_ok c h xs ys : separate h (xs ++ ys) ->
  exists h' zs, [/\ foldM (h_r_one c) (h, map fst ys) (map fst xs) = Ok (h', map fst (ys ++ zs)),
    map snd zs = flatten [seq [:: assign3 D c (-1); assign3 D c 0; assign3 D c 1] | D <- map snd xs] &
    separate h' (ys ++ zs)].
Proof.
elim: xs h ys => [|[l D] xs IH] h ys s; first by exists h, [::]; rewrite cats0.
have [h1 [l1 [l2 [l3 [E s1]]]]] := r_one_ok c (map fst ys) s.
have [|h' [zs [E' m s']]] := IH h1 (ys ++ [:: (l1, assign3 D c (-1)); (l2, assign3 D c 0); (l3, assign3 D c 1)]).
  by rewrite catA.
exists h', ([:: (l1, assign3 D c (-1)); (l2, assign3 D c 0); (l3, assign3 D c 1)] ++ zs).
rewrite catA; split=> //; last by rewrite map_cat m.
by rewrite [foldM _ _ _]/= -/(h_r_one c (h, map fst ys) l) E bind_ok -E' map_cat.
Qed.

Lemma c_loop_ok c h xs ys : separate h (xs ++ ys) ->
  exists h' zs, [/\ foldM (h_c_one c) (h, map fst ys) (map fst xs) = Ok (h', map fst (ys ++ zs)),
    map snd zs = flatten [seq [:: put (diagram_copy D) c 0%N 0; put (diagram_copy D) c 0%N 1] | D <- map snd xs] &
    separate h' (ys ++ zs)].
Proof.
elim: xs h ys => [|[l D] xs IH] h ys s; first by exists h, [::]; rewrite cats0.
have [h1 [l1 [l2 [E s1]]]] := c_one_ok c (map fst ys) s.
have [|h' [zs [E' m s']]] := IH h1 (ys ++ [:: (l1, put (diagram_copy D) c 0%N 0); (l2, put (diagram_copy D) c 0%N 1)]).
  by rewrite catA.
exists h', ([:: (l1, put (diagram_copy D) c 0%N 0); (l2, put (diagram_copy D) c 0%N 1)] ++ zs).
rewrite catA; split=> //; last by rewrite map_cat m.
by rewrite [foldM _ _ _]/= -/(h_c_one c (h, map fst ys) l) E bind_ok -E' map_cat.
Qed.

(** In the heap the full assignments produce what the model says, as diagrams
    that share nothing. *)
Lemma h_r_full_ok h xs vf : separate h xs ->
  exists h' ys, [/\ h_r_full h (map fst xs) vf = Ok (h', map fst ys),
    map snd ys = r_full_assignment (map snd xs) vf & separate h' ys].
Proof.
elim: vf h xs => [|c vf IH] h xs s; first by exists h, xs.
have [|h1 [zs [E m s1]]] := @r_loop_ok c h xs [::]; first by rewrite cats0.
rewrite [h_r_full _ _ _]/= E bind_ok [r_full_assignment _ _]/= -m.
exact: IH.
Qed.

Lemma h_c_full_ok h xs vf : separate h xs ->
  exists h' ys, [/\ h_c_full h (map fst xs) vf = Ok (h', map fst ys),
    map snd ys = c_full_assignment (map snd xs) vf & separate h' ys].
Proof.
elim: vf h xs => [|c vf IH] h xs s; first by exists h, xs.
have [|h1 [zs [E m s1]]] := @c_loop_ok c h xs [::]; first by rewrite cats0.
rewrite [h_c_full _ _ _]/= E bind_ok [c_full_assignment _ _]/= -m.
exact: IH.
Qed.
End Full.
