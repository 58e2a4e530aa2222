(** One step of real_extend, with any numbers as columns, when the new
    polynomial has one root and it is in the last interval. *)
From Coq Require Import String.
From mathcomp Require Import all_ssreflect all_algebra.
From mathcomp.zify Require Import zify.
From Verif Require Import Py MuchModel MuchSpec MuchSeq MuchDiag MuchStep MuchFloat MuchFloatSim.

Set Implicit Arguments.
Unset Strict Implicit.
Unset Printing Implicit Defensive.
Import GRing.Theory Num.Theory Order.TTheory.
Local Open Scope ring_scope.

(** The columns of a prefix of the pairs. *)
Fixpoint before (k : nat) (t : seq (rat * rat)) : seq (rat * nat) :=
  if t is x :: t' then (x.1, k) :: (x.2, k.+1) :: before k.+2 t' else [::].

Lemma inner_rcons k t x : inner k (rcons t x) = rcons (before k t) (x.1, (k + (size t).*2)%N).
Proof.
elim: t k => [|y t IH] k /=; first by rewrite addn0.
have -> : match rcons t x with [::] => [::] | _ :: _ => (y.2, k.+1) :: inner k.+2 (rcons t x) end =
  (y.2, k.+1) :: inner k.+2 (rcons t x) by case: t {IH}.
by rewrite IH doubleS !addnS !addSn.
Qed.

Lemma before_mem zc pre l0 t u c i : zc = pre ++ l0 :: flat t ++ u -> (c, i) \in before (size pre).+1 t ->
  c \in map snd t \/ c \in map fst t /\ exists l r,
    [/\ l \in l0 :: map snd t, r \in map snd t, pyget zc i.-1 = Ok l & pyget zc i.+1 = Ok r].
Proof.
elim: t pre l0 => [|y t IH] pre l0 //= Ez; rewrite !inE => /or3P[/eqP[-> ->]|/eqP[-> _]|h].
- right; rewrite eqxx; split=> //; exists l0, y.2; rewrite !inE !eqxx; split=> //.
    by rewrite /pyget Ez drop_size_cat.
  by rewrite /pyget Ez drop_cat ltnNge leqW //= subSn // subSn // subnn.
- by left; rewrite eqxx.
have [||h1|[h1 [l [r [h2 h3 h4 h5]]]]] := IH (pre ++ [:: l0; y.1]) y.2.
- by rewrite Ez -catA.
- by rewrite size_cat addn2.
- by left; rewrite h1 orbT.
right; rewrite h1 orbT; split=> //; exists l, r; split=> //; rewrite ?inE ?h3 ?orbT //.
by move: h2; rewrite inE => ->; rewrite orbT.
Qed.

Section Keep.
Variables (C : columns) (P : eqType) (K : realDomainType) (A : algebra P K).
Variable setiter : seq P -> seq P.
Hypothesis order : set_order setiter.
Variables (p : P) (rest : seq P) (zc : seq C).
Hypothesis pnew : p \notin rest.

Lemma zeros_of_eq (D D' : diagram P C) c0 c : (forall q, q != p -> forall y, cell D' q y = cell D q y) ->
  zeros_of A setiter D' c0 c rest = zeros_of A setiter D c0 c rest.
Proof.
move=> h; rewrite /zeros_of; congr bind; apply: mapM_ext => q /InP.
rewrite (perm_mem (order rest)) => hq; rewrite !h //; by apply: contraNneq pnew => <-.
Qed.

(** Columns where the new row gets the value 1 of both sides. *)
Lemma keepers (X : pred C) L (D : diagram P C) : p \in rows D ->
  (forall x, x \in L -> (exists z zs, zeros_of A setiter D (col0 C) x.1 rest = Ok (z :: zs)) \/
     zeros_of A setiter D (col0 C) x.1 rest = Ok [::] /\ X x.1 /\ exists l r,
     [/\ pyget zc x.2.-1 = Ok l, pyget zc x.2.+1 = Ok r, cell D p l = Ok 1, cell D p r = Ok 1 &
         ~~ X l && ~~ X r]) ->
  exists2 D', foldM (fbetween_column A setiter p rest zc) D L = Ok D' & rows D' =i rows D /\
    forall q c, (q != p) || ~~ X c -> cell D' q c = cell D q c.
Proof.
elim: L D => [|[c i] L IH] D pD h; first by exists D.
have [x1 hx1] : exists D1, [/\ fbetween_column A setiter p rest zc D (c, i) = Ok D1, rows D1 =i rows D &
    forall q c, (q != p) || ~~ X c -> cell D1 q c = cell D q c].
  rewrite /fbetween_column; have [[z [zs ->]]|[-> [Xc [l [r [-> -> /= El Er /andP[nl nr]]]]]]] := h _ (mem_head _ _).
    by exists D.
  rewrite El Er /=; eexists; split; first by [].
    by move=> q; rewrite rows_put inE; case: eqP => [->|].
  move=> q y; rewrite cell_put; case: (q == p) => //= Xy; case: eqP => // E; by move: Xy; rewrite E Xc.
case: hx1 => /= -> r1 c1; rewrite bind_ok; have [||D' -> [r2 c2]] := IH x1.
- by rewrite r1.
- move=> x hx; have := h x; rewrite inE hx orbT => /(_ isT) {}h.
  rewrite (@zeros_of_eq D); last by move=> q nq y; rewrite c1 // nq.
  case: h => [|[-> [Xx [l [r [E1 E2 E3 E4 /andP[nl nr]]]]]]]; first by left.
  right; split=> //; split=> //; exists l, r; rewrite nl nr !c1 ?nl ?nr ?orbT //.
exists D' => //; split=> [q|q y hq]; first by rewrite r2.
by rewrite c2 // c1.
Qed.

(** [copy_loop] for any columns. *)
Lemma fcopy_loop (D : diagram P C) L (col ln rn : C) : ln != col -> rn != col ->
  (forall q, q \in L -> col \in cols D q) ->
  exists2 D', foldM (fun D q =>
        let! v := cell D q col in
        let D := put D q ln v in
        let! v := cell D q col in
        Ok (put D q rn v)) D L = Ok D' &
   (forall q c, cell D' q c = if (q \in L) && ((c == ln) || (c == rn)) then cell D q col else cell D q c)
   /\ rows D' =i L ++ rows D.
Proof.
move=> n1 n2; elim: L D => [|q L IH] D h /=; first by exists D.
have cq : col \in cols D q by apply: h; exact: mem_head.
rewrite cell_vd // bind_ok cell_put [col == ln]eq_sym (negbTE n1) andbF cell_vd // bind_ok.
set D1 := put _ _ _ _.
have cE r c : cell D1 r c = if (r == q) && ((c == ln) || (c == rn)) then cell D q col else cell D r c.
  rewrite /D1 !cell_put; case: (eqVneq r q) => //= _.
  by rewrite (cell_vd cq); case: (c == rn); case: (c == ln).
rewrite bind_ok; have [|D' -> [c1 c2]] := IH D1.
  move=> r hr; apply/cols_cell; exists (vd D r col).
  rewrite cE ![col == _]eq_sym (negbTE n1) (negbTE n2) andbF cell_vd //.
  by apply: h; rewrite inE hr orbT.
exists D' => //; split=> [r c|r].
  rewrite c1 !cE inE ![col == _]eq_sym (negbTE n1) (negbTE n2) andbF.
  by case: (eqVneq r q) => [->|_] //=; case: (q \in L); case: (_ || _).
by rewrite c2 mem_cat /D1 !(rows_put, inE) mem_cat; case: eqP; rewrite ?orbT.
Qed.

(** A change of sign: the column is copied to both sides. *)
Lemma splitter (D : diagram P C) c i l r lv rv : p \in rows D -> {subset rest <= rows D} ->
  zeros_of A setiter D (col0 C) c rest = Ok [::] -> pyget zc i.-1 = Ok l -> pyget zc i.+1 = Ok r ->
  cell D p l = Ok lv -> cell D p r = Ok rv -> lv * rv < 0 ->
  mid c l != c -> mid c r != c -> (forall q, q \in rest -> c \in cols D q) ->
  exists2 D', fbetween_column A setiter p rest zc D (c, i) = Ok D' & rows D' =i rows D /\
    forall q y, q \in rest -> cell D' q y =
      if (y == mid c l) || (y == mid c r) then cell D q c else cell D q y.
Proof.
move=> pD rD Ez El Er Elv Erv neg n1 n2 hc; rewrite /fbetween_column Ez El Er /= Elv Erv /=.
have lr0 : (lv * rv == 0) = false by rewrite lt_eqF.
have -> : (lv == 0) && (rv == 0) = false by apply/negP => /andP[/eqP E _]; rewrite E mul0r eqxx in lr0.
rewrite lr0 orbF; have -> : (lv == rv) = false.
  by apply/negP => /eqP E; move: neg; rewrite E; have := sqr_ge0 rv; rewrite leNgt expr2 => /negbTE->.
set D1 := put (put _ _ _ _) _ _ _.
have nep q : q \in rest -> (q == p) = false by move=> h; apply/negbTE; apply: contraNneq pnew => <-.
have cE q y : q \in rest -> cell D1 q y = cell D q y by move=> /nep h; rewrite /D1 !cell_put h.
have [|D' -> [e1 e2]] := @fcopy_loop D1 (setiter rest) c (mid c l) (mid c r) n1 n2.
  move=> q; rewrite (perm_mem (order rest)) => hq; apply/cols_cell; exists (vd D q c).
  by rewrite cE // cell_vd // hc.
exists D' => //; split=> [q|q y hq]; last by rewrite e1 (perm_mem (order rest)) hq !cE.
rewrite e2 mem_cat (perm_mem (order rest)) /D1 !(rows_put, inE).
by case: (eqVneq q p) => [->|_]; rewrite ?orbT //=; case hq: (q \in rest) => //=; rewrite rD.
Qed.
End Keep.

Lemma froots_other (C : columns) (P : eqType) (K : realDomainType) (A : algebra P K) setiter p rest
    (L : seq (C * nat)) (D D' : diagram P C) :
  foldM (fun D y => froot_column A setiter p rest D y.1) D L = Ok D' ->
  forall q, q != p -> forall y, cell D' q y = cell D q y.
Proof.
elim: L D => [|x L IH] D /=; first by move=> [<-].
case E: (froot_column _ _ _ _ _ _) => [D1|] //= /IH h q nq y; rewrite h //.
move: E; rewrite /froot_column; case: (zeros_of _ _ _ _ _ _) => [[|z zs]|] //=; first by move=> [<-].
case: (cell _ _ _) => [cv|] //=; case: (cell _ _ _) => [v|] //= [<-].
by rewrite cell_put (negbTE nq).
Qed.

Lemma foldM_cat (S X : Type) (f : S -> X -> res S) s l1 l2 :
  foldM f s (l1 ++ l2) = let! s' := foldM f s l1 in foldM f s' l2.
Proof. by elim: l1 s => //= x l1 IH s; case: (f s x) => //= s'; rewrite IH. Qed.

Lemma before_fst k t : {subset map fst t <= map fst (before k t)}.
Proof. by elim: t k => //= x t IH k c; rewrite !inE => /orP[->//|/(IH k.+2)->]; rewrite !orbT. Qed.

Lemma pyget_left (l0 : rat) t x : pyget (l0 :: flat t ++ [:: x.1; x.2]) (size t).*2 = Ok (last (0, l0) t).2.
Proof.
elim: t l0 => //= y t IH l0.
by rewrite -[LHS]/(pyget (y.2 :: flat t ++ [:: x.1; x.2]) (size t).*2) IH; case: t {IH} y => [|? ?] [].
Qed.
Lemma pyget_right (l0 : rat) t x : pyget (l0 :: flat t ++ [:: x.1; x.2]) (size t).*2.+2 = Ok x.2.
Proof.
by elim: t l0 => //= y t IH l0; exact: IH.
Qed.

Section Last.
Variables (C : columns) (val : C -> rat) (dom : nat -> pred C) (B : nat).
Hypothesis ex : exact_to val dom B.
Variables (P : eqType) (K : realDomainType) (A : algebra P K).
Variable setiter : seq P -> seq P.
Hypothesis order : set_order setiter.
Local Notation zero := (a_zero A).
Local Notation degree := (a_degree A).
Local Notation rem p q := (a_pseudo_div A p q).2.
Local Notation lcrow p := (a_times A (a_LC A p) (fac (degree p))).
Local Notation mapD := (mapD (C := C) val (P := P)).
Variables (D : diagram P C) (p : P) (t : seq (rat * rat)) (x : rat * rat).
Local Notation prs := (rcons t x).
Hypothesis okD0 : okD dom B D.
Hypothesis inv : sinv A (mapD D) prs.
Hypothesis pnew : p \notin rows D.
Hypothesis have_rows : forall z, z \in rows D -> z != zero -> (rem p z \in rows D) && (lcrow z \in rows D).
Hypothesis have_lc : lcrow p \in rows D.
Hypothesis v0 : vd (mapD D) (lcrow p) 0 != 0.
Local Notation a := (aval A setiter (mapD D) p).
Hypothesis a0 : a 0 = 1.
Hypothesis ae : forall c, c \in map snd t -> a c = 1.
Hypothesis a1 : a 1 = -1.

Lemma last_step : exists c l, [/\ val c = x.1, val l = (last (0, 0) t).2, dom B c, dom B l &
  mid c l != c -> mid c (col1 C) != c ->
  exists2 D', freal_step A setiter D p = Ok D' & rows D' =i p :: rows D /\
    forall q y, q \in rows D -> cell D' q y =
      if (y == mid c l) || (y == mid c (col1 C)) then cell D q c else cell D q y].
Proof.
have z0 : dom B (col0 C) := dom_le ex (leq0n _) (ex_0 ex).
have z1 : dom B (col1 C) := dom_le ex (leq0n _) (ex_1 ex).
have BB := leqnn B.
have rwE : rows (mapD D) = rows D by exact: rows_mapD.
have cE q c : dom B c -> cell (mapD D) q (val c) = cell D q c by move=> hc; exact: (cell_mapD ex BB).
have pz : (p == zero) = false.
  by apply/negbTE; apply: contraNneq pnew => ->; rewrite -rwE; have [] := sv_zero inv.
have zr : zero \in rows D by rewrite -rwE; have [] := sv_zero inv.
have x2 : x.2 = 1 by have := sv_last inv; rewrite last_rcons.
have one : 1 \in allcols prs by rewrite inE mem_flat map_rcons !map_rcons !mem_rcons !inE x2 eqxx !orbT.
have hrE q y : q \in rows D -> y \in allcols prs -> cell (mapD D) q y = Ok (vd (mapD D) q y).
  by move=> hq hy; rewrite cell_vd // (sv_cols inv) // rwE.
(* the first two cells *)
have E0 : cell D (lcrow p) (col0 C) = Ok (vd (mapD D) (lcrow p) 0).
  by rewrite -cE // (ex_v0 ex) hrE ?mem_head.
have E1 : cell D (lcrow p) (col1 C) = Ok (vd (mapD D) (lcrow p) 1) by rewrite -cE // (ex_v1 ex) hrE.
have lcp : (lcrow p == p) = false by apply/negbTE; apply: contraNneq pnew => <-.
pose D1 := put (put D p (col0 C) (a 0)) p (col1 C) (a 1).
have k0 : okD dom B (put D p (col0 C) (a 0)) by exact: okD_put.
have k1 : okD dom B D1 by exact: okD_put.
pose De1 := put (put (mapD D) p 0 (a 0)) p 1 (a 1).
have ED1 : mapD D1 = De1.
  by rewrite /D1 /De1 -(put_mapD ex BB) // -(put_mapD ex BB) // (ex_v0 ex) (ex_v1 ex).
have r1 : rows D1 =i p :: rows D by move=> q; rewrite /D1 !(rows_put, inE); case: (q == p).
have re1 : rows De1 =i p :: rows D by move=> q; rewrite -ED1 rows_mapD r1.
have c1E q y : cell De1 q y = if q == p then
    (if y == 1 then Ok (a 1) else if y == 0 then Ok (a 0) else cell (mapD D) p y) else cell (mapD D) q y.
  by rewrite /De1 !cell_put; case: eqP => [->|].
pose zc := fzero_columns A D1.
have [Ezc hz] : map val zc = allcols prs /\ all (dom B) zc.
  have [<- hz] := zero_columns_mapD ex A BB k1; split=> //; rewrite ED1.
  apply: (zero_columnsE inv) => y; rewrite -(sv_cols inv (proj1 (sv_zero inv))).
  by apply: cols_eq => {}y; rewrite c1E [zero == p]eq_sym pz.
pose zz := interior (zip zc (iota 0 (size zc))).
have Ezz : map (fun y : C * nat => (val y.1, y.2)) zz = rcons (before 1 t) (x.1, (size t).*2.+1).
  by rewrite /zz -interior_map -zip_val Ezc interiorE inner_rcons.
have inz y : y \in zz -> dom B y.1.
  move=> /InP/(@interior_In _ _ _); rewrite /zc; move: (iota _ _) => io hx; apply: (allP hz); move: hx.
  rewrite -/zc; elim: (zc) io => [|c l IH] [|i io] //= [<-|/IH hx]; rewrite inE ?eqxx //.
  by rewrite hx orbT.
(* the first loop *)
have same1 q : q != p -> forall y, cell De1 q y = cell (mapD D) q y by move=> /negbTE h y; rewrite c1E h.
have p1 : p \in rows De1 by rewrite re1 mem_head.
have sub1 : {subset map fst (inner 1 prs) <= allcols prs}.
  by move=> c /map_fst_inner h; rewrite inE h orbT.
have pnew' : p \notin rows (mapD D) by rewrite rwE.
have hrw z : z \in rows (mapD D) -> z != zero -> (rem p z \in rows (mapD D)) && (lcrow z \in rows (mapD D)).
  by rewrite rwE; exact: have_rows.
have [De2 L1 [c1 c2]] := loop1 order inv pnew' hrw sub1 same1 p1.
have [S1 S2] := @foldM_sim _ _ _ _ mapD (fun y : C * nat => (val y.1, y.2)) (okD dom B)
  (fun D0 (y : C * nat) => froot_column A setiter p (rows D) D0 y.1)
  (fun D0 (y : rat * nat) => froot_column (C := exact_columns) A setiter p (rows D) D0 y.1)
  zz D1 (fun s y hy hs => root_mapD ex A setiter BB p (rows D) hs (inz y (InP' hy))) k1.
have {S1} [D2 F1 ED2] : exists2 D2, foldM (fun D0 (y : C * nat) => froot_column A setiter p (rows D) D0 y.1) D1 zz = Ok D2 &
    mapD D2 = De2.
  move: S1; rewrite ED1 Ezz -(inner_rcons 1) -rwE => S1.
  have {S1} := etrans (esym S1) L1.
  by case: (foldM _ D1 zz) => [D2|] //= -[<-]; exists D2.
have {S2} k2 : okD dom B D2 by exact: S2 F1.
have c2E q y : dom B y -> cell D2 q y = cell De2 q (val y) by move=> hy; rewrite -ED2 (cell_mapD ex BB).
have same2 q : q != p -> forall y, cell De2 q y = cell (mapD D) q y.
  by move=> h y; rewrite c1 (negbTE h) same1.
have fsame2 q : q != p -> forall y, cell D2 q y = cell D q y.
  by move=> h y; rewrite (froots_other F1) // /D1 !cell_put (negbTE h).
have ends_t : ends prs = map snd t by rewrite -cats1 ends_cat // cats0.
have fst_in : {subset map fst prs <= map fst (inner 1 prs)}.
  move=> c; rewrite inner_rcons !map_rcons !mem_rcons !inE => /orP[->//|/(before_fst 1)->].
  by rewrite orbT.
have lt1 c : c \in map fst prs -> c < 1.
  by move=> /fst_in/(inner_lt (sv_path inv)); rewrite (sv_last inv).
have nX0 : 0 \notin map fst prs.
  apply/negP => h; have := path_gt (sv_path inv) (c := 0); rewrite mem_flat h => /(_ isT).
  by rewrite ltxx.
have nX1 : 1 \notin map fst prs by apply/negP => /lt1; rewrite ltxx.
have nXe c : c \in map snd t -> c \notin map fst prs.
  by rewrite -ends_t => hc; apply/negP => /(sv_int inv); rewrite (sv_pt inv hc).
have p0v : cell De2 p 0 = Ok 1.
  rewrite c1 eqxx andTb ifN; last first.
    by apply/negP => /andP[/map_fst_inner/(path_gt (sv_path inv))]; rewrite ltxx.
  by rewrite c1E !eqxx a0.
have p1v : cell De2 p 1 = Ok (-1).
  rewrite c1 eqxx andTb ifN; first by rewrite c1E !eqxx a1.
  by apply/negP => /andP[/(inner_lt (sv_path inv))]; rewrite (sv_last inv) ltxx.
have pev c : c \in map snd t -> cell De2 p c = Ok 1.
  move=> hc; have he : c \in ends prs by rewrite ends_t.
  rewrite c1 eqxx andTb (ends_inner 1 he) (sv_pt inv he) andTb.
  by rewrite -(aval_ends setiter p inv he) ae.
have full c : c \in allcols prs -> forall q, q \in rows D -> (c \in cols (mapD D) q) && (0 \in cols (mapD D) q).
  by move=> hc q hq; rewrite !(sv_cols inv) ?rwE // hc mem_head.
have zE y : dom B y -> zeros_of A setiter D2 (col0 C) y (rows D) = zeros_of A setiter (mapD D) 0 (val y) (rows D).
  move=> hy; rewrite -(zeros_mapD ex A setiter BB) // ED2.
  exact: (@zeros_of_eq exact_columns _ _ A setiter order p (rows D) pnew (mapD D) De2).
have zroot c : c \in map snd t -> exists z zs, zeros_of A setiter (mapD D) 0 c (rows D) = Ok (z :: zs).
  rewrite -ends_t => hc; have := zeros_head A order (full c _).
  have -> : has (isroot (mapD D) 0 c) (rows D) by have := sv_pt inv hc; rewrite /rootcol rwE.
  case=> [|z [zs [-> _ _ _]]]; last by exists z, zs.
  by rewrite inE mem_flat (mem_ends hc) !orbT.
have znone c : c \in map fst prs -> zeros_of A setiter (mapD D) 0 c (rows D) = Ok [::].
  move=> hc; have := zeros_head A order (full c _); have := sv_int inv hc; rewrite /rootcol rwE => /negbTE-> -> //.
  by rewrite inE mem_flat hc !orbT.
have Eflat : allcols prs = [::] ++ 0 :: flat t ++ [:: x.1; x.2] by rewrite /allcols -cats1 flat_cat.
have getf i c : pyget (allcols prs) i = Ok c -> exists y, [/\ pyget zc i = Ok y, val y = c & dom B y].
  rewrite -Ezc pyget_map; case E: (pyget zc i) => [y|] //= -[<-]; exists y; split=> //.
  exact: pyget_all hz E.
have [L [c [n Ezz2]]] : exists L c n, zz = rcons L (c, n).
  by case: (lastP zz) Ezz => [/(congr1 size)|L [c n] _]; [rewrite size_rcons|exists L, c, n].
move: Ezz inz F1 {L1}; rewrite Ezz2 map_rcons => /rcons_inj[EL Ec En] inz F1.
have dc : dom B c by apply: (inz (c, n)); rewrite mem_rcons mem_head.
have xX : x.1 \in map fst prs by rewrite map_rcons mem_rcons mem_head.
have [l [El vl dl]] : exists l, [/\ pyget zc n.-1 = Ok l, val l = (last (0, 0) t).2 & dom B l].
  by apply: getf; rewrite En Eflat /= pyget_left.
have [r [Er vr dr]] : exists r, [/\ pyget zc n.+1 = Ok r, val r = 1 & dom B r].
  by apply: getf; rewrite En Eflat -x2 pyget_right.
have {Er vr dr} Er : pyget zc n.+1 = Ok (col1 C).
  by rewrite Er; congr Ok; apply: (ex_inj ex) => //; rewrite vr (ex_v1 ex).
exists c, l; split=> // n1 n2.
rewrite /freal_step E0 bind_ok (negbTE v0) cell_put lcp andFb E1 bind_ok.
have -> : put (put D p (col0 C) (vd (mapD D) (lcrow p) 0 * (-1) ^+ degree p)) p (col1 C) (vd (mapD D) (lcrow p) 1) = D1.
  by rewrite /D1 /aval !eqxx.
rewrite -/zc touch_row; last by rewrite r1 inE zr orbT.
rewrite -/zz Ezz2 F1 bind_ok -cats1 foldM_cat.
have pr2 : p \in rows D2 by rewrite -(rows_mapD val) ED2 c2.
have [|D3 -> [r3 c3]] := @keepers C P K A setiter order p (rows D) zc pnew (fun y => val y \in map fst prs) L D2 pr2.
  move=> [y i] hy; have dy : dom B y by apply: (inz (y, i)); rewrite mem_rcons inE hy orbT.
  have : (val y, i) \in before 1 t by rewrite -EL; exact: (map_f (fun y : C * nat => (val y.1, y.2)) hy).
  rewrite zE //= => /(before_mem Eflat)[h|[h [l' [r' [hl hr El' Er']]]]]; [left; exact: zroot|right].
  have hX : val y \in map fst prs by rewrite map_rcons mem_rcons inE h orbT.
  split; first exact: znone.
  split=> //; have [fl [G1 G2 G3]] := getf _ _ El'; have [fr [G4 G5 G6]] := getf _ _ Er'.
  exists fl, fr; rewrite !c2E // G2 G5 (nXe _ hr) (pev _ hr); move: hl; rewrite inE => /orP[/eqP->|hl].
    by rewrite p0v nX0.
  by rewrite pev // nXe.
rewrite bind_ok.
have lX : val l \notin map fst prs /\ cell De2 p (val l) = Ok 1.
  rewrite vl; have : (last (0, 0) t).2 = 0 \/ (last (0, 0) t).2 \in map snd t.
    by case: (t) => [|y t']; [left|right; exact: (map_f snd (mem_last y t'))].
  by move=> [->|h]; [rewrite nX0 p0v|rewrite nXe // pev].
have [] := @splitter C P K A setiter order p (rows D) zc pnew D3 c n l (col1 C) 1 (-1) => //.
- by rewrite r3.
- by move=> q hq; rewrite r3 -(rows_mapD val) ED2 c2 re1 inE hq orbT.
- rewrite (@zeros_of_eq C _ _ A setiter order p (rows D) pnew D2); last by move=> q nq y; rewrite c3 // nq.
  by rewrite zE // Ec znone.
- by rewrite c3 ?(proj1 lX) ?orbT // c2E // (proj2 lX).
- by rewrite c3 ?c2E ?(ex_v1 ex) ?nX1 ?orbT.
- move=> q hq; have nq : q != p by apply: contraNneq pnew => <-.
  apply/cols_cell; exists (vd (mapD D) q x.1); rewrite c3 ?nq // c2E // same2 // Ec hrE //.
  by rewrite inE mem_flat xX orbT.
move=> D4 E4 [r4 c4]; exists D4; first exact: (congr1 (fun r => let! s := r in Ok s) E4).
split=> [q|q y hq].
  by rewrite r4 r3 -(rows_mapD val) ED2 c2 re1.
have nq : q != p by apply: contraNneq pnew => <-.
by rewrite c4 // !c3 ?nq // !fsame2.
Qed.
End Last.
