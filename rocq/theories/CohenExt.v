(** extend_single_table: adding a polynomial of largest degree to a table. *)
From mathcomp Require Import all_ssreflect all_algebra.
From mathcomp.zify Require Import zify.
From Verif Require Import Py MuchModel MuchSpec MuchSeq MuchDiag MuchStep.
From Verif Require Import CohenModel CohenSpec CohenExp CohenCopy.

Set Implicit Arguments.
Unset Strict Implicit.
Unset Printing Implicit Defensive.
Import GRing.Theory Num.Theory Order.TTheory.
Local Open Scope ring_scope.

Lemma interior_map (S S' : Type) (f : S -> S') s : map f (interior s) = interior (map f s).
Proof. by case: s => // x s; rewrite /interior /pybutlast /= size_map map_take. Qed.

Lemma interior_cols prs : interior (allcols prs) = map fst (inner 1 prs).
Proof.
rewrite -interiorE interior_map -[map _ _]/(unzip1 _) unzip1_zip //.
by rewrite size_iota.
Qed.

Lemma butlast_cols prs : prs != [::] -> pybutlast (enumerate (allcols prs)) = (0, 0%N) :: inner 1 prs.
Proof. by move=> n0; rewrite -interiorE; case: prs n0. Qed.

(** In a table the columns in the middle are intervals or points. *)
Lemma interior_mem prs c : prs != [::] -> path <%R 0 (flat prs) -> c \in interior (allcols prs) ->
  (c \in map fst prs) || (c \in ends prs).
Proof.
move=> n0 pth; rewrite interior_cols => hc; have := map_fst_inner hc; have := inner_lt pth hc.
rewrite mem_flat snd_ends // inE => lt; case/or3P => [->//|/eqP E|->]; last by rewrite orbT.
by move: lt; rewrite E ltxx.
Qed.

Lemma foldM_cons (S T : Type) (f : S -> T -> res S) a x l :
  foldM f a (x :: l) = let! b := f a x in foldM f b l.
Proof. by []. Qed.

Lemma inner_cons k (x : rat * rat) ps : ps != [::] ->
  inner k (x :: ps) = (x.1, k) :: (x.2, k.+1) :: inner k.+2 ps.
Proof. by case: ps. Qed.

Lemma bad_cons a l x ps : bad a l (x :: ps) = badpair a l x.2 || bad a x.2 ps.
Proof. by []. Qed.

Lemma plan_cons a l x ps : plan a l (x :: ps) = plan1 a l x ++ plan a x.2 ps.
Proof. by []. Qed.

Lemma foldM_none (S T : Type) (f : option S -> T -> res (option S)) (l : seq T) :
  (forall x, f None x = Ok None) -> foldM f None l = Ok None.
Proof. by move=> h; elim: l => //= x l IH; rewrite h. Qed.

Lemma signs_keep (u w : int) : u \in signs -> w \in signs -> ~~ ((u == 0) && (w == 0)) ->
  (u + w == 0) = ~~ ((u == w) || (u * w == 0)).
Proof. by rewrite !inE => /or3P[]/eqP-> /or3P[]/eqP->. Qed.

Section Ext.
Variables (P : eqType) (K : realDomainType) (A : algebra P K).
Variables (C : idomainType) (den : P -> {poly C}).
Hypothesis ok : algebra_contract A den.
Hypothesis scal : scalars_exact A den.
Variable setiter : seq P -> seq P.
Hypothesis order : set_order setiter.
Notation table := (diagram P [eqType of rat]).
Implicit Types (D T : table) (con : context P).

Local Notation zero := (a_zero A).
Local Notation hv := (a_has_variable A).
Local Notation LC := (a_LC A).
Local Notation rem p q := (a_pseudo_div A p q).2.

Section One.
Variables (T : table) (prs : seq (rat * rat)) (con : context P) (p : P) (pols : seq P) (s : int).
Hypothesis sh : shape A T prs.
Hypothesis rT : rows T != [::].
Hypothesis con_sgn : forall k s, dget con k = Ok s -> s \in signs.
Hypothesis pols0 : pols != [::].
Hypothesis rd : forall q, q \in pols -> readable A T con q.
Hypothesis pn : p \notin pols.
Hypothesis hs : sign_context_lookup A con (LC p) = Ok s.
Hypothesis s0 : s != 0.
Hypothesis s_sgn : s \in signs.
Hypothesis hrem : forall q c, q \in pols -> 0 < deg A q -> c \in ends prs -> isroot T 0 c q ->
  readable A T con (rem p q).
Hypothesis hlc : forall q, q \in pols -> 0 < deg A q -> hv (LC q) -> dmem con (LC q).

(** The condensed table. *)
Variable D1 : table.
Notation pr1 := (merged T prs pols).
Hypothesis D1c : forall q c, cell D1 q c = if (q \in pols) && (c \in allcols pr1) then
  Ok (newval A T prs con pols q c) else Err KeyError.
Hypothesis D1r : rows D1 =i pols.
Hypothesis ED1 : copy_table A setiter T pols con = Ok D1.

Let sp := copy_shape ok sh con_sgn scal pols0 rd D1c D1r.
Let sh1 : shape A D1 pr1 := proj1 sp.
Let pt1 : points D1 pr1 := proj2 sp.

Lemma ne_p q : q \in pols -> (q == p) = false.
Proof. by move=> h; apply/negbTE; apply: contraNneq pn => <-. Qed.

Lemma D1E q c : q \in pols -> c \in allcols pr1 -> cell D1 q c = Ok (vd D1 q c).
Proof. by move=> hq hc; rewrite cell_vd // (sh_cols sh1) // D1r. Qed.

Lemma D1p c : cell D1 p c = Err KeyError.
Proof. by rewrite D1c (negbTE pn). Qed.

(** *** The columns with roots. *)
Definition rv q c : int := if root_value A T con p q c is Ok w then w else 0.
Definition slc q : int := if sign_context_lookup A con (LC q) is Ok w then w else 0.

Lemma slcE q : q \in pols -> 0 < deg A q -> sign_context_lookup A con (LC q) = Ok (slc q).
Proof.
move=> hq pos; rewrite /slc /sign_context_lookup; case h: (hv (LC q)) => //=.
by rewrite hlc //; have [w ->] := dmem_get (hlc hq pos h).
Qed.

Lemma rvE q c : q \in pols -> 0 < deg A q -> c \in ends prs -> isroot T 0 c q ->
  root_value A T con p q c = Ok (rv q c) /\
  rv q c = if (slc q < 0) && odd (a_degree A p + a_degree A q + 1) then - look A T con (rem p q) c
           else look A T con (rem p q) c.
Proof.
move=> hq pos hc rq; rewrite /rv /root_value (lookE sh (hrem hq pos hc rq)); last first.
  by rewrite inE mem_flat (mem_ends hc) !orbT.
rewrite bind_ok slcE // !bind_ok.
rewrite ifN; last by apply/negP => /andP[h]; rewrite hlc.
by [].
Qed.

Lemma signsN (u : int) : u \in signs -> - u \in signs.
Proof. by rewrite !inE => /or3P[]/eqP->. Qed.

Lemma rv_sgn q c : q \in pols -> 0 < deg A q -> c \in ends prs -> isroot T 0 c q -> rv q c \in signs.
Proof.
move=> hq pos hc rq; have [_ ->] := rvE hq pos hc rq.
have h := look_sgn ok sh con_sgn scal c (hrem hq pos hc rq); by case: ifP => // _; exact: signsN.
Qed.

(** The columns where a polynomial vanishes. *)
Definition hit q c : bool := isroot D1 0 c q.

Lemma hit_pos q c : q \in pols -> c \in allcols pr1 -> hit q c -> 0 < deg A q.
Proof.
move=> hq hc; rewrite ltNge; apply: contraL => le; rewrite /hit /isroot (sh_const sh1) ?D1r //.
by rewrite andbN.
Qed.

Lemma ends_old c : c \in ends pr1 -> c \in ends prs.
Proof. by case/mrg_ends. Qed.

Lemma ends_all c : c \in ends pr1 -> c \in allcols prs.
Proof. by case/mrg_ends => _ h; rewrite inE mem_flat (mem_ends h) !orbT. Qed.

Lemma ends_all1 c : c \in ends pr1 -> c \in allcols pr1.
Proof. by move=> h; rewrite inE mem_flat (mem_ends h) !orbT. Qed.

Lemma hit_end q c : q \in pols -> c \in interior (allcols pr1) -> hit q c -> c \in ends pr1.
Proof.
move=> hq /(interior_mem (sh_nil sh1) (sh_path sh1))/orP[hc|//] h.
by have /hasPn/(_ q) := sh_int sh1 hc; rewrite D1r hq -/(hit q c) h => /(_ isT).
Qed.

(** A point of the copy is a column of the table. *)
Lemma point_look q c : q \in pols -> c \in ends pr1 -> vd D1 q c = look A T con q c.
Proof.
move=> hq hc; rewrite /vd D1c hq ends_all1 //= /newval ifN //.
have hf : first_col T prs pols \in map fst pr1.
  have := mrg_flat (kept T pols) (first_col T prs pols) (sh_nil sh); rewrite -/(merged T prs pols).
  by case: (merged T prs pols) => // x l [<- _]; exact: mem_head.
apply: contraTneq (plan_fst (fun=> 0) 0 hf) => <-.
exact: (plan_snd (fun=> 0) (sh_path sh1) (mem_ends hc)).
Qed.

Lemma hit_root q c : q \in pols -> 0 < deg A q -> c \in ends pr1 -> hit q c -> isroot T 0 c q.
Proof.
move=> hq pos hc; have v0 : vd D1 q 0 = look A T con q 0.
  by rewrite /vd D1c hq mem_head /= /newval; case: eqP.
by rewrite /hit /isroot v0 point_look // !look_pos.
Qed.

Lemma interior_all c : c \in interior (allcols pr1) -> c \in allcols pr1.
Proof. by rewrite interior_cols => /map_fst_inner h; rewrite inE h orbT. Qed.

Lemma root_loop q l D : q \in pols -> vd D1 q 0 != 0 -> {subset l <= interior (allcols pr1)} ->
  (forall r c, r != p -> cell D r c = cell D1 r c) ->
  exists2 D', foldM (fun D col =>
      let! v := cell D q col in
      if v != 0 then Ok D
      else
        let! w := root_value A T con p q col in
        Ok (put D p col w)) D l = Ok D' &
   (forall r c, cell D' r c = if (r == p) && ((c \in l) && hit q c) then Ok (rv q c) else cell D r c) /\
   (p \in rows D -> rows D' =i rows D).
Proof.
move=> hq q0; match goal with |- context [foldM ?f _ _] => set F := f end.
elim: l D => [|c l IH] D sub same; first by exists D => //; split=> // r c; rewrite andbF.
have hc : c \in interior (allcols pr1) by apply: sub; exact: mem_head.
have hitE : hit q c = (vd D1 q c == 0) by rewrite /hit /isroot q0 andbT.
set D2 := if hit q c then put D p c (rv q c) else D.
have F1 : F D c = Ok D2.
  rewrite /F same ?ne_p // D1E ?interior_all // bind_ok /D2 hitE; case: eqP => //= /eqP v0.
  have h : hit q c by rewrite hitE.
  have he := hit_end hq hc h.
  have pos := hit_pos hq (ends_all1 he) h.
  by have [-> _] := rvE hq pos (ends_old he) (hit_root hq pos he h).
have cE r x : cell D2 r x = if (r == p) && ((x == c) && hit q c) then Ok (rv q c) else cell D r x.
  by rewrite /D2; case: ifP => _; rewrite ?cell_put ?andbT ?andbF.
have [||D' ED' [c1 c2]] := IH D2.
- by move=> x hx; apply: sub; rewrite inE hx orbT.
- by move=> r x nr; rewrite cE (negbTE nr) same.
exists D'; first by rewrite /= F1 bind_ok.
split=> [r x|hp].
  rewrite c1 cE inE; case: (eqVneq r p) => //= _; case: (eqVneq x c) => [->|_] //=.
  by case: (hit q c); rewrite ?andbF //; case: ifP.
have rE : rows D2 =i rows D.
  by rewrite /D2; case: ifP => _ r //; rewrite rows_put inE; case: eqP => // ->.
by move=> r; rewrite c2 ?rE.
Qed.

Definition hitv (L : seq P) c : option int := foldl (fun o q => if hit q c then Some (rv q c) else o) None L.

Lemma hitvP L c : if has (hit^~ c) L then exists q, [/\ q \in L, hit q c & hitv L c = Some (rv q c)]
  else hitv L c = None.
Proof.
elim/last_ind: L => // L q IH; rewrite has_rcons /hitv foldl_rcons -/(hitv L c).
case hq: (hit q c); first by exists q; rewrite mem_rcons mem_head.
by rewrite /=; case: ifP IH => // _ [r [h1 h2 h3]]; exists r; rewrite mem_rcons inE h1 orbT.
Qed.

Definition inl c := c \in interior (allcols pr1).

Lemma at_rootsE D : (forall r c, r != p -> cell D r c = cell D1 r c) -> p \in rows D ->
  exists2 D', at_roots A T con p pols (allcols pr1) D = Ok D' &
   (forall r c, cell D' r c = if r == p then (if inl c then (if hitv pols c is Some w then Ok w else cell D p c)
      else cell D p c) else cell D r c) /\ rows D' =i rows D.
Proof.
rewrite /at_roots; match goal with |- context [foldM ?f _ _] => set F := f end.
have H L : {subset L <= pols} -> (forall r c, r != p -> cell D r c = cell D1 r c) -> p \in rows D ->
  exists2 D', foldM F D L = Ok D' &
   (forall r c, cell D' r c = if r == p then (if inl c then (if hitv L c is Some w then Ok w else cell D p c)
      else cell D p c) else cell D r c) /\ rows D' =i rows D; last exact: H.
elim/last_ind: L => [|L q IH] sub same hp.
  by exists D => //; split=> // r c; case: eqP => [->|//]; case: ifP.
have [||//|D2 E2 [c1 c2]] := IH => //; first by move=> r hr; apply: sub; rewrite mem_rcons inE hr orbT.
have hq : q \in pols by apply: sub; rewrite mem_rcons mem_head.
have same2 r c : r != p -> cell D2 r c = cell D1 r c by move=> nr; rewrite c1 (negbTE nr) same.
have Ef : foldM F D (rcons L q) = F D2 q.
  rewrite -cats1; move: E2; elim: (L) (D) => /= [D' [->]|x L' IHl D']; first by case: (F D2 q).
  by case: (F D' x) => //= D'' /IHl.
rewrite Ef /F same2 ?ne_p // D1E ?mem_head // bind_ok.
case: (eqVneq (vd D1 q 0) 0) => [v0|v0].
  exists D2 => //; split=> // r c; rewrite c1 /hitv foldl_rcons -/(hitv L c).
  by have -> : hit q c = false by rewrite /hit /isroot v0 eqxx andbF.
have [//|D3 -> [c3 c4]] := @root_loop q (interior (allcols pr1)) D2 hq v0 _ same2.
exists D3 => //; split=> [r c|r]; last by rewrite c4 ?c2.
rewrite c3 c1 -/(inl c) /hitv foldl_rcons -/(hitv L c); case: (eqVneq r p) => //= _.
by case: (inl c) => //=; case: (hit q c).
Qed.

(** The values of the new row at the points. *)
Definition eval c : int :=
  if c == 0 then (-1) ^+ a_degree A p * s else if c == 1 then s else odflt 0 (hitv pols c).

Lemma eval_end c : c \in ends pr1 -> exists q, [/\ q \in pols, hit q c & eval c = rv q c].
Proof.
move=> hc; have := hitvP pols c; have /hasP[q hq rq] := pt1 hc; rewrite D1r in hq.
have -> : has (hit^~ c) pols by apply/hasP; exists q.
move=> [r [h1 h2 h3]]; exists r; split=> //; rewrite /eval h3.
have := ends_lt (sh_path sh1) hc; rewrite (sh_last sh1) => /lt_eqF->.
by have := path_gt (sh_path sh1) (c := c); rewrite mem_flat (mem_ends hc) orbT => /(_ isT)/gt_eqF->.
Qed.

Lemma eval_sgn c : c \in 0 :: map snd pr1 -> eval c \in signs.
Proof.
rewrite inE snd_ends ?(sh_nil sh1) // inE (sh_last sh1) => /or3P[/eqP->|/eqP->|hc].
- by rewrite /eval eqxx -signr_odd; case: (odd _); rewrite ?mul1r ?mulN1r //; exact: signsN.
- by rewrite /eval eqxx.
have [q [hq hh ->]] := eval_end hc; have pos := hit_pos hq (ends_all1 hc) hh.
exact: rv_sgn hq pos (ends_old hc) (hit_root hq pos hc hh).
Qed.

(** *** The columns between. *)
Lemma copy2 L D col ln rn : ln != col -> rn != col -> (forall q, q \in L -> col \in cols D q) ->
  exists2 D', foldM (fun D q =>
          let! v := cell D q col in
          Ok (put (put D q ln v) q rn v)) D L = Ok D' &
   (forall q c, cell D' q c = if (q \in L) && ((c == ln) || (c == rn)) then cell D q col else cell D q c)
   /\ rows D' =i L ++ rows D.
Proof.
move=> n1 n2; elim: L D => [|q L IH] D h /=; first by exists D.
have cq : col \in cols D q by apply: h; exact: mem_head.
rewrite cell_vd // bind_ok.
set D0 := put _ _ _ _.
have cE r c : cell D0 r c = if (r == q) && ((c == ln) || (c == rn)) then cell D q col else cell D r c.
  rewrite /D0 !cell_put; case: (eqVneq r q) => //= _.
  by rewrite (cell_vd cq); case: (c == rn); case: (c == ln).
rewrite bind_ok; have [|D' -> [c1 c2]] := IH D0.
  move=> r hr; apply/cols_cell; exists (vd D r col).
  rewrite cE ![col == _]eq_sym (negbTE n1) (negbTE n2) andbF cell_vd //.
  by apply: h; rewrite inE hr orbT.
exists D' => //; split=> [r c|r].
  rewrite c1 !cE inE ![col == _]eq_sym (negbTE n1) (negbTE n2) andbF.
  by case: (eqVneq r q) => [->|_] //=; case: (q \in L); case: (_ || _).
by rewrite c2 mem_cat /D0 !(rows_put, inE) mem_cat; case: eqP; rewrite ?orbT.
Qed.

Section Between.
Variable a : rat -> int.
Notation zc := (allcols pr1).
Notation bt := (between p pols (enumerate zc)).

Lemma bet1 D pre l x t : zc = pre ++ l :: x.1 :: x.2 :: t -> l < x.1 -> x.1 < x.2 ->
  a l \in signs -> a x.2 \in signs -> cell D p l = Ok (a l) -> cell D p x.2 = Ok (a x.2) ->
  x.1 \notin cols D p -> (forall q, q \in pols -> cell D q x.1 = cell D1 q x.1) ->
  {subset p :: pols <= rows D} ->
  if badpair a l x.2 then bt (Some D) (x.1, (size pre).+1) = Ok None
  else exists2 D2, bt (Some D) (x.1, (size pre).+1) = Ok (Some D2) &
    (forall q c, cell D2 q c =
      if dget (plan1 a l x) c is Ok sv then
        if q == p then Ok sv.2 else if q \in pols then cell D1 q sv.1 else cell D q c
      else cell D q c) /\ rows D2 =i rows D.
Proof.
move=> Ezc h1 h2 g1 g2 pl px nx same sub; rewrite /between (negbTE nx) !pyget_enumerate.
have hx : x.1 \in zc by rewrite Ezc mem_cat !inE eqxx !orbT.
have -> : pyget zc (size pre) = Ok l by rewrite /pyget Ezc drop_size_cat.
have -> : pyget zc (size pre).+2 = Ok x.2.
  by rewrite /pyget Ezc drop_cat ltnNge leqW //= subSn // subSn // subnn.
rewrite !bind_ok /= pl px !bind_ok /badpair.
case: (boolP ((a l == 0) && (a x.2 == 0))) => // nb; rewrite (signs_keep g1 g2 nb) -/(keep a l x.2) /plan1.
case: (keep a l x.2) => /=.
  eexists; first by []; split=> [q c|q]; last by rewrite rows_put inE; case: eqP => [->|//]; rewrite sub ?mem_head.
  rewrite cell_put; case: (eqVneq c x.1) => [->|_]; rewrite ?andbT ?andbF //=.
  by case: (q == p) => //; case: ifP => // /same->.
have /andP[m1 m2] := mid_lt h1; have /andP[m3 m4] := mid_lt h2.
rewrite [x.1 + l]addrC; set ln := (l + x.1) / 2%:R; set rn := (x.1 + x.2) / 2%:R.
have lnx : ln != x.1 by rewrite lt_eqF.
have rnx : rn != x.1 by rewrite gt_eqF.
have lnrn : ln != rn by rewrite lt_eqF // (lt_trans m2).
set D' := put (put _ _ _ _) _ _ _.
have cE q c : cell D' q c = if (q == p) && (c == x.1) then Ok 0 else
   if (q == p) && (c == rn) then Ok (a x.2) else if (q == p) && (c == ln) then Ok (a l) else cell D q c.
  by rewrite /D' !cell_put.
have [|D2 -> [c1 c2]] := @copy2 pols D' x.1 ln rn lnx rnx.
  move=> q hq; apply: (@cell_cols _ _ _ _ _ (vd D1 q x.1)).
  by rewrite cE ne_p //= same // D1E.
exists D2 => //; split=> [q c|q]; last first.
  rewrite c2 mem_cat /D' !(rows_put, inE).
  case: (eqVneq q p) => [->|_]; first by rewrite orbT sub ?mem_head.
  by case hq: (q \in pols) => //=; rewrite sub // inE hq orbT.
rewrite c1 !cE eqxx [x.1 == rn]eq_sym (negbTE rnx).
rewrite [x.1 == ln]eq_sym (negbTE lnx) !andbF !andbT.
case: (eqVneq q p) => [->|nq] /=.
  rewrite (negbTE pn) /=; case: (eqVneq c ln) => [->|cl] /=; first by rewrite (negbTE lnx) (negbTE lnrn).
  by case: (c == x.1) => //=; case: (c == rn).
case hq: (q \in pols) => /=; last by case: ifP => // _; case: ifP => // _; case: ifP.
have Ex := same q hq.
case: (eqVneq c ln) => [->|cl] //=; case: (eqVneq c x.1) => [->|cx] /=; last by case: eqP.
by rewrite eq_sym (negbTE rnx).
Qed.

Lemma between_loop ps pre l D : zc = pre ++ l :: flat ps -> path <%R l (flat ps) ->
  (forall c, c \in l :: map snd ps -> a c \in signs) ->
  cell D p l = Ok (a l) -> (forall c, c \in map snd ps -> cell D p c = Ok (a c)) ->
  (forall c, c \in map fst ps -> c \notin cols D p) ->
  (forall q c, q \in pols -> l <= c -> cell D q c = cell D1 q c) ->
  {subset p :: pols <= rows D} ->
  if bad a l ps then foldM bt (Some D) (inner (size pre).+1 ps) = Ok None
  else exists2 D2, foldM bt (Some D) (inner (size pre).+1 ps) = Ok (Some D2) &
    (forall q c, cell D2 q c =
      if dget (plan a l ps) c is Ok sv then
        if q == p then Ok sv.2 else if q \in pols then cell D1 q sv.1 else cell D q c
      else cell D q c) /\ rows D2 =i rows D.
Proof.
elim: ps pre l D => [|x ps IH] pre l D Ezc pth ga pl ph nh same rsub; first by exists D.
have [h1 h2 h3] : [/\ l < x.1, x.1 < x.2 & path <%R x.2 (flat ps)] by move: pth => /= /and3P.
rewrite bad_cons plan_cons.
have phx : cell D p x.2 = Ok (a x.2) by apply: ph; exact: mem_head.
have g1 : a l \in signs by apply: ga; exact: mem_head.
have g2 : a x.2 \in signs by apply: ga; rewrite !inE eqxx orbT.
have nx : x.1 \notin cols D p by apply: nh; exact: mem_head.
have sx q : q \in pols -> cell D q x.1 = cell D1 q x.1 by move=> hq; apply: same => //; exact: ltW.
have := bet1 Ezc h1 h2 g1 g2 pl phx nx sx rsub.
have head : exists t, inner (size pre).+1 (x :: ps) = (x.1, (size pre).+1) :: t by eexists.
case: (badpair a l x.2) => [E1|[D2 E1 [c1 c2]]].
  by have [t ->] := head; rewrite foldM_cons E1 bind_ok; exact: foldM_none.
have nc c : x.2 <= c -> (c \in map fst (plan1 a l x)) = false.
  by move=> h; apply/negP => /(plan1_cols h1 h2)/andP[lc cx]; move: h; rewrite leNgt cx.
have dn c : x.2 <= c -> dget (plan1 a l x) c = Err KeyError.
  by move/nc => E; have := dget_keys (plan1 a l x) c; rewrite E.
have same2 q c : q \in pols -> x.2 <= c -> cell D2 q c = cell D1 q c.
  by move=> hq hc; rewrite c1 dn // same // (le_trans _ hc) // ltW // (lt_trans h1).
have px2 : cell D2 p x.2 = Ok (a x.2) by rewrite c1 dn ?lexx.
have gt c : c \in flat ps -> x.2 <= c by move=> hc; apply: ltW; exact: path_gt h3 hc.
have ph2 c : c \in map snd ps -> cell D2 p c = Ok (a c).
  move=> hc; rewrite c1 dn; first by apply: ph; rewrite inE hc orbT.
  by apply: gt; rewrite mem_flat hc orbT.
have nh2 c : c \in map fst ps -> c \notin cols D2 p.
  move=> hc; apply/negP => /cols_cell[w]; rewrite c1 dn; last by apply: gt; rewrite mem_flat hc.
  by move/cell_cols; apply/negP; apply: nh; rewrite inE hc orbT.
have rsub2 : {subset p :: pols <= rows D2} by move=> q /rsub; rewrite c2.
have ga2 c : c \in x.2 :: map snd ps -> a c \in signs by move=> hc; apply: ga; rewrite inE hc orbT.
have fin D3 : (forall q c, cell D3 q c =
      if dget (plan a x.2 ps) c is Ok sv then
        if q == p then Ok sv.2 else if q \in pols then cell D1 q sv.1 else cell D2 q c
      else cell D2 q c) -> forall q c, cell D3 q c =
      if dget (plan1 a l x ++ plan a x.2 ps) c is Ok sv then
        if q == p then Ok sv.2 else if q \in pols then cell D1 q sv.1 else cell D q c
      else cell D q c.
  move=> h q c; rewrite h dget_cat.
  have := dget_keys (plan a x.2 ps) c; have := dget_keys (plan1 a l x) c.
  case: ifP => hc; last first.
    by move=> E _; rewrite c1 E; case: (dget (plan a x.2 ps) c).
  move=> [sv E] _; rewrite c1 E.
  suff -> : dget (plan a x.2 ps) c = Err KeyError by [].
  have := dget_keys (plan a x.2 ps) c; rewrite ifN //.
  apply/negP => /(plan_cols h3); move/(plan1_cols h1 h2): hc => /andP[_ /lt_trans h' /h'].
  by rewrite ltxx.
case: (eqVneq ps [::]) => [E0|n0].
  rewrite E0 [foldM _ _ _]foldM_cons E1 bind_ok; exists D2 => //; split=> // q c.
  by rewrite cats0 c1.
rewrite inner_cons // foldM_cons E1 bind_ok foldM_cons.
have -> : bt (Some D2) (x.2, (size pre).+2) = Ok (Some D2) by rewrite /between (cell_cols px2).
rewrite bind_ok; have Ezc' : zc = (pre ++ [:: l; x.1]) ++ x.2 :: flat ps by rewrite -catA.
have := IH (pre ++ [:: l; x.1]) x.2 D2 Ezc'; rewrite size_cat addn2 => /(_ h3 ga2 px2 ph2 nh2 same2 rsub2).
case: (bad a x.2 ps) => // -[D3 -> [e1 e2]]; exists D3 => //; split; first exact: fin.
by move=> q; rewrite e2 c2.
Qed.
End Between.

(** *** The extended table. *)
Definition ext_cells D' : Prop := forall q c, cell D' q c =
  if dget (plan eval 0 pr1) c is Ok sv then
    if q == p then Ok sv.2 else cell D1 q sv.1
  else if q == p then if c \in 0 :: map snd pr1 then Ok (eval c) else Err KeyError else cell D1 q c.

(** The columns of the copy after rows of [p] were added. *)
Lemma copy_colsP p0 D : p0 \in pols -> (forall r c, r != p -> cell D r c = cell D1 r c) ->
  sorted_cols (cols D p0) = allcols pr1.
Proof.
move=> hp0 h; apply: sorted_colsE; first exact: shape_sorted sh1.
move=> c; rewrite -(sh_cols sh1 (q := p0)) ?D1r //.
by apply: cols_eq => {}c; rewrite h // ne_p.
Qed.

(** The loops over the columns. *)
Lemma coreE p0 D2 : p0 \in pols -> rows D2 =i p :: pols ->
  (forall q c, cell D2 q c = if q == p then
    (if c == 1 then Ok (eval 1) else if c == 0 then Ok (eval 0) else Err KeyError) else cell D1 q c) ->
  let out := let! D := at_roots A T con p pols (sorted_cols (cols D2 p0)) D2 in
    let zipped := enumerate (sorted_cols (cols D p0)) in
    foldM (between p pols zipped) (Some D) (pybutlast zipped) in
  if bad eval 0 pr1 then out = Ok None
  else exists2 D', out = Ok (Some D') & ext_cells D' /\ rows D' =i p :: pols.
Proof.
move=> hp0 rE cE /=.
have same r c : r != p -> cell D2 r c = cell D1 r c by move=> /negbTE h; rewrite cE h.
have colE D := @copy_colsP p0 D hp0.
rewrite colE //.
have [//||D3 -> [c1 c2]] := at_rootsE (D := D2); first by rewrite rE mem_head.
rewrite bind_ok colE; last by move=> r c nr; rewrite c1 (negbTE nr) same.
rewrite butlast_cols ?(sh_nil sh1) //.
have n1 : inl 1 = false.
  apply/negP => /(interior_mem (sh_nil sh1) (sh_path sh1))/orP[/mapP[x hx E]|h]; last first.
    by have := ends_lt (sh_path sh1) h; rewrite (sh_last sh1) ltxx.
  have h2 : x.2 <= 1.
    rewrite -(sh_last sh1); have : x.2 \in map snd pr1 by rewrite map_f.
    rewrite snd_ends ?(sh_nil sh1) // inE => /orP[/eqP->//|/(ends_lt (sh_path sh1))/ltW//].
  have h3 : x.1 < x.2.
    move: (sh_path sh1) hx; move: 0; elim: (pr1) => // y l IHl z /= /and3P[_ h4 h5]; rewrite inE => /orP[/eqP->//|].
    exact: IHl h5.
  by move: (lt_le_trans h3 h2); rewrite -E ltxx.
have n0 : inl 0 = false.
  apply/negP; rewrite /inl interior_cols => /map_fst_inner/(path_gt (sh_path sh1)).
  by rewrite ltxx.
have p0E : cell D3 p 0 = Ok (eval 0) by rewrite c1 n0 eqxx cE !eqxx.
have ph c : c \in map snd pr1 -> cell D3 p c = Ok (eval c).
  rewrite snd_ends ?(sh_nil sh1) // (sh_last sh1) inE => /orP[/eqP->|hc]; first by rewrite c1 n1 eqxx cE !eqxx.
  have ic : inl c by rewrite /inl interior_cols; exact: ends_inner.
  have [q [hq hh ev]] := eval_end hc; rewrite c1 eqxx ic.
  have := hitvP pols c; rewrite ifT; last by apply/hasP; exists q.
  move=> [r [hr1 hr2 E]]; rewrite E /eval E.
  have := ends_lt (sh_path sh1) hc; rewrite (sh_last sh1) => /lt_eqF->.
  by have := path_gt (sh_path sh1) (c := c); rewrite mem_flat (mem_ends hc) orbT => /(_ isT)/gt_eqF->.
have nfst c : c \notin 0 :: map snd pr1 -> cell D3 p c = Err KeyError.
  rewrite inE negb_or => /andP[nc0 ncs]; rewrite c1 eqxx.
  have nc1 : (c == 1) = false.
    by apply/negbTE; apply: contraNneq ncs => ->; rewrite snd_ends ?(sh_nil sh1) // (sh_last sh1) mem_head.
  have cN : cell D2 p c = Err KeyError by rewrite cE eqxx nc1 (negbTE nc0).
  case: ifP => // ic; have := hitvP pols c; case: ifP => [/hasP[q hq hh]|_ ->//].
  by have := hit_end hq ic hh => /mem_ends; rewrite (negbTE ncs).
have nfst2 c : c \in map fst pr1 -> c \notin 0 :: map snd pr1.
  move=> hc; rewrite inE negb_or gt_eqF; last by apply: path_gt (sh_path sh1) _; rewrite mem_flat hc.
  apply/negP => h; have := plan_snd eval (sh_path sh1) h; by rewrite (plan_fst eval 0 hc).
rewrite [foldM _ _ _]/= (cell_cols p0E) bind_ok.
have Ez : allcols pr1 = [::] ++ 0 :: flat pr1 by [].
have nh c : c \in map fst pr1 -> c \notin cols D3 p.
  by move=> /nfst2/nfst E; apply/negP => /cols_cell[w]; rewrite E.
have same3 q c : q \in pols -> 0 <= c -> cell D3 q c = cell D1 q c.
  by move=> hq _; rewrite c1 ne_p // same ?ne_p.
have rs3 : {subset p :: pols <= rows D3} by move=> q; rewrite c2 rE.
have := between_loop Ez (sh_path sh1) eval_sgn p0E ph nh same3 rs3.
case: (bad eval 0 pr1) => // -[D4 -> [e1 e2]]; exists D4 => //; split=> [q c|q]; last by rewrite e2 c2 rE.
rewrite e1; have := dget_keys (plan eval 0 pr1) c; case: ifP => [hc [sv E]|nk ->].
  rewrite E; case: (eqVneq q p) => // nq; case: ifP => // hq.
  by rewrite c1 (negbTE nq) same // !D1c hq.
case: (eqVneq q p) => [->|nq]; last by rewrite c1 (negbTE nq) same.
case: ifP => [|/negbT/nfst //]; rewrite inE => /orP[/eqP->//|/ph //].
Qed.

Lemma extendE : a_degree A p != 0%N ->
  if bad eval 0 pr1 then extend_single_table A setiter T con p pols = Ok None
  else exists2 D', extend_single_table A setiter T con p pols = Ok (Some D') &
    ext_cells D' /\ rows D' =i p :: pols.
Proof.
move=> dp; rewrite /extend_single_table hs bind_ok ED1 bind_ok (negbTE dp).
have [p0 [pl Ep]] : exists p0 pl, pols = p0 :: pl by case: (pols) pols0 => // p0 pl; exists p0, pl.
have hp0 : p0 \in pols by rewrite Ep mem_head.
have -> : pyget pols 0 = Ok p0 by rewrite Ep.
rewrite bind_ok; set D2 := put (put _ _ _ _) _ _ _.
apply: (coreE hp0) => [q|q c].
  by rewrite /D2 !(rows_put, inE) /rows keys_dset inE -/(rows D1) D1r; case: (q == p).
rewrite /D2 !cell_put /eval !eqxx; case: (eqVneq q p) => [->|nq] /=.
  by rewrite /cell /row dget_dset eqxx.
by rewrite /cell /row dget_dset (negbTE nq).
Qed.

(** A constant. *)
Lemma extend_const : a_degree A p = 0%N ->
  exists2 D', extend_single_table A setiter T con p pols = Ok (Some D') &
    (forall q c, cell D' q c = if q == p then if c \in allcols pr1 then Ok s else Err KeyError else cell D1 q c)
    /\ rows D' =i p :: pols.
Proof.
move=> dp; rewrite /extend_single_table hs bind_ok ED1 bind_ok dp eqxx.
have [p0 [pl Ep]] : exists p0 pl, pols = p0 :: pl by case: (pols) pols0 => // p0 pl; exists p0, pl.
have hp0 : p0 \in pols by rewrite Ep mem_head.
have -> : pyget pols 0 = Ok p0 by rewrite Ep.
rewrite bind_ok expr0 mul1r; set D2 := put (put _ _ _ _) _ _ _.
have cE q c : cell D2 q c = if q == p then
    (if (c == 1) || (c == 0) then Ok s else Err KeyError) else cell D1 q c.
  rewrite /D2 !cell_put; case: (eqVneq q p) => [->|nq] /=.
    by case: (c == 1) => //=; case: (c == 0) => //=; rewrite /cell /row dget_dset eqxx.
  by rewrite /cell /row dget_dset (negbTE nq).
have rE : rows D2 =i p :: pols.
  by move=> q; rewrite /D2 !(rows_put, inE) /rows keys_dset inE -/(rows D1) D1r; case: (q == p).
have -> : sorted_cols (cols D2 p0) = allcols pr1.
  apply: sorted_colsE; first exact: shape_sorted sh1.
  move=> c; rewrite -(sh_cols sh1 (q := p0)) ?D1r //.
  by apply: cols_eq => {}c; rewrite cE ne_p.
have H l D : p \in rows D -> let D' := foldl (fun D col => put D p col s) D l in
  (forall q c, cell D' q c = if (q == p) && (c \in l) then Ok s else cell D q c) /\ rows D' =i rows D.
  elim: l D => [|c l IH] D hp /=; first by split=> // q c; rewrite andbF.
  have [|c1 c2] := IH (put D p c s); first by rewrite rows_put mem_head.
  split=> [q x|q]; last by rewrite c2 rows_put inE; case: eqP => // ->.
  by rewrite c1 cell_put inE; case: (eqVneq q p) => //= _; case: (x == c) => //=; case: ifP.
have [|c1 c2] := H (interior (allcols pr1)) D2; first by rewrite rE mem_head.
eexists; first by []; split=> [q c|q]; last by rewrite c2 rE.
rewrite c1 cE; case: (eqVneq q p) => //= _.
have -> : (c \in allcols pr1) = (c \in interior (allcols pr1)) || ((c == 1) || (c == 0)).
  apply/idP/idP; last first.
    case/orP => [/interior_all//|]; case/orP => /eqP->; last exact: mem_head.
    exact: shape_one sh1.
  rewrite inE mem_flat snd_ends ?(sh_nil sh1) // inE (sh_last sh1) => /or4P[->|hc|->|hc]; rewrite ?orbT //.
    apply/orP; left; rewrite interior_cols; elim: (pr1) 1%N hc => // y [|y' l] IHl k; rewrite [map _ _]/= inE.
      by [].
    by case/orP => [/eqP->|h]; rewrite inner2 !map_cons ?mem_head // in_cons in_cons (IHl k.+2) ?orbT.
  by rewrite interior_cols (ends_inner 1 hc).
by case: ifP.
Qed.
End One.
End Ext.
