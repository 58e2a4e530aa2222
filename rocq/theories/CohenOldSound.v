(** cohenhorm - Copy.py: the tables that are returned are right. *)
From mathcomp Require Import all_ssreflect all_algebra all_real_closed.
From mathcomp.zify Require Import zify.
From Coq Require Import String.
From Verif Require Import Py MuchModel MuchSpec MuchSeq MuchDiag MuchStep MuchRoot MuchSem.
From Verif Require Import CohenModel CohenSpec CohenExp CohenCopy CohenSem CohenExt CohenStep CohenBack CohenTable.
From Verif Require Import CohenOld CohenOldStop.

Set Implicit Arguments.
Unset Strict Implicit.
Unset Printing Implicit Defensive.
Import GRing.Theory Num.Theory Order.TTheory.
Local Open Scope ring_scope.

Lemma bind_inv (S T : Type) (m : res S) (k : S -> res T) r : (let! x := m in k x) = Ok r ->
  exists2 x, m = Ok x & k x = Ok r.
Proof. by case: m => [x|//] h; exists x. Qed.

Tactic Notation "peel" hyp(H) ident(x) ident(E) := let H' := fresh in
  destruct (bind_inv H) as [x E H']; clear H; rename H' into H; cbv beta zeta in H.

Lemma mrg_keep (kp : rat -> bool) (i : rat) (prs : seq (rat * rat)) (c : rat) : kp c -> c \in ends prs -> c \in ends (mrg kp i prs).
Proof.
move=> kc; elim: prs i => // x [|y prs] IH i //; rewrite ends2 inE mrg2.
case: ifP => kx; last first.
  by case/orP => [/eqP E|/IH//]; rewrite -E kc in kx.
have [z [l E]] : exists z l, mrg kp y.1 (y :: prs) = z :: l.
  by have := mrg_nil kp y.1 (y :: prs); case: (mrg _ _ _) => // z l; exists z, l.
have IH' := IH y.1; rewrite E in IH' *; rewrite ends2 inE.
by case/orP => [->//|/IH'->]; rewrite orbT.
Qed.

Lemma cell_rowsP (P C : eqType) (D : diagram P C) q c v : cell D q c = Ok v -> q \in rows D.
Proof.
rewrite /cell /row /rows; have := dget_keys D q; case: (_ \in _) => // ->; by [].
Qed.

Section Extend.
Variables (P : eqType) (K : realDomainType) (A : algebra P K).
Variables (C : idomainType) (den : P -> {poly C}).
Hypothesis ok : algebra_contract A den.
Hypothesis scal : scalars_exact A den.
Variable setiter : seq P -> seq P.
Hypothesis order : set_order setiter.
Notation table := (diagram P [eqType of rat]).
Implicit Types (D T : table) (con : context P).

Local Notation zero := (a_zero A).
Local Notation hv := (a_has_variable A).
Local Notation LC := (a_LC A).
Local Notation rem p q := (a_pseudo_div A p q).2.
Local Notation sz p := (size (den p)).

Lemma old_signE con k s : old_sign A con k = Ok s -> sign_context_lookup A con k = Ok s.
Proof.
by rewrite /old_sign /sign_context_lookup; case: ifP => // _ E; rewrite (dget_mem E).
Qed.

Lemma lookup_readable T p c con v : table_lookup A T p c con = Ok v -> readable A T con p.
Proof.
rewrite /table_lookup; case: (ltP 0 (deg A p)) => [pos|le] E.
  by split=> [_|]; [exact: cell_rowsP E|by rewrite leNgt pos].
split=> [|_ hp]; first by rewrite ltNge le.
by move: E; rewrite hp /=; case: (dmem con p).
Qed.

Lemma copy_readable T pols con D : copy_table A setiter T pols con = Ok D -> pols != [::] ->
  rows T != [::] /\ forall q, q \in pols -> readable A T con q.
Proof.
rewrite /copy_table; case Ep: pols => [//|p0 l]; rewrite -Ep => E _; peel E k Ek; peel E cc Ecc; split.
  apply/eqP => E0; rewrite E0 in Ek; have := perm_size (order [::]).
  by case: (setiter [::]) Ek.
move: {Ecc} E; move: [::] => D0; elim: (pols) D0 => // p l' IH D0; rewrite foldM_cons => E.
peel E D1 E1; move=> q; rewrite inE => /orP[/eqP->|]; last exact: IH E q.
rewrite /copy_row in E1; peel E1 D2 E2; peel E1 c1 E3; peel E1 c0 E4; peel E1 v Ev.
exact: lookup_readable Ev.
Qed.

Section One.
Variables (T : table) (prs : seq (rat * rat)) (con : context P) (p : P) (pols : seq P) (s : int) (M : dict P P).
Hypothesis sh : shape A T prs.
Hypothesis con_sgn : forall k s, dget con k = Ok s -> s \in signs.
Hypothesis pols0 : pols != [::].
Hypothesis rT : rows T != [::].
Hypothesis rd : forall q, q \in pols -> readable A T con q.
Hypothesis pn : p \notin pols.
Hypothesis szp : forall q, q \in pols -> (sz q <= sz p)%N.

Variable D1 : table.
Notation pr1 := (merged T prs pols).
Hypothesis D1c : forall q c, cell D1 q c = if (q \in pols) && (c \in allcols pr1) then
  Ok (newval A T prs con pols q c) else Err KeyError.
Hypothesis D1r : rows D1 =i pols.

Let sp := copy_shape ok sh con_sgn scal pols0 rd D1c D1r.
Let sh1 : shape A D1 pr1 := proj1 sp.

Notation hit := (hit D1).

Lemma neq_p q : q \in pols -> q != p.
Proof. by move=> h; apply: contraNneq pn => <-. Qed.

(** Looking the remainder up in the table that is extended. *)
Lemma lookup_old D q col v : q \in pols -> col \in ends pr1 -> hit q col ->
  (forall r c, r != p -> cell D r c = cell D1 r c) ->
  table_lookup A D (rem p q) col con = Ok v ->
  table_lookup A T (rem p q) col con = Ok v /\ readable A T con (rem p q).
Proof.
move=> hq hc hh same E.
have pos : 0 < deg A q := hit_pos ok scal sh con_sgn pols0 rd D1c D1r hq (ends_all1 hc) hh.
have q0 : q != zero by rewrite -(deg_ge0 ok) ltW.
have lt := sz_rem ok q0 (szp hq).
have np : rem p q != p by apply: contraTneq lt => ->; rewrite -leqNgt szp.
suff rr : readable A T con (rem p q).
  split=> //; rewrite (lookE sh rr) ?(ends_all hc) //; move: E; rewrite /look /table_lookup.
  case: (ltP 0 (deg A (rem p q))) => [dr|_ ->//]; rewrite same // => E.
  have hr : rem p q \in pols by move: E; rewrite D1c; case: (_ \in pols).
  have := point_look ok scal sh con_sgn pols0 rd D1c D1r hr hc.
  by rewrite {1}/vd E /look /table_lookup dr => <-.
case: (ltP 0 (deg A (rem p q))) => [dr|dr].
  move: E; rewrite /table_lookup dr same // D1c; case hr: (rem p q \in pols) => //= _; exact: rd.
have [_ h] := lookup_readable E; split=> // dp; by move: dr; rewrite leNgt dp.
Qed.

(** One row of the loop over the columns with roots. *)
Notation inner_old q := (fun D col =>
      let! v := cell D q col in
      if v == 0 then
        let! w := old_root_value A D con p q col in
        Ok (put D p col w)
      else Ok D).
Notation inner_new q := (fun D col =>
      let! v := cell D q col in
      if v != 0 then Ok D
      else
        let! w := root_value A T con p q col in
        Ok (put D p col w)).

Lemma row_old q l D D' : q \in pols -> vd D1 q 0 != 0 -> {subset l <= interior (allcols pr1)} ->
  (forall r c, r != p -> cell D r c = cell D1 r c) -> foldM (inner_old q) D l = Ok D' ->
  [/\ foldM (inner_new q) D l = Ok D', forall r c, r != p -> cell D' r c = cell D1 r c &
      forall c, c \in l -> hit q c -> readable A T con (rem p q)].
Proof.
move=> hq q0; elim: l D => [|c l IH] D sub same; first by case=> <-.
rewrite !foldM_cons; cbv beta => E; peel E D2 E2; peel E2 v Ev.
have hc : c \in interior (allcols pr1) by apply: sub; exact: mem_head.
have vE : vd D1 q c = v by rewrite /vd -same ?neq_p // Ev.
have hE : hit q c = (v == 0) by rewrite /CohenExt.hit /isroot vE q0 andbT.
have sub' : {subset l <= interior (allcols pr1)} by move=> x hx; apply: sub; rewrite inE hx orbT.
rewrite Ev bind_ok; case: (eqVneq v 0) E2 => [v0|v0] E2 /=; last first.
  case: E2 => E2; rewrite -E2 in E; have [e1 e2 e3] := IH _ sub' same E.
  split=> // x; rewrite inE => /orP[/eqP->|]; [by rewrite hE (negbTE v0)|exact: e3].
have hh : hit q c by rewrite hE v0.
have he : c \in ends pr1 := hit_end ok scal sh con_sgn pols0 rd D1c D1r hq hc hh.
peel E2 w Ew; rewrite /old_root_value in Ew; peel Ew u Eu.
have [lk rr] := lookup_old hq he hh same Eu.
have -> : root_value A T con p q c = Ok w.
  rewrite /root_value lk bind_ok; move: Ew; case: ifP => // _ Ew; peel Ew s' Es.
  by rewrite (old_signE Es) bind_ok.
case: E2 => E2; rewrite bind_ok E2.
have same2 r x : r != p -> cell D2 r x = cell D1 r x.
  by move=> nr; rewrite -E2 cell_put (negbTE nr) same.
have [e1 e2 e3] := IH _ sub' same2 E.
by split=> // x _ _.
Qed.

Lemma roots_old L D D' : {subset L <= pols} ->
  (forall r c, r != p -> cell D r c = cell D1 r c) ->
  old_at_roots A con p L (allcols pr1) D = Ok D' ->
  [/\ at_roots A T con p L (allcols pr1) D = Ok D', forall r c, r != p -> cell D' r c = cell D1 r c &
      forall q c, q \in L -> c \in interior (allcols pr1) -> hit q c -> readable A T con (rem p q)].
Proof.
rewrite /old_at_roots /at_roots; elim: L D => [|q L IH] D sub same; first by case=> <-.
rewrite !foldM_cons; cbv beta => E; peel E D2 E2; peel E2 v Ev.
have hq : q \in pols by apply: sub; exact: mem_head.
have vE : vd D1 q 0 = v by rewrite /vd -same ?neq_p // Ev.
have sub' : {subset L <= pols} by move=> x hx; apply: sub; rewrite inE hx orbT.
rewrite Ev bind_ok; case: (eqVneq v 0) E2 => [v0|v0] E2.
  case: E2 => E2; rewrite -E2 in E; rewrite bind_ok; have [e1 e2 e3] := IH _ sub' same E.
  split=> // r c; rewrite inE => /orP[/eqP->|]; last exact: e3.
  by rewrite /CohenExt.hit /isroot vE v0 eqxx andbF.
have [|//|f1 f2 f3] := row_old hq _ _ same E2; first by rewrite vE.
rewrite f1 bind_ok; have [e1 e2 e3] := IH _ sub' f2 E.
by split=> // r c; rewrite inE => /orP[/eqP->|]; [exact: f3|exact: e3].
Qed.

Lemma between_old zs l D D' : foldM (old_between p pols zs) D l = Ok D' ->
  foldM (between p pols zs) (Some D) l = Ok (Some D').
Proof.
elim: l D => [|[c i] l IH] D; first by case=> ->.
rewrite !foldM_cons => E; peel E D2 E2; suff -> : between p pols zs (Some D) (c, i) = Ok (Some D2) by exact: IH.
rewrite /old_between in E2; peel E2 y Ey; peel E2 z Ez; rewrite /between.
case: ifP E2 => [_ [->]//|_] E2; rewrite Ey bind_ok Ez bind_ok; cbv zeta.
peel E2 u Eu; peel E2 w Ew; rewrite Eu bind_ok Ew bind_ok; case: ifP E2 => // _ E2.
by case: ifP E2 => [_ ->|_ [->]].
Qed.
End One.

(** The rows are put back where they are. *)
Lemma back_old D1 pols M D : (forall q q', q \in pols -> dget M q = Ok q' -> q' = q) ->
  old_map_back D1 pols M = Ok D ->
  rows D =i pols /\ forall q c, cell D q c = if q \in pols then cell D1 q c else Err KeyError.
Proof.
rewrite /old_map_back => hM.
have H l ret : {subset l <= pols} -> foldM (fun ret pol =>
    if ~~ dmem M pol then Err (Exc "doesn't have a key")
    else let! q := dget M pol in let! r := dget D1 q in Ok (dset ret pol r)) ret l = Ok D ->
    rows D =i l ++ rows ret /\ forall q c, cell D q c = if q \in l then cell D1 q c else cell ret q c.
  elim: l ret => [|p l IH] ret sub; first by case=> ->.
  rewrite foldM_cons => E; peel E D2 E2; move: E2; case: ifP => // _ E2; peel E2 q Emq; peel E2 r Er.
  have qp : q = p by apply: (hM) Emq; apply: sub; exact: mem_head.
  case: E2 => E2; have [|r1 r2] := IH _ _ E; first by move=> x hx; apply: sub; rewrite inE hx orbT.
  split=> [x|x c]; first by rewrite r1 -E2 !mem_cat /rows keys_dset !inE orbCA orbA.
  rewrite r2 inE -E2 {2}/cell /row dget_dset; case: (eqVneq x p) => [->|_] //=.
  by case: ifP => // _; rewrite /cell /row -qp Er.
move=> E; have [//|r1 r2] := H pols [::] _ E; split=> [q|q c]; last by rewrite r2.
by rewrite r1 cats0.
Qed.

Lemma extend_old T prs con p pols M T' : shape A T prs -> sgn_con con -> p \notin pols -> determined A con p ->
  ext_right A den con p pols -> (forall q, q \in pols -> 0 < deg A q -> hv (LC q) -> dmem con (LC q)) ->
  (forall q q', q \in pols -> dget M q = Ok q' -> q' = q) ->
  old_extend A setiter T con p pols M = Ok T' ->
  exists prs', [/\ rows T' =i p :: pols, shape A T' prs', points T' prs' &
    forall (R : rcfType) (ev : {rmorphism C -> R}), right_at A den T prs con p pols ev ->
      exists xs', tok den ev T' prs' xs'].
Proof.
move=> sh sc pn pd rt hlc hM E; rewrite /old_extend in E; peel E s Es; move: E; case: ifP => // pT E.
peel E D1 ED1; peel E D ED; peel E p0 Ep0; peel E D3 ED3.
have hp0 : p0 \in pols by move: Ep0; case: (pols) => // q l [<-]; rewrite mem_head.
have pols0 : pols != [::] by case: (pols) hp0.
have [rT rd] := copy_readable ED1 pols0.
have lk := old_signE Es.
have [s0 ssg] : s != 0 /\ s \in signs.
  case: pd => pz pd; move: Es; rewrite /old_sign; case hm: (hv (LC p)); rewrite /= => Es.
    by case: pd => [|[t Et t0]]; [rewrite hm|split; [by move: Es t0; rewrite Et => -[->]|exact: sc Es]].
  case: Es => <-; have [|h1 h2] := scal.1 _ (LC_const ok p); first by rewrite hm.
  by split=> //; apply/eqP => /h2/eqP; rewrite (LC_eq0 ok) => /eqP.
have [D1' ED1' [D1c D1r]] := copy_tableE order sh rT pols0 rd.
move: ED1'; rewrite ED1 => -[E1]; rewrite -{}E1 in D1c D1r.
have sp := copy_shape ok sh sc scal pols0 rd D1c D1r.
have [Dr Dc] := back_old hM ED.
set D2 := put _ p 0 _ in E ED3.
have D2r : rows D2 =i p :: pols.
  by move=> q; rewrite /D2 !(rows_put, inE) /rows keys_dset inE -/(rows D) Dr; case: (q == p).
have D2c q c : cell D2 q c = if q == p then
    (if c == 1 then Ok (eval A T con p pols s D1 1) else if c == 0 then Ok (eval A T con p pols s D1 0)
     else Err KeyError) else cell D1 q c.
  rewrite /D2 !cell_put /eval !eqxx; case: (eqVneq q p) => [->|nq] /=.
    case: (eqVneq c 0) => [->|_]; first by [].
    by case: (c == 1) => //; rewrite /cell /row dget_dset eqxx.
  rewrite /cell /row dget_dset (negbTE nq) -/(row D q) -/(cell D q c) Dc.
  by case: ifP => // hq; rewrite -/(row D1 q) -/(cell D1 q c) D1c hq.
have same r c : r != p -> cell D2 r c = cell D1 r c by move=> /negbTE h; rewrite D2c h.
have colE D' := @copy_colsP _ _ A _ den ok scal T prs con p pols sh sc pols0 rd pn D1 D1c D1r p0 D' hp0.
rewrite colE // in ED3.
have [//|A1 A2 A3] := roots_old sh sc pols0 rd pn (rt_size rt) D1c D1r _ same ED3.
have hrem q c : q \in pols -> 0 < deg A q -> c \in ends prs -> isroot T 0 c q -> readable A T con (rem p q).
  move=> hq pos hc rq; have qT : q \in rows T by have [h _] := rd q hq; exact: h.
  have he : c \in ends (merged T prs pols).
    by apply: mrg_keep => //; apply/hasP; exists q => //; rewrite /rootof qT.
  apply: (A3 q c hq); first by rewrite interior_cols; exact: ends_inner.
  have := point_look ok scal sh sc pols0 rd D1c D1r hq he; rewrite look_pos //.
  have v0 : vd D1 q 0 = look A T con q 0 by rewrite /vd D1c hq mem_head /= /newval; case: eqP.
  by move: rq; rewrite /hit /isroot v0 look_pos // => h ->.
have er : ext_ready A T prs con p pols s by split.
have := coreE ok scal sh sc pols0 rd pn ssg hrem hlc D1c D1r hp0 D2r D2c; cbv zeta.
rewrite colE // A1 bind_ok (between_old E); case: ifP => // /negbT nb [D' [<-]] [cE rE] {D'}.
case: (eqVneq (a_degree A p) 0%N) => dp; last first.
  have [sh' pt'] := ext_shape ok scal er D1c D1r dp cE rE nb.
  eexists; split=> //; [exact: sh'|exact: pt'|].
  move=> R ev [sgn cons [xs tk] der]; have [xs' tk' zp] := copy_sem ok sgn sh tk cons rd D1c D1r.
  exact: (ext_tok ok scal er D1c D1r sgn cons rt der tk' zp dp cE rE).
have sp1 : (sz p <= 1)%N by move: dp; rewrite (den_degree ok); case: (sz p) => [|[]].
have [sh1 pt1] := sp.
have [x Ex] : exists x, merged T prs pols = [:: (x, 1)].
  have := sh_nil sh1; have := sh_last sh1.
  case Em: (merged T prs pols) => [//|[x x'] [|y l]]; first by move=> /= -> _; exists x.
  have he : x' \in ends (merged T prs pols) by rewrite Em mem_head.
  have /hasP[q hq hh] := pt1 _ he; rewrite D1r in hq.
  have pos : 0 < deg A q := hit_pos ok scal sh sc pols0 rd D1c D1r hq (ends_all1 he) hh.
  by move: pos; rewrite (deg_pos ok) ltnNge (leq_trans (rt_size rt hq) sp1).
have cE' q c : cell T' q c = if q == p then if c \in allcols (merged T prs pols) then Ok s else Err KeyError
    else cell D1 q c.
  have e0 : eval A T con p pols s D1 0 = s by rewrite /eval eqxx dp expr0 mul1r.
  have e1 : eval A T con p pols s D1 1 = s by rewrite /eval eqxx.
  rewrite cE Ex /= /plan1 /keep /= e0 e1 eqxx /=; case: (eqVneq c x) => [->|cx] /=.
    case: (q == p) => //; rewrite !inE eqxx !orbT; congr Ok.
    by move: ssg; rewrite !inE => /or3P[]/eqP->.
  case: (q == p) => //; rewrite !inE (negbTE cx) /=; case: (eqVneq c 0) => [->|_] /=; first by rewrite e0.
  by case: (eqVneq c 1) => [->|//]; rewrite e1.
exists (merged T prs pols); split=> //.
- exact: (const_shape ok scal er D1c D1r cE' rE).
- exact: (const_points ok scal er D1c D1r cE' rE).
move=> R ev [sgn cons [xs tk] _]; have [xs' tk' _] := copy_sem ok sgn sh tk cons rd D1c D1r.
by exists xs'; exact: (const_tok ok scal er D1c D1r dp cE' rE sgn cons tk').
Qed.
End Extend.
