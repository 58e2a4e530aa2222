(** real_full of cohenhorm.py: what holds. *)
From mathcomp Require Import all_ssreflect all_algebra all_real_closed.
From mathcomp.zify Require Import zify.
From Verif Require Import Py MuchModel MuchSpec MuchSeq MuchDiag MuchStep MuchRoot MuchSem MuchReal.
From Verif Require Import CohenModel CohenSpec CohenExp CohenCopy CohenSem CohenExt CohenStep CohenBack CohenTable.

Set Implicit Arguments.
Unset Strict Implicit.
Unset Printing Implicit Defensive.
Import GRing.Theory Num.Theory Order.TTheory.
Local Open Scope ring_scope.

Lemma count_In (T : Type) (w : T -> bool) (l : seq T) : (0 < count w l)%N -> exists2 x, List.In x l & w x.
Proof.
elim: l => [//|x l IH] /=; case wx: (w x); first by move=> _; exists x => //; left.
by rewrite add0n; move=> h; have [y hy wy] := IH h; exists y => //; right.
Qed.

(** Far out all polynomials of a list have the signs of the infinities. *)
Lemma minf_all (R : rcfType) (l : seq {poly R}) : exists a, forall y, y <= a -> forall Q, Q \in l ->
  sgz Q.[y] = lsg Q None.
Proof.
elim: l => [|Q l [a h]]; first by exists 0.
case: (eqVneq Q 0) => [Q0|Q0].
  exists a => y ya Q'; rewrite inE => /orP[/eqP->|]; last exact: h.
  by rewrite Q0 horner0 /lsg lead_coef0 sgz0 mul0r.
have [[b c] /= [_ _ _ _ [hb _]]] := approach (lo := None) (hi := None) Q0 isT.
exists (Num.min a b) => y; rewrite le_minr => /andP[ya yb] Q'; rewrite inE => /orP[/eqP->|]; last exact: h.
by have [->] := hb y isT yb.
Qed.

Lemma pinf_all (R : rcfType) (l : seq {poly R}) : exists a, forall y, a <= y -> forall Q, Q \in l ->
  sgz Q.[y] = usg Q None.
Proof.
elim: l => [|Q l [a h]]; first by exists 0.
case: (eqVneq Q 0) => [Q0|Q0].
  exists a => y ya Q'; rewrite inE => /orP[/eqP->|]; last exact: h.
  by rewrite Q0 horner0 /usg lead_coef0.
have [[b c] /= [_ _ _ _ [_ hc]]] := approach (lo := None) (hi := None) Q0 isT.
exists (Num.max a c) => y; rewrite le_maxl => /andP[ya yc] Q'; rewrite inE => /orP[/eqP->|]; last exact: h.
by have [->] := hc y isT yc.
Qed.

Section Real.
Variables (P : eqType) (K : realDomainType) (A : algebra P K).
Variables (C : idomainType) (den : P -> {poly C}).
Hypothesis ok : algebra_contract A den.
Hypothesis scal : scalars_exact A den.
Hypothesis ch : [char C] =i pred0.
Variables (ss_of : seq P -> seq P) (ss_plus : seq P -> P -> seq P).
Hypothesis ss : degree_sets A ss_of ss_plus.
Variable setiter : seq P -> seq P.
Hypothesis order : set_order setiter.
Notation table := (diagram P [eqType of rat]).
Notation context := (context P).
Implicit Types (T : table) (con : context) (p q k : P) (v : point A den).

Local Notation hv := (a_has_variable A).
Local Notation LC := (a_LC A).

(** Every column of a right table describes a point. *)
Lemma tok_cols (R : rcfType) (ev : {rmorphism C -> R}) T prs xs c : shape A T prs -> tok den ev T prs xs ->
  c \in allcols prs -> exists x, forall q, q \in rows T -> vd T q c = sgz (value den ev q x).
Proof.
move=> sh tk; have [m1 m2] := sem_mem (tk_sem tk).
rewrite inE mem_flat rcons_ends ?(sh_nil sh) // mem_rcons inE (sh_last sh).
case/or4P => [/eqP->|/m1[x h]|/eqP->|/m2[x h]]; [|by exists x| |by exists x].
  have [a ha] := minf_all [seq map_poly ev (den q) | q <- rows T]; exists a => q hq.
  by rewrite /value ha ?lexx ?(map_f (fun q => map_poly ev (den q)) hq) // (tk_minf tk).
have [a ha] := pinf_all [seq map_poly ev (den q) | q <- rows T]; exists a => q hq.
by rewrite /value ha ?lexx ?(map_f (fun q => map_poly ev (den q)) hq) // (tk_pinf tk).
Qed.

Section Full.
Variables lesser equalities greater : seq P.
Let ps := lesser ++ equalities ++ greater.
Notation gc := (good_col lesser equalities greater).
Notation right := (right A (generated A den ps)).
Notation good := (good A den (generated A den ps)).

Lemma good_tableE con x : ps <> [::] -> good con ps x -> exists b, good_table setiter lesser equalities greater x = Ok b /\
  forall prs, shape A x.1 prs -> rows x.1 =i ps -> b = has (gc x.1) (allcols prs).
Proof.
case: x => T tc p0 /= gx; have [prs0 [sh0 _ rE _]] := g_tab gx; rewrite /= in sh0 rE.
have [k [ks Ek]] : exists k ks, setiter (rows T) = k :: ks.
  have := perm_size (order (rows T)); case E: (setiter (rows T)) => [|k ks]; last by exists k, ks.
  move=> /esym/size0nil E0; case: (ps) p0 rE => // q l _ /(_ q); rewrite mem_head E0.
  by [].
have kr : k \in rows T by rewrite -(perm_mem (order (rows T))) Ek mem_head.
have ck p c : p \in ps -> c \in cols T k -> c \in cols T p.
  by move=> hp; rewrite !(sh_cols sh0) // rE.
rewrite Ek /= keep_all; last by move=> p hp c; apply: ck; rewrite mem_cat hp.
rewrite bind_ok keep_all; last first.
  by move=> p hp c; rewrite mem_filter => /andP[_]; apply: ck; rewrite !mem_cat hp orbT.
rewrite bind_ok keep_all; last first.
  by move=> p hp c; rewrite !mem_filter => /and3P[_ _]; apply: ck; rewrite !mem_cat hp !orbT.
rewrite bind_ok; eexists; split; first by []; move=> prs sh _.
rewrite -!filter_predI -has_predT has_filter filter_predT -has_filter.
rewrite -[RHS]/(has (gc T) (allcols prs)) -(eq_has_r (sh_cols sh kr)).
by apply: eq_has => c /=; rewrite /good_col andbC [all _ equalities && _]andbC -andbA andbCA andbA.
Qed.

Lemma good_sat con x b v : ps <> [::] -> good con ps x -> cs v x.2 ->
  good_table setiter lesser equalities greater x = Ok b ->
  b <-> exists y, real_sat den (pev v) lesser equalities greater y.
Proof.
move=> p0 gx cv; have [b' [-> hb] [<-]] := good_tableE p0 gx; have [prs [sh _ rE tk]] := g_tab gx.
have [xs tx] := tk v cv; rewrite (hb prs sh rE).
have rw q : q \in ps -> q \in rows x.1 by rewrite rE.
have sl p : p \in lesser -> p \in rows x.1 by move=> h; apply: rw; rewrite !mem_cat h.
have se p : p \in equalities -> p \in rows x.1 by move=> h; apply: rw; rewrite !mem_cat h orbT.
have sg p : p \in greater -> p \in rows x.1 by move=> h; apply: rw; rewrite !mem_cat h !orbT.
have colE c y : (forall q, q \in rows x.1 -> vd x.1 q c = sgz (value den (pev v) q y)) ->
    gc x.1 c <-> real_sat den (pev v) lesser equalities greater y.
  move=> h; split=> [/and3P[/allP e /allP l /allP g]|[l e g]].
    split=> p hp; [have := l _ hp|have := e _ hp|have := g _ hp].
    - by rewrite (h _ (sl _ hp)); case: (sgzP (value den (pev v) p y)).
    - by rewrite (h _ (se _ hp)) sgz_eq0 => /eqP.
    - by rewrite (h _ (sg _ hp)); case: (sgzP (value den (pev v) p y)).
  apply/and3P; split; apply/allP => p hp.
  - by rewrite (h _ (se _ hp)) sgz_eq0 e.
  - by rewrite (h _ (sl _ hp)) ltr0_sgz // l.
  - by rewrite (h _ (sg _ hp)) gtr0_sgz // g.
split=> [/hasP[c hc gd]|[y sy]].
  by have [y hy] := tok_cols sh tx hc; exists y; apply/(colE c y hy).
have [c hc d] := sem_cover (x := y) (tk_sem tx) isT.
by apply/hasP; exists c; [rewrite inE hc orbT|apply/(colE c y d)].
Qed.

Lemma clause_cs v con : uniq (map fst con) -> sgn_con con ->
  real_clause_holds den (pev v) (clause_of_context con) <-> cs v con.
Proof.
move=> u sc; split=> [[/= hl he hg]|cv].
  apply: cs_intro => // k s Es; have := sc _ _ Es.
  have mk : k \in keys_with con s.
    rewrite /keys_with; apply/mapP; exists (k, s) => //; rewrite mem_filter eqxx /=.
    by elim: (con) Es => //= -[a b] l IH; case: eqP => [-> [->]|_ /IH h]; rewrite inE ?eqxx // h orbT.
  rewrite !inE => /or3P[] /eqP E; rewrite E in mk *.
  - by rewrite ltr0_sgz // hl.
  - by rewrite he // sgz0.
  - by rewrite gtr0_sgz // hg.
have val k s : k \in keys_with con s -> sgz (cvalue den (pev v) k) = s.
  by move=> /mapP[[k' s']]; rewrite mem_filter /= => /andP[/eqP-> hx] ->; have /allP/(_ _ hx)/eqP := cv.
split=> p /val /=; case: (sgzP (cvalue den (pev v) p)) => //.
Qed.

Hypothesis acc : accepted A den [::] ps.

Lemma acc_nil : ps <> [::].
Proof. by case: acc => [[p h _]|[]//] E; have := h p; rewrite E mem_head. Qed.

Lemma real_full_tables : exists N ret, [/\
  forall n, (N <= n)%N -> ch_real_full A ss_of ss_plus setiter n lesser equalities greater =
    Ok [seq clause_of_context x.2 | x <- ret &
        if good_table setiter lesser equalities greater x is Ok b then b else false],
  forall x, List.In x ret -> good [::] ps x & forall v, count (fun x => cs v x.2) ret = 1%N].
Proof.
have [||||||N [ret [h1 [h2 h3]]]] := @real_table_ok _ _ A _ den ok scal ch _ _ ss _ order (generated A den ps)
    _ _ _ [::] ps acc => //.
- exact: gen_tail.
- exact: gen_der.
- by move=> p q gp gq q0 le; apply: gen_rem => //; rewrite (den_eq0 ok).
- by move=> p; exact: gen_input.
exists N, ret; split=> // n hn; rewrite /ch_real_full -/ps h1 // bind_ok.
rewrite (filterME (g := fun x => if good_table setiter lesser equalities greater x is Ok b then b else false)) //.
by move=> x /h2 gx; have [b [-> _]] := good_tableE acc_nil gx.
Qed.

Theorem ch_real_full_ok : exists N dnf,
  (forall n, (N <= n)%N -> ch_real_full A ss_of ss_plus setiter n lesser equalities greater = Ok dnf) /\
  forall (R : rcfType) (ev : {rmorphism C -> R}), sign_ok A den ev ->
  (exists x, real_sat den ev lesser equalities greater x) <-> (exists2 c, c \in dnf & real_clause_holds den ev c).
Proof.
have [N [ret [h1 h2 h3]]] := real_full_tables; eexists N, _; split; first exact: h1.
move=> R ev sgn; pose v := Point sgn; have p0 := acc_nil.
have clE x : List.In x ret -> real_clause_holds den ev (clause_of_context x.2) <-> cs v x.2.
  move=> /h2 gx; apply: (clause_cs v); first exact: (g_uniq gx).
  by apply: sgn_new (g_new gx).
split=> [sx|[c /mapP[x]]].
  have [x hx cx] : exists2 x, List.In x ret & cs v x.2.
    by apply: (@count_In _ (fun x => cs v x.2)); rewrite h3.
  have gx := h2 _ hx; exists (clause_of_context x.2); last exact/(clE x hx).
  apply/mapP; exists x => //; apply/InP/filter_In; split=> //.
  by have [b [Eb _]] := good_tableE p0 gx; rewrite Eb; apply/(good_sat p0 gx cx Eb).
move=> /InP/filter_In[hx gb] ->; move/(clE x hx) => cx; have gx := h2 _ hx.
by have [b [Eb _]] := good_tableE p0 gx; rewrite Eb in gb; apply/(good_sat p0 gx cx Eb).
Qed.

(** Without parameters. *)
Theorem ch_real_full_closed : (forall p, generated A den ps p -> ~~ hv (LC p)) -> exists N dnf,
  (forall n, (N <= n)%N -> ch_real_full A ss_of ss_plus setiter n lesser equalities greater = Ok dnf) /\
  forall (R : rcfType) (ev : {rmorphism C -> R}), sign_ok A den ev ->
  dnf != [::] <-> exists x, real_sat den ev lesser equalities greater x.
Proof.
move=> nv; have [N [ret [h1 h2 h3]]] := real_full_tables; eexists N, _; split; first exact: h1.
move=> R ev sgn; pose v := Point sgn; have p0 := acc_nil.
have e0 x : List.In x ret -> x.2 = [::].
  move=> /h2 gx; case E: x.2 => [//|[k s] l]; have := g_new gx (k := k) (s := s).
  rewrite E /= eqxx => /(_ erefl)[//|[_ hk [p gp Ek]]].
  by have := nv p gp; rewrite -Ek hk.
split=> [|sx].
  case: [seq x <- ret | _] (@filter_In _ (fun x => if good_table setiter lesser equalities greater x is Ok b then b else false) ret) => // x l /(_ x) [/(_ (or_introl erefl))[hx gb] _] _.
  have gx := h2 _ hx; have [b [Eb _]] := good_tableE p0 gx; rewrite Eb in gb.
  by apply/(good_sat (v := v) p0 gx _ Eb) => //; rewrite e0.
have [x hx cx] : exists2 x, List.In x ret & cs v x.2.
  by apply: (@count_In _ (fun x => cs v x.2)); rewrite h3.
have gx := h2 _ hx; have [b [Eb _]] := good_tableE p0 gx.
have hb : b by apply/(good_sat p0 gx cx Eb).
have : List.In x [seq x <- ret | if good_table setiter lesser equalities greater x is Ok b then b else false].
  by apply/filter_In; rewrite Eb.
by case: [seq x <- ret | _].
Qed.
End Full.

(** A closed problem with no zero is accepted. *)
Theorem ch_closed lesser equalities greater : let ps := lesser ++ equalities ++ greater in
  ps <> [::] -> a_zero A \notin ps -> (forall p, generated A den ps p -> ~~ hv (LC p)) -> exists N dnf,
  (forall n, (N <= n)%N -> ch_real_full A ss_of ss_plus setiter n lesser equalities greater = Ok dnf) /\
  forall (R : rcfType) (ev : {rmorphism C -> R}), sign_ok A den ev ->
  dnf <> [::] <-> exists x, real_sat den ev lesser equalities greater x.
Proof.
move=> ps p0 nz nv; have acc : accepted A den [::] ps.
  right; split=> // [p hp _|h]; last by rewrite h in nz.
  by split; [apply/eqP; apply: contraNneq nz => <-|left; apply: nv; exact: gen_input].
have [N [dnf [h1 h2]]] := ch_real_full_closed acc nv; exists N, dnf; split=> // R ev sgn.
by rewrite -(h2 R ev sgn); split=> [/eqP|h]; [|exact/eqP].
Qed.

(** real_table. *)
Theorem real_table_cases con polys : accepted A den con polys -> uniq (map fst con) ->
  (forall k s, dget con k = Ok s -> s \in [:: -1; 0; 1]) ->
  exists N ret, (forall n, (N <= n)%N -> real_table A ss_of ss_plus setiter n polys con = Ok ret) /\
  forall (R : rcfType) (ev : {rmorphism C -> R}), sign_ok A den ev ->
    count (fun x => consistent den ev x.2) ret = consistent den ev con /\
    forall x, List.In x ret -> extends con x.2 /\
      (consistent den ev x.2 -> rows x.1 =i polys /\ condensed den ev polys x.1).
Proof.
move=> acc uc sc; have [||||||N [ret [h1 [h2 h3]]]] := @real_table_ok _ _ A _ den ok scal ch _ _ ss _ order
    (fun=> Logic.True) _ _ _ con polys acc => //.
exists N, ret; split=> // R ev sgn; split=> [|x hx]; first exact: (h3 (Point sgn)).
have gx := h2 _ hx; split=> [|cx]; first exact: (g_ext gx).
have [prs [sh pt rE tk]] := g_tab gx; have [xs tx] := tk (Point sgn) cx; split=> //.
exact: points_condensed sh pt tx rE.
Qed.
End Real.
