(** cohenhorm - Copy.py: what _real_table returns. *)
From mathcomp Require Import all_ssreflect all_algebra all_real_closed.
From mathcomp.zify Require Import zify.
From Coq Require Import String.
From Verif Require Import Py MuchModel MuchSpec MuchSeq MuchDiag MuchStep MuchRoot MuchSem.
From Verif Require Import CohenModel CohenSpec CohenExp CohenCopy CohenSem CohenExt CohenStep CohenBack CohenTable.
From Verif Require Import CohenReal CohenOld CohenOldStop CohenOldSound.

Set Implicit Arguments.
Unset Strict Implicit.
Unset Printing Implicit Defensive.
Import GRing.Theory Num.Theory Order.TTheory.
Local Open Scope ring_scope.

Lemma fold_back (X Y V : Type) (f : seq Y -> X -> res (seq Y)) (Post : Y -> Prop) (w : V -> Y -> bool)
    (cnt : V -> X -> nat) (l : seq X) ret out :
  (forall x r r', List.In x l -> f r x = Ok r' -> exists new, [/\ r' = r ++ new,
     forall y, List.In y new -> Post y & forall v, count (w v) new = cnt v x]) ->
  foldM f ret l = Ok out ->
  exists new, [/\ out = ret ++ new, forall y, List.In y new -> Post y &
     forall v, count (w v) new = sumn (map (cnt v) l)].
Proof.
elim: l ret => [|x l IH] ret h; first by case=> <-; exists [::]; rewrite cats0.
rewrite foldM_cons => E; peel E r' Er.
have [n1 [e1 p1 c1]] := h x _ _ (or_introl erefl) Er.
have [y r r0 hy|n2 [e2 p2 c2]] := IH r' _ E; first by apply: h; right.
exists (n1 ++ n2); split; [by rewrite e2 e1 catA|by move=> y /List.in_app_iff[/p1|/p2]|].
by move=> v; rewrite count_cat c1 c2.
Qed.

Section Facts.
Variables (P : eqType) (K : realDomainType) (A : algebra P K).
Variables (C : idomainType) (den : P -> {poly C}).
Hypothesis ok : algebra_contract A den.
Hypothesis scal : scalars_exact A den.
Hypothesis ch : [char C] =i pred0.
Variables (ss_of : seq P -> seq P) (ss_plus : seq P -> P -> seq P).
Hypothesis ss : degree_sets A ss_of ss_plus.
Variable setiter : seq P -> seq P.
Hypothesis order : set_order setiter.
Notation table := (diagram P [eqType of rat]).
Notation context := (context P).
Implicit Types (D T : table) (con : context) (p q k : P) (v : point A den) (polys : seq P).

Local Notation zero := (a_zero A).
Local Notation hv := (a_has_variable A).
Local Notation LC := (a_LC A).
Local Notation der := (a_derivative A).
Local Notation sz p := (size (den p)).
Local Notation tab := (old_table_nat A ss_of ss_plus setiter).
Local Notation Gd := (fun _ : P => Logic.True).
Local Notation newkeys := (newkeys A Gd).

Record ogood con polys (x : table * context) : Prop := {
  og_ext : extends con x.2;
  og_new : newkeys con x.2;
  og_uniq : uniq (map fst con) -> uniq (map fst x.2);
  og_rows : forall p, p \in polys -> p \in rows x.1 \/ exists2 q, q \in rows x.1 & reduces A x.2 p q;
  og_tab : exists prs, [/\ shape A x.1 prs, points x.1 prs &
    forall v, cs v x.2 -> exists xs, tok den (pev v) x.1 prs xs]
}.

Definition oright con polys (ret : seq (table * context)) : Prop :=
  (forall x, List.In x ret -> ogood con polys x) /\ forall v, count (fun x => cs v x.2) ret = cs v con.

Lemma single_old con polys p ret : const den p -> polys =i [:: p] -> sgn_con con ->
  old_initial A p con = Ok ret -> oright con polys ret.
Proof.
move=> cp pE sc; have LCp := scal.2 _ cp; rewrite /old_initial leNgt (deg_pos ok) -leqNgt.
rewrite /const in cp; rewrite cp LCp.
have main s : (hv p -> dmem con p) -> sign_context_lookup A con p = Ok s -> oright con polys [:: (const_table p s, con)].
  move=> kn lk; split=> [x [<-|//]|v]; last by rewrite /= addn0.
  rewrite -{1 2}LCp in kn; rewrite -{1}LCp in lk.
  have [g1 g2 g3 _ [prs [h1 h2 h3 h4]]] := @const_good _ _ A _ den ok scal Gd con polys p s cp pE sc kn lk.
  split=> //; last by exists prs.
  by move=> q hq; left; rewrite h3.
case hp: (hv p) => /=; last first.
  by case=> <-; apply: main; rewrite ?hp // /sign_context_lookup hp.
case: ifP => // /negbFE dm; case Es: (dget con p) => [s|//] /= [<-].
by apply: main => //; rewrite /sign_context_lookup hp dm.
Qed.

Section Step.
Variables (con : context) (polys : seq P) (m : P) (set : seq P).
Hypothesis sE : ss_of polys = m :: set.
Hypothesis sc : sgn_con con.
Hypothesis uc : uniq (map fst con).
Hypothesis md : determined A con m.
Hypothesis kd : const den m -> forall k, k \in set -> determined A con k.

Let needed := if zero != der m then ss_plus set (der m) else set.
Let gd p : p \in polys -> Gd p := fun _ => I.
Let m0 : m != zero.
Proof. by case: md => /eqP. Qed.
Hypothesis n0 : needed != [::].

Section Entry.
Variables (h : heap P) (e : entry P).
Hypothesis eo : entry_ok A Gd [:: [::]] con needed 0 h e.
Let con' := e.1.1.
Let pols := e.1.2.
Let goal := new_goal A m pols.

Let pp := @pols_prop _ _ A _ den ok _ _ ss Gd (fun _ _ => I) con polys m set sE gd m0 h e eo.

Lemma one_old T tc T' : ogood con' goal (T, tc) ->
  old_extend A setiter T tc m pols (hget h e.2) = Ok T' -> ogood con polys (T', tc).
Proof.
move=> gx E; have [prs [/= sh pt tk]] := og_tab gx.
have ex : extends con tc := extends_trans (eo_ext eo) (og_ext gx).
have sct : sgn_con tc := sgn_new (sgn_new sc (eo_new eo)) (og_new gx).
have tcs v : cs v tc -> cs v con' by apply: cs_extends (og_ext gx); exact: (eo_uniq eo).
have det q : q \in pols -> q = zero \/ determined A tc q.
  by move=> /pp[_ _ [->|d]]; [left|right; exact: determined_mono (og_ext gx) d].
have hM q q' : q \in pols -> dget (hget h e.2) q = Ok q' -> q' = q.
  move=> hq Eq'; have r := eo_map eo Eq'; have [_ _ [qz|d]] := pp hq; last exact: determined_reduces d r.
  have nv : ~~ hv (LC q) by apply/negP => hvq; have := hv_nonzero ok hvq; rewrite qz eqxx.
  exact: reduces_fun r (red_scalar _ nv).
have [|||prs' [rE sh' pt' tk']] :=
  extend_old ok scal order sh sct _ (determined_mono ex md) _ _ hM E.
- by apply/negP => /pp[_]; rewrite eqxx.
- by split=> q hq; [exact: det|have [] := pp hq].
- move=> q hq _ hvq; have [qz|[_ [|[s Es _]]]] := det q hq; first by have := hv_nonzero ok hvq; rewrite qz eqxx.
    by rewrite hvq.
  exact: dget_mem Es.
split=> //=.
- exact: newkeys_trans (eo_new eo) (og_new gx).
- by move=> u; apply: (og_uniq gx); exact: (eo_uniq eo).
- move=> p; rewrite (polysE ss sE) inE => /orP[/eqP->|hp]; first by left; rewrite rE mem_head.
  have hk : p \in needed by rewrite (mem_needed ss) hp.
  have [q _ [r hq]] := entry_pick eo hk; right; exists q; first by rewrite rE inE hq orbT.
  exact: reduces_mono (og_ext gx) r.
exists prs'; split=> // v cv; apply: tk'; split=> //; [exact: pok|exact: tk|].
rewrite (den_degree ok) => dm.
apply: (der_pols ok ch ss eo (v := v)); first exact: tcs.
by case: (sz m) dm => [|[]].
Qed.

Lemma entry_old tables ret out : goal <> [::] -> oright con' goal tables ->
  old_extend_tables A setiter m pols (hget h e.2) tables ret = Ok out ->
  exists new, [/\ out = ret ++ new, forall y, List.In y new -> ogood con polys y &
    forall v, count (fun x => cs v x.2) new = cs v con'].
Proof.
move=> g0 [gx cx] E.
have [[T tc] r r' hx E1|new [e1 e2 e3]] := @fold_back _ _ (point A den) _ (ogood con polys) (fun v x => cs v x.2)
    (fun v x => cs v x.2) tables ret out _ E.
  peel E1 T' ET; case: E1 => <-; exists [:: (T', tc)]; split; [by rewrite cats1| |by move=> v; rewrite /= addn0].
  by move=> y [<-|//]; exact: one_old (gx _ hx) ET.
by exists new; split=> // v; rewrite e3 sumn_cnt cx.
Qed.
End Entry.

Lemma step_old n ret :
  (forall goal con' tables, accepted A den con' goal -> sgn_con con' -> uniq (map fst con') ->
     tab n goal con' = Ok tables -> oright con' goal tables) ->
  tab n.+1 polys con = Ok ret -> oright con polys ret.
Proof.
move=> rec.
have p0 : polys <> [::] by have := polysE ss sE m; rewrite mem_head; case: (polys).
rewrite (tabE _ _ _ _ _ p0 sE); cbv zeta; rewrite -/needed (negbTE n0).
have np k : k \in needed -> (sz k <= sz m)%N.
  by move=> hk; have [] := @needed_prop _ _ A _ den ok _ _ ss Gd (fun _ _ => I) polys m set sE gd m0 k hk.
have [|||||h [es [Ex [_ eo cnt]]]] :=
  @expand_ok _ _ A _ den ok Gd (fun _ _ => I) (expand_fuel A needed) [:: [::]] con needed 0 _ _ _ _ _ => //.
- by rewrite /expand_fuel; lia.
- by move=> k hk; exact: (fuel_enough ok hk).
rewrite Ex bind_ok => E.
have [[[c pols] a] r r' he E1|new [e1 e2 e3]] := @fold_back _ _ (point A den) _ (ogood con polys)
    (fun v x => cs v x.2) (fun v e => cs v e.1.1) es [::] ret _ E; last first.
  by rewrite e1; split=> // v; rewrite e3 sumn_cnt cnt.
have eoe := eo _ he; peel E1 tables Et.
have gE : old_goal A m pols = new_goal A m pols.
  apply: (old_goalE ok) => q hq.
  by have [] := @pols_prop _ _ A _ den ok _ _ ss Gd (fun _ _ => I) con polys m set sE gd m0 h _ eoe q hq.
rewrite gE in Et; case Eg: (new_goal A m pols) => [|g l].
  have tE : tables = [::] by rewrite Eg in Et; case: (n) Et => // n' [].
  move: E1; rewrite tE => -[<-]; exists [::]; rewrite cats0; split=> // v.
  by have := goal_nil ok scal ch ss m0 md kd eoe v n0 Eg => /negbTE /= ->.
have g0 : new_goal A m pols <> [::] by rewrite Eg.
apply: (entry_old eoe g0 _ E1); apply: rec Et.
- exact: (goal_accepted ok ss (fun _ _ => I) sE gd m0 eoe g0).
- exact: sgn_new sc (eo_new eoe).
- exact: (eo_uniq eoe).
Qed.
End Step.

Lemma old_right n polys con ret : accepted A den con polys -> sgn_con con -> uniq (map fst con) ->
  tab n polys con = Ok ret -> oright con polys ret.
Proof.
elim: n polys con ret => [//|n IH] polys con ret acc sc uc.
case sE: (ss_of polys) => [|m set].
  have p0 : polys <> [::] by case: acc => [[p pE _]|[]//]; have := pE p; rewrite mem_head; case: (polys).
  by case: polys p0 sE {acc} => // q l _ sE; have := ss_of_mem ss (q :: l) q; rewrite sE mem_head.
have pE := polysE ss sE; have mm : m \in polys by rewrite pE mem_head.
have p0 : polys <> [::] by case: (polys) mm.
have mmax q : q \in polys -> (sz q <= sz m)%N by rewrite pE inE => /orP[/eqP->//|/(m_max ok ss sE)].
have derc : const den m -> zero != der m = false.
  move=> cm; apply/negbTE; rewrite negbK eq_sym -(den_eq0 ok) (den_derivative ok).
  by rewrite (size1_polyC cm) derivC.
have single : const den m -> set = [::] -> tab n.+1 polys con = Ok ret -> oright con polys ret.
  move=> cm s0; rewrite (tabE _ _ _ _ _ p0 sE); cbv zeta; rewrite derc // s0 /= => E.
  by apply: single_old E => // q; rewrite pE s0.
case: acc => [[p qE cp]|[_ mx zr]].
  apply: single; first by move: mm; rewrite qE inE => /eqP->.
  have := ss_of_uniq ss polys; rewrite sE; case: (set) pE => // a t pE /andP[na _].
  have : a \in polys by rewrite pE !inE eqxx orbT.
  by move: mm; rewrite !qE !inE => /eqP mp /eqP ap; rewrite mp ap mem_head in na.
have md := mx m mm mmax.
have m0 : m != zero by case: md => /eqP.
have kd : const den m -> forall k, k \in set -> determined A con k.
  move=> cm k hk; have hp : k \in polys by rewrite pE inE hk orbT.
  apply: mx => // q /mmax h; apply: leq_trans h (leq_trans cm _).
  rewrite lt0n (sz_eq0 ok); apply/eqP => kz; rewrite kz in hp; have [r hr] := zr hp.
  by rewrite /const (leq_trans (mmax r hr) cm).
case: (boolP ((if zero != der m then ss_plus set (der m) else set) == [::])) => [/eqP n0|n0]; last first.
  exact: (step_old sE sc uc md kd n0 IH).
apply: single.
  rewrite /const leqNgt; apply/negP => /(der_nonzero ok ch) dz; move: n0; rewrite eq_sym dz => n0.
  by have := ss_plus_mem ss set (der m) (der m); rewrite n0 mem_head.
move: n0; case: ifP => // _ n0; case: (set) n0 => // k l n0.
by have := ss_plus_mem ss (k :: l) (der m) k; rewrite n0 !inE eqxx orbT.
Qed.

(** The tables of _real_table. *)
Theorem old_table_right con polys (iter : int) ret : accepted A den con polys -> uniq (map fst con) ->
  (forall k s, dget con k = Ok s -> s \in [:: -1; 0; 1]) ->
  old_table A ss_of ss_plus setiter polys con iter = Ok ret ->
  forall (R : rcfType) (ev : {rmorphism C -> R}), sign_ok A den ev ->
    count (fun x => consistent den ev x.2) ret = consistent den ev con /\
    forall x, List.In x ret -> [/\ extends con x.2,
      (forall p, p \in polys -> p \in rows x.1 \/ exists2 q, q \in rows x.1 & reduces A x.2 p q) &
      consistent den ev x.2 -> condensed den ev (rows x.1) x.1].
Proof.
move=> acc uc sc; rewrite /old_table; case: ifP => // _ E R ev sgn.
have [h2 h3] := old_right acc sc uc E.
split=> [|x hx]; first exact: (h3 (Point sgn)).
have gx := h2 _ hx; split=> [||cx]; [exact: (og_ext gx)|exact: (og_rows gx)|].
have [prs [sh pt tk]] := og_tab gx; have [xs tx] := tk (Point sgn) cx.
by apply: points_condensed sh pt tx _.
Qed.
End Facts.
