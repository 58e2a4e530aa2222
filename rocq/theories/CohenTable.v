(** real_table: its tables are right, and every parameter value that is
    consistent with the context is consistent with one of the resulting contexts. *)
From mathcomp Require Import all_ssreflect all_algebra all_real_closed.
From mathcomp.zify Require Import zify.
From Coq Require Import String.
From Verif Require Import Py MuchModel MuchSpec MuchSeq MuchDiag MuchStep MuchRoot MuchSem.
From Verif Require Import CohenModel CohenSpec CohenExp CohenCopy CohenSem CohenExt CohenStep CohenBack.

Set Implicit Arguments.
Unset Strict Implicit.
Unset Printing Implicit Defensive.
Import GRing.Theory Num.Theory Order.TTheory.
Local Open Scope ring_scope.

Lemma sumn_cnt (T : Type) (w : T -> bool) (l : seq T) : sumn [seq (w x : nat) | x <- l] = count w l.
Proof. by elim: l => //= x l ->. Qed.

Lemma fold_fuel (X Y V : Type) (f : nat -> seq Y -> X -> res (seq Y)) (Post : Y -> Prop) (w : V -> Y -> bool)
    (cnt : V -> X -> nat) (l : seq X) :
  (forall x, List.In x l -> exists N new, [/\ forall n ret, (N <= n)%N -> f n ret x = Ok (ret ++ new),
     forall y, List.In y new -> Post y & forall v, count (w v) new = cnt v x]) ->
  exists N new, [/\ forall n ret, (N <= n)%N -> foldM (f n) ret l = Ok (ret ++ new),
     forall y, List.In y new -> Post y & forall v, count (w v) new = sumn (map (cnt v) l)].
Proof.
elim: l => [|x l IH] h; first by exists 0%N, [::]; split=> // n ret _; rewrite /= cats0.
have [N1 [n1 [e1 p1 c1]]] := h x (or_introl erefl).
have [y hy|N2 [n2 [e2 p2 c2]]] := IH; first by apply: h; right.
exists (maxn N1 N2), (n1 ++ n2); split.
- by move=> n ret; rewrite geq_max => /andP[h1 h2]; rewrite foldM_cons e1 // bind_ok e2 // catA.
- by move=> y /List.in_app_iff[/p1|/p2].
- by move=> v; rewrite count_cat c1 c2.
Qed.

Section Table.
Variables (P : eqType) (K : realDomainType) (A : algebra P K).
Variables (C : idomainType) (den : P -> {poly C}).
Hypothesis ok : algebra_contract A den.
Hypothesis scal : scalars_exact A den.
Hypothesis ch : [char C] =i pred0.
Variables (ss_of : seq P -> seq P) (ss_plus : seq P -> P -> seq P).
Hypothesis ss : degree_sets A ss_of ss_plus.
Variable setiter : seq P -> seq P.
Hypothesis order : set_order setiter.
Notation table := (diagram P [eqType of rat]).
Notation context := (context P).
Implicit Types (D T : table) (con : context) (p q k : P) (v : point A den) (polys : seq P).

Local Notation zero := (a_zero A).
Local Notation hv := (a_has_variable A).
Local Notation LC := (a_LC A).
Local Notation rem p q := (a_pseudo_div A p q).2.
Local Notation der := (a_derivative A).
Local Notation sz p := (size (den p)).
Local Notation real_table := (real_table A ss_of ss_plus setiter).

Variable Gd : P -> Prop.
Hypothesis Gd_tail : forall p, Gd p -> Gd (a_tail A p).
Hypothesis Gd_der : forall p, Gd p -> Gd (der p).
Hypothesis Gd_rem : forall p q, Gd p -> Gd q -> q != zero -> (sz q <= sz p)%N -> Gd (rem p q).
Local Notation newkeys := (newkeys A Gd).

Lemma degE p : deg A p = (sz p)%:Z - 1.
Proof.
rewrite /deg; case: (eqVneq p zero) => [->|]; first by rewrite (den_zero ok) size_poly0.
by rewrite -(sz_eq0 ok) (den_degree ok); case: (sz p) => // n _; rewrite /= -addn1 PoszD addrK.
Qed.

Lemma deg_pos p : (0 < deg A p) = (1 < sz p)%N.
Proof. by rewrite degE subr_gt0 ltz_nat. Qed.

Lemma deg_ge0 p : (0 <= deg A p) = (p != zero).
Proof. by rewrite degE subr_ge0 lez_nat lt0n (sz_eq0 ok). Qed.

Definition sgn_con con : Prop := forall k s, dget con k = Ok s -> s \in signs.

Lemma sgn_new con c : sgn_con con -> newkeys con c -> sgn_con c.
Proof. by move=> h n k s /n[/h|[]]. Qed.

(** An entry of the result. *)
Record good con polys (x : table * context) : Prop := {
  g_ext : extends con x.2;
  g_new : newkeys con x.2;
  g_uniq : uniq (map fst con) -> uniq (map fst x.2);
  g_lc : forall p, p \in polys -> hv (LC p) -> dmem x.2 (LC p);
  g_tab : exists prs, [/\ shape A x.1 prs, points x.1 prs, rows x.1 =i polys &
    forall v, cs v x.2 -> exists xs, tok den (pev v) x.1 prs xs]
}.

Definition right con polys (ret : seq (table * context)) : Prop :=
  (forall x, List.In x ret -> good con polys x) /\ forall v, count (fun x => cs v x.2) ret = cs v con.

(** *** A single constant. *)
Lemma const_row p s q : row (const_table p s) q = if q == p then [:: (0, s); (1 / 2%:R, s); (1, s)] else [::].
Proof. by rewrite /row /const_table /=; case: eqP. Qed.

Lemma const_cell p s c : cell (const_table p s) p c = if c \in cols3 then Ok s else Err KeyError.
Proof.
rewrite /cell const_row eqxx /cols3 !inE /=; case: (c == 0) => //; case: (c == 1 / 2%:R) => //.
Qed.

Lemma const_good con polys p s : const den p -> polys =i [:: p] -> sgn_con con ->
  (hv (LC p) -> dmem con (LC p)) -> sign_context_lookup A con (LC p) = Ok s ->
  good con polys (const_table p s, con).
Proof.
move=> cp pE sc kn lk; have LCp := scal.2 _ cp; rewrite LCp in kn lk.
have sE v : cs v con -> s = sgz (cvalue den (pev v) p).
  move=> h; move: lk; rewrite /sign_context_lookup; case: ifP => [nv [<-]|_]; first exact: (pok v).
  by case: ifP => // _ Ek; exact: csP h Ek.
have ssg : s \in signs.
  move: lk; rewrite /sign_context_lookup; case: ifP => [nv [<-]|_]; first by have [] := scal.1 _ cp nv.
  by case: ifP => // _; exact: sc.
have vE q c : q \in rows (const_table p s) -> vd (const_table p s) q c = if c \in cols3 then s else 0.
  by rewrite inE => /eqP->; rewrite /vd const_cell; case: ifP.
have cE : allcols [:: (1 / 2%:R, 1)] = cols3 by [].
split=> //=; first by move=> k t; left.
  by move=> q; rewrite pE inE => /eqP->; rewrite LCp.
exists [:: (1 / 2%:R, 1)]; split=> //.
- split=> //.
  + by move=> q; rewrite inE => /eqP-> c; rewrite cE; apply/cols_cell/idP => [[w]|h]; rewrite const_cell;
      [case: ifP|rewrite h; eexists].
  + move=> c; rewrite inE => /eqP->; apply/hasPn => q hq; rewrite /isroot !vE //.
    by rewrite -cE !inE !eqxx !orbT /=; case: eqP.
  + by move=> q c hq _; rewrite cE !vE // => ->; rewrite inE eqxx.
  + by move=> q c hq; rewrite vE //; case: ifP.
- move=> v h; exists [::]; have Ep : map_poly (pev v) (den p) = (cvalue den (pev v) p)%:P.
    by apply: (const_E ok); rewrite leNgt deg_pos -leqNgt.
  have rp q : q \in rows (const_table p s) -> q = p by rewrite inE => /eqP.
  split.
  + move=> y _ _ q hq; rewrite vE // (rp q hq) Ep hornerC -sE //.
  + by move=> q hq; rewrite vE // (rp q hq) Ep lsg_const -sE.
  + by move=> q hq; rewrite vE // (rp q hq) Ep usg_const -sE.
Qed.

Lemma initial_ok con polys p : const den p -> Gd p -> polys =i [:: p] -> sgn_con con ->
  exists2 ret, get_initial_table A 2 p con = Ok ret & right con polys ret.
Proof.
move=> cp gp pE sc; rewrite /get_initial_table deg_pos ltnNge; rewrite /const in cp; rewrite cp /=.
case hvp: (hv (LC p)) => /=; last first.
  eexists; first by []; split=> [x [<-|//]|v /=]; last by rewrite addn0.
  by apply: const_good => //; rewrite /sign_context_lookup ?hvp.
case dm: (dmem con (LC p)) => /=.
  have [s Es] := dmem_get dm; have lk : sign_context_lookup A con (LC p) = Ok s.
    by rewrite /sign_context_lookup hvp dm.
  rewrite lk bind_ok; eexists; first by []; split=> [x [<-|//]|v /=]; last by rewrite addn0.
  exact: const_good.
have dmd s : dmem (dset con (LC p) s) (LC p) by rewrite /dmem keys_dset mem_head.
have lk s : sign_context_lookup A (dset con (LC p) s) (LC p) = Ok s.
  by rewrite /sign_context_lookup hvp dmd dget_dset eqxx.
have gs s : s \in signs -> good con polys (const_table p s, dset con (LC p) s).
  move=> hs; have ex : extends con (dset con (LC p) s).
    by apply: extends_dset => w Ew; have := dget_mem Ew; rewrite dm.
  have nk : newkeys con (dset con (LC p) s).
    by apply: newkeys_dset => // k t; left.
  have [_ _ _ g4 g5] := const_good cp pE (sgn_new sc nk) (fun _ => dmd s) (lk s).
  by split=> //; exact: uniq_dset.
rewrite !dmd !lk !bind_ok; eexists; first by []; split=> [x|v].
  by rewrite /= => -[<-|[<-|[<-|//]]]; exact: gs.
have := count_tried v (negbT dm); rewrite /= !addn0 => <-; by [].
Qed.

Lemma real_tableE n polys con m set : polys <> [::] -> ss_of polys = m :: set ->
  real_table n.+1 polys con =
  let needed := if zero != der m then ss_plus set (der m) else set in
  if needed == [::] then get_initial_table A 2 m con
  else
    let! x := expand_context A n [:: [::]] con needed 0 in
    let: (h, exp_contexts) := x in
    foldM (fun ret (e : entry P) =>
      let: (con, pols, mpg) := e in
      let! needed_tables := real_table n (new_goal A m pols) con in
      extend_tables A setiter m polys needed pols (hget h mpg) needed_tables ret)
      [::] exp_contexts.
Proof.
move=> p0 E; rewrite [LHS]/CohenModel.real_table -/CohenModel.real_table; case Ep: polys p0 => [//|p l] _.
by rewrite -Ep E; cbv zeta; case: (if _ then _ else _).
Qed.

(** *** One step of the recursion. *)
Lemma der_nonzero p : (1 < sz p)%N -> der p != zero.
Proof.
move=> h; rewrite -(den_eq0 ok) (den_derivative ok); apply: contraTneq h => E.
have := congr1 (fun u : {poly C} => u`_(sz p).-2) E; rewrite coef_deriv coef0.
case Es: (sz p) => [|[|n]] //= /eqP; rewrite -mulr_natr mulf_eq0 ((charf0P C).1 ch n.+1) orbF.
by move=> /eqP l0; have := lead_coef_eq0 (den p); rewrite lead_coefE Es /= l0 eqxx -size_poly_eq0 Es.
Qed.

Section Step.
Variables (con : context) (polys : seq P) (m : P) (set : seq P).
Hypothesis sE : ss_of polys = m :: set.
Hypothesis gd : forall p, p \in polys -> Gd p.
Hypothesis sc : sgn_con con.
Hypothesis uc : uniq (map fst con).
Hypothesis m0 : m != zero.
Hypothesis md : determined A con m.
Hypothesis kd : const den m -> forall k, k \in set -> determined A con k.

Let needed := if zero != der m then ss_plus set (der m) else set.

Lemma polysE : polys =i m :: set.
Proof. by move=> p; rewrite -sE (ss_of_mem ss). Qed.

Lemma m_set : m \notin set.
Proof. by have := ss_of_uniq ss polys; rewrite sE => /andP[]. Qed.

Lemma m_max k : k \in set -> (sz k <= sz m)%N.
Proof.
move=> hk; have := ss_of_sorted ss polys; rewrite sE /= path_sortedE.
  by move=> /andP[/allP/(_ k hk)]; rewrite !degE ler_add2r lez_nat.
by move=> p q r h1 h2; exact: le_trans h2 h1.
Qed.

Lemma mem_needed k : (k \in needed) = (k \in set) || (k == der m) && (der m != zero).
Proof.
rewrite /needed eq_sym; case: ifP => h; last by rewrite andbF orbF.
by rewrite (ss_plus_mem ss) inE andbT orbC.
Qed.

Lemma needed_prop k : k \in needed -> [/\ (sz k <= sz m)%N, k != m & Gd k].
Proof.
rewrite mem_needed => /orP[hk|/andP[/eqP-> _]].
  split; first exact: m_max; last by apply: gd; rewrite polysE inE hk orbT.
  by apply: contraNneq m_set => <-.
have lt := sz_der ok m0; split; first exact: ltnW.
  by apply: contraTneq lt => ->; rewrite ltnn.
by apply: Gd_der; apply: gd; rewrite polysE mem_head.
Qed.

Section Entry.
Variables (h : heap P) (e : entry P).
Hypothesis eo : entry_ok A Gd [:: [::]] con needed 0 h e.
Let con' := e.1.1.
Let pols := e.1.2.
Let goal := new_goal A m pols.

Lemma pols_prop q : q \in pols -> [/\ (sz q <= sz m)%N, q != m & q = zero \/ determined A con' q].
Proof.
move=> /(eo_ps eo)[k /needed_prop[s1 nm _] r]; have [s2 s3] := reduces_size ok r.
split; [exact: leq_trans s2 s1| |exact: reduces_end ok _ _ _ r].
apply: contraNneq nm => E; rewrite -E s3 //; apply/eqP; rewrite eqn_leq s2 /=.
by rewrite E.
Qed.

Lemma Gd_reduces c k q : Gd k -> reduces A c k q -> Gd q.
Proof. by move=> g r; elim: r g => {k q} // k q hk E _ IH /Gd_tail. Qed.

Lemma pols_Gd q : q \in pols -> Gd q.
Proof. by move=> /(eo_ps eo)[k /needed_prop[_ _ g]]; exact: Gd_reduces. Qed.

Lemma md' : determined A con' m.
Proof. exact: determined_mono (eo_ext eo) md. Qed.

Lemma sc' : sgn_con con'.
Proof. exact: sgn_new sc (eo_new eo). Qed.

Lemma mem_goal p : p \in goal <-> p != zero /\
  (p \in pols \/ exists g, [/\ g \in pols, (1 < sz g)%N & p = rem m g]).
Proof.
rewrite mem_filter deg_ge0 mem_cat; split=> [/andP[n0 h1]|[n0 h1]]; [split=> //|rewrite n0 /=].
  case/orP: h1 => [|/mapP[g]]; first by left.
  by rewrite mem_filter deg_pos => /andP[dg hg] ->; right; exists g.
apply/orP; case: h1 => [|[g [hg dg ->]]]; [by left|right].
by apply/mapP; exists g => //; rewrite mem_filter deg_pos dg hg.
Qed.

Lemma rem_size g : g \in pols -> (1 < sz g)%N -> (sz (rem m g) < sz g)%N.
Proof.
move=> hg dg; apply: (sz_rem ok); first by rewrite -(sz_eq0 ok); case: (sz g) dg.
by have [] := pols_prop hg.
Qed.

Lemma goal_prop p : p \in goal -> [/\ (sz p <= sz m)%N, p != m & Gd p].
Proof.
move=> /mem_goal[n0 [hp|[g [hg dg ->]]]].
  by have [s1 s2 _] := pols_prop hp; split=> //; exact: pols_Gd.
have [s1 _ _] := pols_prop hg; have lt := leq_trans (rem_size hg dg) s1.
split; first exact: ltnW; first by apply: contraTneq lt => ->; rewrite ltnn.
apply: Gd_rem => //; [by apply: gd; rewrite polysE mem_head|exact: pols_Gd|].
by rewrite -(sz_eq0 ok); case: (sz g) dg.
Qed.

(** Those of the largest size come from [set]. *)
Lemma goal_large p : p \in goal -> sz p = sz m -> p \in set.
Proof.
move=> /mem_goal[n0 [hp|[g [hg dg ->]]]] Es; last first.
  have [s1 _ _] := pols_prop hg; have := leq_trans (rem_size hg dg) s1.
  by rewrite Es ltnn.
have /(eo_ps eo)[k hk r] := hp; have [s2 s3] := reduces_size ok r; have [s1 _ _] := needed_prop hk.
have pk : p = k by apply: s3; apply/eqP; rewrite eqn_leq s2 Es s1.
move: hk; rewrite mem_needed -pk => /orP[//|/andP[/eqP pd _]].
by have := sz_der ok m0; rewrite -pd Es ltnn.
Qed.

Lemma goal_accepted : goal <> [::] -> accepted A den con' goal.
Proof.
move=> g0; right; split=> //.
  move=> p /mem_goal[n0 [hp|[g [hg dg Ep]]]] mx.
    by have [_ _ [Ez|//]] := pols_prop hp; rewrite Ez eqxx in n0.
  have : g \in goal by apply/mem_goal; split; [rewrite -(sz_eq0 ok); case: (sz g) dg|left].
  by move/mx; rewrite leqNgt Ep rem_size.
by move/mem_goal => [/eqP].
Qed.

(** The derivative is there. *)
Lemma der_pols v : cs v con' -> (1 < sz m)%N ->
  exists2 d, d \in pols & map_poly (pev v) (den d) = (map_poly (pev v) (den m))^`().
Proof.
move=> cv h1; have hd : der m \in needed by rewrite mem_needed eqxx der_nonzero // orbT.
have [q _ [r hq]] := entry_pick eo hd; exists q => //.
by rewrite -(reduces_E ok cv r) (den_derivative ok) deriv_map.
Qed.

Lemma goal_nil v : needed != [::] -> goal = [::] -> ~~ cs v con'.
Proof.
move=> n0 g0; apply/negP => cv.
suff [q hq] : exists q, q \in goal by rewrite g0 in hq.
case: (ltnP 1 (sz m)) => [h1|c1].
  have [d hd Ed] := der_pols cv h1; exists d; apply/mem_goal; split; last by left.
  apply/eqP => dz; move: Ed; rewrite dz (den_zero ok) rmorph0 => /esym/eqP.
  rewrite -size_poly_eq0 size_deriv.
  have lc := determined_lc ok scal cv md'.
  rewrite size_map_poly_id0 //; by case: (sz m) h1 => [|[]].
case En: needed n0 => [//|k l] _; have hk : k \in needed by rewrite En mem_head.
have hs : k \in set.
  move: hk; rewrite mem_needed => /orP[//|/andP[/eqP _]].
  by rewrite -(sz_eq0 ok); have := sz_der ok m0; case: (sz _) (sz m) c1 => [|a] [|[|b]].
have dk := determined_mono (eo_ext eo) (kd c1 hs).
have [q _ [r hq]] := entry_pick eo hk; exists q; rewrite (determined_reduces dk r) in hq *.
by apply/mem_goal; split; [case: dk => /eqP|left].
Qed.

(** *** One table. *)
Section One.
Variables (T : table) (tc : context).
Hypothesis n0 : needed != [::].
Hypothesis g0 : goal <> [::].
Hypothesis gx : good con' goal (T, tc).

Lemma tc_con : extends con tc.
Proof. exact: extends_trans (eo_ext eo) (g_ext gx). Qed.

Lemma tc_sgn : sgn_con tc.
Proof. exact: sgn_new sc' (g_new gx). Qed.

Lemma tc_cs v : cs v tc -> cs v con'.
Proof. by apply: cs_extends (g_ext gx); exact: (eo_uniq eo). Qed.

Lemma tc_lc p : p \in polys -> hv (LC p) -> dmem tc (LC p).
Proof.
rewrite polysE inE => /orP[/eqP->|hp] hm.
  have [_ [|[s Es _]]] := determined_mono tc_con md; first by rewrite hm.
  exact: dget_mem Es.
have hn : p \in needed by rewrite mem_needed hp.
have [q _ [r _]] := entry_pick eo hn; have [s Es] := dmem_get (reduces_lc r hm).
exact: dget_mem (g_ext gx Es).
Qed.

Lemma goal_readable p : (p != zero -> p \in goal) -> readable A T tc p.
Proof.
move=> hp; have [prs [_ _ rE _]] := g_tab gx; split=> [dp|le hvp].
  by rewrite rE; apply: hp; rewrite -deg_ge0 ltW.
have LCp := scal.2 _ (deg_const ok le).
by have := g_lc gx (p := p); rewrite LCp /=; apply=> //; apply: hp; rewrite -(LC_eq0 ok) (hv_nonzero ok) // !LCp.
Qed.

Lemma m_sign : exists s, [/\ sign_context_lookup A tc (LC m) = Ok s, s != 0 & s \in signs].
Proof.
have [_ dm] := determined_mono tc_con md; rewrite /sign_context_lookup; case hm: (hv (LC m)) => /=.
  case: dm => [|[s Es s0]]; first by rewrite hm.
  by exists s; rewrite (dget_mem Es); split=> //; exact: tc_sgn Es.
exists (a_sign A (LC m)); have [|h1 h2] := scal.1 _ (LC_const ok m); first by rewrite hm.
by split=> //; apply/eqP => /h2/eqP; rewrite (LC_eq0 ok) (negbTE m0).
Qed.

Lemma pols_nil : pols != [::].
Proof.
case En: needed n0 => [//|k l] _; have hk : k \in needed by rewrite En mem_head.
by have [q _ [_]] := entry_pick eo hk; rewrite -/pols; case: pols.
Qed.

Lemma one_ready prs s : shape A T prs -> rows T =i goal -> sign_context_lookup A tc (LC m) = Ok s ->
  s != 0 -> s \in signs -> ext_ready A T prs tc m pols s.
Proof.
move=> sh rE lk s0 ss'; split=> //.
- by apply/eqP => E; apply: g0; case: goal rE => // q l /(_ q); rewrite E mem_head.
- exact: tc_sgn.
- exact: pols_nil.
- by move=> q hq; apply: goal_readable => nz; apply/mem_goal; split=> //; left.
- by apply/negP => /pols_prop[_]; rewrite eqxx.
- by move=> q c hq; rewrite deg_pos => dq _ _; apply: goal_readable => nz; apply/mem_goal; split=> //; right; exists q.
- move=> q hq _ hvq; have [_ _ [qz|dq]] := pols_prop hq; first by have := hv_nonzero ok hvq; rewrite qz eqxx.
  have [_ [|[t Et _]]] := determined_mono (g_ext gx) dq; first by rewrite hvq.
  exact: dget_mem Et.
Qed.

Lemma one_right : ext_right A den tc m pols.
Proof.
split=> q hq; have [h1 _ h2] := pols_prop hq => //.
by case: h2 => [->|d]; [left|right; exact: determined_mono (g_ext gx) d].
Qed.

Notation step := (fun ret (x : table * context) =>
    let: (needed_table, table_con) := x in
    if m \in rows needed_table then Err (Exc "already done"%string)
    else
      let! ext := extend_single_table A setiter needed_table table_con m pols in
      if ext is Some T then
        let! mb := table_map_back setiter T needed (hget h e.2) in
        let! cond_mb := copy_table A setiter mb polys table_con in
        Ok (rcons ret (cond_mb, table_con))
      else Ok ret).

Lemma step_ok : exists new, [/\ forall ret, step ret (T, tc) = Ok (ret ++ new),
  forall y, List.In y new -> good con polys y & forall v, count (fun x => cs v x.2) new = cs v tc].
Proof.
have [prs [sh pt rE tk]] := g_tab gx; have [s [lk s0 ssg]] := m_sign.
have er := one_ready sh rE lk s0 ssg.
have -> : m \in rows T = false by apply/negP; rewrite rE => /goal_prop[_]; rewrite eqxx.
have rgt v : cs v tc -> right_at A den T prs tc m pols (pev v).
  move=> cv; split=> //; [exact: pok|exact: tk|].
  by rewrite (den_degree ok) => dm; apply: der_pols; [exact: tc_cs|case: (sz m) dm => [|[]]].
have [[E1 nr]|[T' [prs' [E1 rT' sh' pt' tk']]]] := extend_ok ok scal order er one_right.
  exists [::]; split=> // [ret|v]; first by rewrite E1 bind_ok cats0.
  by case cv: (cs v tc) => //; case: (nr _ (pev v)); exact: rgt.
set M := hget h e.2.
have pick k : k \in needed -> exists2 q, dget M k = Ok q & q \in rows T'.
  by move=> hk; have [q Eq [_ hq]] := entry_pick eo hk; exists q => //; rewrite rT' inE hq orbT.
have [mb E2 [rmb cmb]] := map_backE order pick.
have tred k : k \in needed -> reduces A con' k (target M needed k).
  by move=> hk; have [q Eq [r _]] := entry_pick eo hk; rewrite /target hk -/M Eq.
have frows k : k \in rows mb -> target M needed k \in rows T'.
  rewrite rmb mem_cat /target; case hk: (k \in needed) => //= _.
  by have [q -> hq] := pick k hk.
have fsize k : k \in rows mb -> (sz (target M needed k) <= sz k)%N.
  move=> _; case hk: (k \in needed); first by have [] := reduces_size ok (tred k hk).
  by rewrite /target hk.
have fcell k c : k \in rows mb -> cell mb k c = cell T' (target M needed k) c by move=> _; exact: cmb.
have shm := remap_shape ok frows fsize fcell sh'.
have pmb p : p \in polys -> p \in rows mb.
  rewrite polysE rmb mem_cat rT' !inE mem_needed => /orP[->|->]; by rewrite ?orbT.
have rd p : p \in polys -> readable A mb tc p.
  move=> hp; split=> [_|le hvp]; first exact: pmb.
  by have := tc_lc hp; rewrite (scal.2 _ (deg_const ok le)); apply.
have rm0 : rows mb != [::] by have := pmb m; rewrite polysE mem_head => /(_ isT); case: (rows mb).
have p0 : polys != [::] by have := polysE m; rewrite mem_head; case: (polys).
have [T2 E3 [c2 r2]] := copy_tableE order shm rm0 p0 rd.
have [sh2 pt2] := copy_shape ok shm tc_sgn scal p0 rd c2 r2.
exists [:: (T2, tc)]; split=> [ret|y [<-|//]|v]; [by rewrite E1 bind_ok E2 bind_ok E3 bind_ok cats1| |by rewrite /= addn0].
split=> /=.
- exact: tc_con.
- exact: newkeys_trans (eo_new eo) (g_new gx).
- by move=> u; apply: (g_uniq gx); exact: (eo_uniq eo).
- exact: tc_lc.
- exists (merged mb prs' polys); split=> // v cv.
  have [xs tx] := tk' _ _ (rgt v cv).
  have fE k : k \in rows mb -> map_poly (pev v) (den k) = map_poly (pev v) (den (target M needed k)).
    move=> _; case hk: (k \in needed); last by rewrite /target hk.
    exact: (reduces_E ok (tc_cs cv) (tred k hk)).
  have tm := remap_tok frows fcell fE tx.
  by have [xs' tx' _] := copy_sem ok (@pok _ _ _ _ _ v) shm tm cv rd c2 r2; exists xs'.
Qed.
End One.

Lemma split_known tables : (forall x, List.In x tables -> good con' goal x) ->
  split_constant A m tables = tables.
Proof.
move=> hx; rewrite /split_constant; case: ifP => // /andP[_ hm].
elim: tables hx => //= x tables IH hx.
have -> : dmem x.2 (LC m).
  have [_ [|[s Es _]]] := determined_mono (g_ext (hx x (or_introl erefl))) md'; first by rewrite hm.
  exact: dget_mem Es.
by rewrite cat1s; congr (_ :: _); apply: IH => y hy; apply: hx; right.
Qed.

Lemma tables_ok tables : needed != [::] -> goal <> [::] -> right con' goal tables ->
  exists new, [/\ forall ret, extend_tables A setiter m polys needed pols (hget h e.2) tables ret = Ok (ret ++ new),
    forall y, List.In y new -> good con polys y & forall v, count (fun x => cs v x.2) new = cs v con'].
Proof.
move=> n0 g0 [gx cx]; rewrite /extend_tables split_known //.
match goal with |- context [foldM ?f _ _] => set F := f end.
have [x hx|N [new [e1 e2 e3]]] := @fold_fuel _ _ (point A den) (fun=> F) (good con polys) (fun v x => cs v x.2)
    (fun v x => cs v x.2) tables.
  case: x hx => T tc hx; have [new [e1 e2 e3]] := step_ok n0 g0 (gx _ hx).
  by exists 0%N, new; split=> // n ret _; exact: e1.
exists new; split=> // [ret|v]; first exact: (e1 N).
by rewrite e3 sumn_cnt cx.
Qed.
End Entry.

Lemma real_step : needed != [::] ->
  (forall h e, entry_ok A Gd [:: [::]] con needed 0 h e -> new_goal A m e.1.2 <> [::] ->
     exists N tables, (forall n, (N <= n)%N -> real_table n (new_goal A m e.1.2) e.1.1 = Ok tables) /\
       right e.1.1 (new_goal A m e.1.2) tables) ->
  exists N ret, (forall n, (N <= n)%N -> real_table n polys con = Ok ret) /\ right con polys ret.
Proof.
move=> n0 rec.
have [|||||h [es [Ex [_ eo cnt]]]] :=
  @expand_ok _ _ A _ den ok Gd Gd_tail (size needed + sz m).+1 [:: [::]] con needed 0 _ _ _ _ _ => //.
- by rewrite ltnS leq_addr.
- by move=> k /needed_prop[h _ _]; rewrite ltnS leq_add2l.
- by move=> k /needed_prop[].
pose F n ret (e : entry P) := let: (con, pols, mpg) := e in
  let! needed_tables := real_table n (new_goal A m pols) con in
  extend_tables A setiter m polys needed pols (hget h mpg) needed_tables ret.
have [[[c ps] a] he|N [new [e1 e2 e3]]] := @fold_fuel _ _ (point A den) F (good con polys) (fun v x => cs v x.2)
    (fun v e => cs v e.1.1) es.
  have eoe := eo _ he; case Eg: (new_goal A m ps) => [|g l].
    exists 1%N, [::]; split=> [[//|n] ret _|y //|v]; first by rewrite /F Eg /= cats0 /extend_tables /split_constant /= if_same.
    by have := goal_nil eoe v n0 Eg => /negbTE /= ->.
  have g0 : new_goal A m ps <> [::] by rewrite Eg.
  have [N [tables [h1 h2]]] := rec _ _ eoe g0; have [new [t1 t2 t3]] := tables_ok eoe n0 g0 h2.
  by exists N, new; split=> // n ret hn; rewrite /F h1 // bind_ok t1.
exists (maxn (size needed + sz m).+1 N).+1, new; split; last by split=> // v; rewrite e3 sumn_cnt cnt.
case=> [//|n]; rewrite ltnS geq_max => /andP[h1 h2].
have : polys <> [::] by have := polysE m; rewrite mem_head; case: (polys).
move=> p0; rewrite (real_tableE _ _ p0 sE); cbv zeta; rewrite -/needed (negbTE n0) (expand_mono h1 Ex) bind_ok.
exact: (e1 n [::] h2).
Qed.
End Step.

(** *** The recursion. *)
Definition solved con polys : Prop :=
  exists N ret, (forall n, (N <= n)%N -> real_table n polys con = Ok ret) /\ right con polys ret.

Lemma solved_single con polys p : polys =i [:: p] -> const den p -> Gd p -> sgn_con con -> solved con polys.
Proof.
move=> pE cp gp sc; have p0 : polys <> [::] by have := pE p; rewrite mem_head; case: (polys).
have [ret Ei rt] := initial_ok cp gp pE sc.
have pm : ss_of polys =i [:: p] by move=> q; rewrite (ss_of_mem ss) pE.
have sE : ss_of polys = [:: p].
  have := ss_of_uniq ss polys; case: (ss_of polys) pm => [|a [|b l]] pm; first by have := pm p; rewrite mem_head.
    by have := pm a; rewrite mem_head inE => /esym/eqP->.
  have := pm a; have := pm b; rewrite !inE !eqxx orbT => /esym/eqP-> /esym/eqP->.
  by rewrite cons_uniq mem_head.
exists 1%N, ret; split=> // -[//|n] _; rewrite (real_tableE _ _ p0 sE); cbv zeta.
have -> : (zero != der p) = false; last by [].
apply/negbTE; rewrite negbK eq_sym -(den_eq0 ok) (den_derivative ok).
by rewrite (size1_polyC cp) derivC.
Qed.

Lemma solved_step con polys d : accepted A den con polys -> (forall p, p \in polys -> Gd p) -> sgn_con con ->
  uniq (map fst con) -> (forall p, p \in polys -> (sz p <= d)%N) ->
  ((forall p, p \in polys -> (sz p < d)%N) -> solved con polys) ->
  (forall con' goal, accepted A den con' goal -> (forall p, p \in goal -> Gd p) -> sgn_con con' ->
     uniq (map fst con') -> (forall p, p \in goal -> (sz p <= d)%N) ->
     (size (undup [seq p <- goal | sz p == d]) < size (undup [seq p <- polys | sz p == d]))%N -> solved con' goal) ->
  solved con polys.
Proof.
move=> [[p pE cp]|[p0 mx zr]] gd sc uc bd small large.
  have gp : Gd p by apply: gd; rewrite pE mem_head.
  exact: (solved_single pE cp gp sc).
case sE: (ss_of polys) => [|m set].
  by case: polys p0 sE {mx zr gd bd small large} => // q l _ sE; have := ss_of_mem ss (q :: l) q; rewrite sE mem_head.
have pE := polysE sE; have mm : m \in polys by rewrite pE mem_head.
have mmax q : q \in polys -> (sz q <= sz m)%N by rewrite pE inE => /orP[/eqP->//|/(m_max sE)].
case: (ltnP (sz m) d) => [lt|ge]; first by apply: small => q /mmax h; exact: leq_ltn_trans lt.
have Ed : sz m = d by apply/eqP; rewrite eqn_leq ge bd.
have md := mx m mm mmax.
have m0 : m != zero by case: md => /eqP.
have kd : const den m -> forall k, k \in set -> determined A con k.
  move=> cm k hk; have hp : k \in polys by rewrite pE inE hk orbT.
  apply: mx => // q /mmax h; apply: leq_trans h (leq_trans cm _).
  rewrite lt0n (sz_eq0 ok); apply/eqP => kz; rewrite kz in hp; have [r hr] := zr hp.
  by rewrite /const (leq_trans (mmax r hr) cm).
have := @real_step con polys m set sE gd sc uc m0 md kd.
case: (boolP (_ == [::])) => [/eqP n0 _|n0 st].
  apply: (solved_single (p := m)) (gd _ mm) sc.
    have : set = [::].
      move: n0; case: ifP => // _ n0; case: (set) n0 => // k l n0.
      by have := ss_plus_mem ss (k :: l) (der m) k; rewrite n0 !inE eqxx orbT.
    by move=> s0 q; rewrite pE s0.
  rewrite /const leqNgt; apply/negP => /der_nonzero dz; move: n0; rewrite eq_sym dz => n0.
  by have := ss_plus_mem ss set (der m) (der m); rewrite n0 mem_head.
apply: st => // h e eo g0; apply: large.
- exact: (goal_accepted sE gd m0 eo g0).
- by move=> p /(goal_prop sE gd m0 eo)[].
- exact: sgn_new sc (eo_new eo).
- exact: (eo_uniq eo).
- by move=> p /(goal_prop sE gd m0 eo)[h1 _ _]; rewrite -Ed.
- rewrite -[(size _).+1]/(size (m :: undup [seq p <- new_goal A m e.1.2 | sz p == d])).
  apply: uniq_leq_size.
    rewrite /= undup_uniq andbT mem_undup mem_filter Ed eqxx /=; apply/negP.
    by move=> /(goal_prop sE gd m0 eo)[_]; rewrite eqxx.
  move=> p; rewrite inE !mem_undup !mem_filter => /orP[/eqP->|/andP[/eqP sp hp]]; first by rewrite Ed eqxx mm.
  have hg : p \in new_goal A m e.1.2 by rewrite mem_filter.
  rewrite sp eqxx pE inE (goal_large sE gd m0 eo hg) ?orbT //.
  by rewrite sp Ed.
Qed.

Theorem real_table_ok con polys : accepted A den con polys -> (forall p, p \in polys -> Gd p) -> sgn_con con ->
  uniq (map fst con) -> solved con polys.
Proof.
move=> ac gd sc uc; have [d bd] : exists d, forall p, p \in polys -> (sz p <= d)%N.
  elim: (polys) => [|q l [d h]]; first by exists 0%N.
  by exists (maxn (sz q) d) => p; rewrite inE leq_max => /orP[/eqP->|/h->]; rewrite ?leqnn ?orbT.
elim: d con polys ac gd sc uc bd => [|d IHd] con polys ac gd sc uc bd.
  move: {2}(size _) (leqnn (size (undup [seq p <- polys | sz p == 0%N]))) => k.
  elim: k con polys ac gd sc uc bd => [|k IHk] con polys ac gd sc uc bd hk;
    apply: (solved_step ac gd sc uc bd) => [|c g h1 h2 h3 h4 h5 h6].
  - by move=> h; case: ac => [[p pE _]|[p0 _ _]]; [have := h p; rewrite pE mem_head => /(_ isT)|
      case: (polys) p0 h => // q l _ /(_ q); rewrite mem_head => /(_ isT)].
  - by move: h6; rewrite ltnNge (leq_trans hk).
  - by move=> h; case: ac => [[p pE _]|[p0 _ _]]; [have := h p; rewrite pE mem_head => /(_ isT)|
      case: (polys) p0 h => // q l _ /(_ q); rewrite mem_head => /(_ isT)].
  - by apply: IHk => //; rewrite -ltnS (leq_trans h6).
move: {2}(size _) (leqnn (size (undup [seq p <- polys | sz p == d.+1]))) => k.
elim: k con polys ac gd sc uc bd => [|k IHk] con polys ac gd sc uc bd hk;
  apply: (solved_step ac gd sc uc bd) => [h|c g h1 h2 h3 h4 h5 h6].
- by apply: IHd => // p /h.
- by move: h6; rewrite ltnNge (leq_trans hk).
- by apply: IHd => // p /h.
- by apply: IHk => //; rewrite -ltnS (leq_trans h6).
Qed.
End Table.
