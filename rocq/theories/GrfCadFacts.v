(** Facts about the cylindrical decomposition, and what a verdict means for
    sequents in one variable. *)
From mathcomp Require Import all_ssreflect all_algebra.
From mathcomp.zify Require Import zify.
From mathcomp.real_closed Require Import polyrcf.
From Coq Require Import String Permutation.
From Verif Require Import Py GrfModel GrfCad GrfSpec GrfFacts GrfCheck GrfLoop GrfRun GrfLine.

Set Implicit Arguments.
Unset Strict Implicit.
Unset Printing Implicit Defensive.
Import GRing.Theory Num.Theory Order.Theory.
Local Open Scope ring_scope.

(** ** Specification: what is assumed of single polynomials *)
Section CadSpec.
Variables (R : realDomainType) (L : lib R) (K : rcfType).
Variables (val : P L -> (var -> K) -> K) (uval : U L -> {poly K}).
Record cad_ok : Prop := CadOk {
  val_gen : forall v e, val (gen L v) e = e v;
  val_const : forall p e e', is_constant p -> val p e = val p e';
  (* a polynomial that is its leading term, in one variable *)
  val_pure : forall p v, p = lt_term p -> variables p = [:: v] ->
    exists c k, (0 < k)%N /\ forall e, val p e = c * e v ^+ k;
  val_univariate : forall p u v e, univariate p = Ok u -> all (pred1 v) (variables p) ->
    val p e = (uval u).[e v];
  variables_gen : forall v, variables (gen L v) = [:: v]
}.

(** What the polynomials of a run are: a class that contains those of the
    sequent and is not left by reductions, if there are any.  They are in the
    variable 0, and their roots are rational. *)
Variables (inj : R -> K) (C : pred (P L)).
Record rational_class : Prop := RationalClass {
  class_gen : C (gen L 0%N);
  class_nonconst : forall v, ~~ is_constant (gen L v);
  class_vars : forall p, C p -> all (pred1 0%N) (variables p);
  class_roots : forall p u, C p -> ~~ is_constant p -> univariate p = Ok u -> rational_roots inj uval u;
  class_isolated : forall ps us, all C ps -> mapM (@univariate R L) ps = Ok us ->
    isolated inj uval (no_rational us)
}.
Definition in_class (g : goal L) (hs : seq (atom L)) : bool :=
  C (apoly (main_goal g)) && all (fun h => C (apoly h)) (goal_hyps g ++ hs).
Definition closed (g : goal L) (hs : seq (atom L)) : Prop :=
  (forall p B, C p -> C (reduce p B)) \/ (gb g = [::] /\ all (fun h => ~~ is_eqn h) hs).
End CadSpec.

Section CadFacts.
Variables (R : realDomainType) (L : lib R) (O : oracle L).
Local Notation poly := (P L).
Local Notation asg := (dict [eqType of var] R).
Implicit Types (d : asg) (p q : poly) (a h : atom L).

(** ** The projection order *)
Lemma stats_total : total stats_le.
Proof.
move=> [[a b] c] [[a' b'] c'] /=.
by case: (ltngtP a a') => //= _; case: (ltngtP b b') => //= _; exact: leq_total.
Qed.

Lemma proj_ord_perm (ps : seq poly) vars : perm_eq (compute_proj_ord ps vars) vars.
Proof. by rewrite /compute_proj_ord perm_rev perm_sort. Qed.

Lemma proj_ord_sorted (ps : seq poly) vars :
  sorted (fun v w => stats_le (var_stats ps w) (var_stats ps v)) (compute_proj_ord ps vars).
Proof.
rewrite /compute_proj_ord rev_sorted; apply: sort_sorted => v w; exact: stats_total.
Qed.

(** ** The sample points assign every variable *)
Lemma lift_cells_size w i ord (sets : seq (seq poly)) l og num ambient cells out :
  lift_cells O w i ord sets l og num ambient cells = Ok out ->
  all (fun c => size c == l.+1) cells -> all (fun c => size c == l.+2) out.
Proof.
elim: cells i out => [|pt cells IH] i out /=; first by case=> <-.
move=> H; case: (bind_inv H) => st Est {H} H; case: (bind_inv H) => sts Es {H} [<-] /andP[/eqP Sp Sc].
rewrite all_cat (IH _ _ Es Sc) andbT; move: Est; rewrite /stack_over_cell => H.
case: (bind_inv H) => next _ {H}; case: og {Es IH} => // g H; case: (bind_inv H) => t _ {H}.
case: t => [[<-] //|] H; case: (bind_inv H) => ris _ {H} H; case: (bind_inv H) => v _ {H} [<-].
by apply/allP => c /mapP[x _ ->]; rewrite size_rcons Sp.
Qed.

Lemma lift_levels_size w n l ord (sets : seq (seq poly)) og num ambient cells out :
  lift_levels O w n l ord sets og num ambient cells = Ok out ->
  all (fun c => size c == l.+1) cells -> all (fun c => size c == l + n.+1)%N out.
Proof.
elim: n l cells => [|n IH] l cells /=; first by case=> <-; rewrite addn1.
move=> H; case: (bind_inv H) => cs Ec {H} /IH + Sc; rewrite addSnnS; apply.
by rewrite all_sort; exact: lift_cells_size Ec Sc.
Qed.

Lemma sample_keys n num w og (top : seq poly) ambient ds t :
  sample_pt_dicts O n num w og top ambient = Ok (ds, t) ->
  forall d, List.In d ds -> perm_eq (map fst d) (iota 0 n).
Proof.
rewrite /sample_pt_dicts; set ord := compute_proj_ord _ _ => H.
case: (bind_inv H) => sets _ {H} H; case: (bind_inv H) => base _ {H} H.
case: (bind_inv H) => ris _ {H} H; case: (bind_inv H) => v Ev {H} H.
case: (bind_inv H) => pts Ep {H} [<- _] d Id; have [pt Ipt ->] := In_map Id; move=> {Id}.
have P1 := proj_ord_perm (filter_proj_set top) (iota 0 n); rewrite -/ord in P1.
have n0 : (0 < n)%N.
  by case: n ord P1 Ev {Ep} => // ord; rewrite /= => /perm_nilP ->.
have S1 : size pt = n.
  have S0 (l : seq R) : all (fun c => size c == 1%N) [seq [:: c] | c <- l] by apply/allP => c /mapP[x _ ->].
  by apply/eqP; have := In_all (lift_levels_size Ep (S0 _)) Ipt; rewrite add0n prednK.
by rewrite /sp_dict -/unzip1 unzip1_zip // (perm_size P1) size_iota S1.
Qed.

(** ** C68: without the goal nothing can be lifted *)
Lemma sample_no_goal n num w g (top : seq poly) ambient r : (1 < n)%N ->
  sample_pt_dicts O n num w (Some g) top ambient = Ok r ->
  sample_pt_dicts O n num w None top ambient = Err AttributeError.
Proof.
case: n => [|[|n]] // _; rewrite /sample_pt_dicts.
set ord := compute_proj_ord _ _ => H.
case: (bind_inv H) => sets Es {H} H; rewrite Es bind_ok; case: (bind_inv H) => base Eb {H} H; rewrite Eb bind_ok.
case: (bind_inv H) => ris Er {H} H; rewrite Er bind_ok; case: (bind_inv H) => v Ev {H} H; rewrite Ev bind_ok.
case: (bind_inv H) => pts Ep {H} _; case: (bind_inv Ep) => cs Ec _.
suff [c [l E]] : exists c l, sector_sps O [:: 0%N & w] ris 1 ambient v = c :: l.
  move: Ec; rewrite E /= /stack_over_cell => H; case: (bind_inv H) => st H' _.
  by case: (bind_inv H') => next En _; rewrite En.
rewrite /sector_sps; case: ris {Ep Ec Er} => [|r0 ris].
  by case: [seq _ <- _ | _] => [|h hs]; [|case: (aop h)]; eexists; eexists.
set l := sort _ (_ ++ _); case E : l => [|c l']; last by exists c, l'.
by have : size l = 0%N by [rewrite E]; rewrite size_sort.
Qed.

Section Sem.
Variables (K : rcfType) (inj : R -> K) (val : poly -> (var -> K) -> K) (uval : U L -> {poly K}).
Hypotheses (LB : lib_ok inj val) (LC : cad_ok val uval) (LL : line_ok O inj uval).

(** ** The filtered set determines the signs *)
Lemma sg_exp (x y : K) k : Num.sg x = Num.sg y -> Num.sg (x ^+ k) = Num.sg (y ^+ k).
Proof. by move=> E; rewrite !sgrX E. Qed.

Lemma filter_signs (ps : seq poly) e e' :
  (forall q, q \in filter_proj_set ps -> Num.sg (val q e) = Num.sg (val q e')) ->
  forall p, p \in ps -> Num.sg (val p e) = Num.sg (val p e').
Proof.
move=> H p pps; case: (boolP (is_constant p)) => [c|nc]; first by rewrite (val_const LC e e' c).
have : pure_poly_base p \in filter_proj_set ps.
  by rewrite mem_undup; apply/mapP; exists p => //; rewrite mem_filter nc.
move/H; rewrite /pure_poly_base; case: eqP => // El; case Ev : (variables p) => [|v [|v' vs]] //.
rewrite !(val_gen LC) => Es; have [c [k [_ Ec]]] := val_pure LC El Ev.
by rewrite !Ec !sgrM (sg_exp _ Es).
Qed.

(** The zero sets of the polynomials that are not constant. *)
Lemma filter_zero (ps : seq poly) e :
  (forall p v c k, p \in ps -> ~~ is_constant p -> (forall e, val p e = c * e v ^+ k) -> c != 0) ->
  (exists2 q, q \in filter_proj_set ps & val q e = 0) <->
  (exists2 p, p \in ps & ~~ is_constant p /\ val p e = 0).
Proof.
move=> N; split=> [[q]|[p pps [nc z]]].
  rewrite mem_undup => /mapP[p]; rewrite mem_filter => /andP[nc pps] -> z; exists p => //; split=> //.
  move: z; rewrite /pure_poly_base; case: eqP => // El; case Ev : (variables p) => [|v [|v' vs]] //.
  rewrite (val_gen LC) => z; have [c [k [k0 Ec]]] := val_pure LC El Ev.
  by rewrite Ec z expr0n eqn0Ngt k0 mulr0.
exists (pure_poly_base p); first by rewrite mem_undup; apply/mapP; exists p; rewrite ?mem_filter ?nc.
move: z; rewrite /pure_poly_base; case: eqP => // El; case Ev : (variables p) => [|v [|v' vs]] //.
have [c [k [k0 Ec]]] := val_pure LC El Ev; rewrite (val_gen LC) Ec => /eqP.
by rewrite mulf_eq0 (negbTE (N p v c k pps nc Ec)) expf_eq0 k0 => /eqP.
Qed.

(** ** Truth depends on signs only *)
Lemma op_sg op (x y : K) : Num.sg x = Num.sg y -> op_true op x = op_true op y.
Proof.
move=> E; case: op => /=.
- by rewrite -sgr_gt0 E sgr_gt0.
- by rewrite -sgr_lt0 E sgr_lt0.
- by rewrite -sgr_le0 E sgr_le0.
- by rewrite -sgr_ge0 E sgr_ge0.
- by rewrite -sgr_eq0 E sgr_eq0.
- by rewrite -sgr_eq0 E sgr_eq0.
Qed.

Lemma goal_sg (g : goal L) e e' :
  (forall p, p \in apoly (main_goal g) :: [seq apoly h | h <- goal_hyps g] ->
     Num.sg (val p e) = Num.sg (val p e')) ->
  goal_true val g e = goal_true val g e'.
Proof.
move=> H; rewrite /goal_true; congr (_ ==> _); last by apply: op_sg; apply: H; rewrite mem_head.
have : forall p, p \in [seq apoly h | h <- goal_hyps g] -> Num.sg (val p e) = Num.sg (val p e').
  by move=> p pI; apply: H; rewrite inE pI orbT.
rewrite /all_true; elim: (goal_hyps g) => //= h hs IH Hs.
congr (_ && _); first by apply: op_sg; apply: Hs; rewrite mem_head.
by apply: IH => p pI; apply: Hs; rewrite inE pI orbT.
Qed.

(** A dictionary with all the variables. *)
Lemma eval_goal_full (g : goal L) d e :
  (forall p, p \in apoly (main_goal g) :: [seq apoly h | h <- goal_hyps g] ->
     all (fun v => dmem d v) (variables p)) ->
  agrees inj d e -> eval_goal g d = Ok true -> goal_true val g e.
Proof.
move=> V A; rewrite /eval_goal /goal_true.
have at_ a b : all (fun v => dmem d v) (variables (apoly a)) -> eval_atom a d = Ok (Some b) ->
    atom_true val a e = b.
  rewrite /eval_atom => Va; case: ifP => // _; case E : d => [//|kv d'] [<-]; rewrite -E.
  by rewrite (val_subst LB Va A) holds_cmp.
case E : (eval_atom (main_goal g) d) => [r|//]; rewrite bind_ok.
have Hs : some_hyp_false (goal_hyps g) d = Ok true -> all_true val (goal_hyps g) e = false.
  have : forall p, p \in [seq apoly h | h <- goal_hyps g] -> all (fun v => dmem d v) (variables p).
    by move=> p pI; apply: V; rewrite inE pI orbT.
  rewrite /all_true; elim: (goal_hyps g) => //= h hs IH Vs.
  case Eh : (eval_atom h d) => [b|//]; rewrite bind_ok.
  case: b Eh => [[]|] Eh; last 2 first.
  - by rewrite (at_ _ _ _ Eh) //; apply: Vs; rewrite mem_head.
  - by move/IH => ->; rewrite ?andbF // => p pI; apply: Vs; rewrite inE pI orbT.
  - by move/IH => ->; rewrite ?andbF // => p pI; apply: Vs; rewrite inE pI orbT.
by case: r E => [[]|] E H; [rewrite (at_ _ _ _ E) ?implybT //; apply: V; rewrite mem_head|rewrite Hs|rewrite Hs].
Qed.

(** ** One variable *)
Lemma sample1_complete num w og (top : seq poly) ambient ds t :
  sample_pt_dicts O 1 num w og top ambient = Ok (ds, t) ->
  (forall us, mapM (@univariate R L) (filter_proj_set top) = Ok us ->
     isolated inj uval (no_rational us) /\ forall u, List.In u us -> rational_roots inj uval u) ->
  (forall p, p \in top -> all (pred1 0%N) (variables p)) ->
  forall e, exists d e', [/\ List.In d ds, agrees inj d e', dmem d 0%N &
    forall p, p \in top -> Num.sg (val p e) = Num.sg (val p e')].
Proof.
rewrite /sample_pt_dicts /=; set ord := compute_proj_ord _ _.
have -> : ord = [:: 0%N].
  by have := proj_ord_perm (filter_proj_set top) [:: 0%N]; rewrite -/ord => /perm_small_eq ->.
move=> H; case: (bind_inv H) => ris Er {H} /=; case=> <- _ Ra V e.
have [us Eu] : exists us, mapM (@univariate R L) (filter_proj_set top) = Ok us.
  by case: (bind_inv Er) => us Eu _; exists us.
have [Iso Rr] := Ra us Eu.
have [s Is Ss] := line_complete LL (0%N :: w) ambient 0%N (e 0%N) (ltn0Sn 0) Eu Er Iso Rr.
exists [:: (0%N, s)], (fun v => inj s); split=> //.
- move: Is; elim: (sector_sps _ _ _ _ _ _) => //= c l IH; rewrite inE => /predU1P[->|/IH X]; by [left|right].
- by move=> v x; rewrite /dget /=; case: (_ == _) => // -[<-].
apply: filter_signs => q qI.
have Vq : all (pred1 0%N) (variables q).
  move: qI; rewrite mem_undup => /mapP[p]; rewrite mem_filter => /andP[_ /V Vp] ->.
  rewrite /pure_poly_base; case: eqP => // _; case Ev : (variables p) Vp => [|v [|v' vs]] //= Vp.
  - by rewrite Ev.
  - by rewrite (variables_gen LC).
  - by rewrite Ev.
have [u Iu Eq] : exists2 u, List.In u us & univariate q = Ok u.
  move: qI Eu; elim: (filter_proj_set top) us {Er Ra Iso Rr Ss} => // p l IH us; rewrite inE /= => I H.
  case: (bind_inv H) => u Eu {H} H; case: (bind_inv H) => us' Eus {H} [<-].
  case/predU1P: I => [->|I]; first by exists u => //; left.
  by have [u' Iu' Eu'] := IH us' I Eus; exists u' => //; right.
by rewrite !(val_univariate LC _ Eq Vq); exact: Ss.
Qed.

Variable C : pred poly.
Hypothesis RC : rational_class uval inj C.
Let C_gen := class_gen RC.
Let C_vars := class_vars RC.
Let C_roots := class_roots RC.
Let C_isolated := class_isolated RC.
Let gen_nonconst := class_nonconst RC.
Local Notation in_class := (in_class C).
Local Notation closed := (closed C).

Lemma all_C_perm (l l' : seq (atom L)) (p : pred (atom L)) : Permutation l l' -> all p l = all p l'.
Proof.
elim=> [|x l1 l2 _|x y l1|l1 l2 l3 _ + _] //=; try by move=> ->.
by rewrite andbCA.
Qed.

Lemma promotes_class s s' : promotes s s' -> in_class (dgoal s) (hyps s) -> closed (dgoal s) (hyps s) ->
  in_class (dgoal s') (hyps s') /\ closed (dgoal s') (hyps s').
Proof.
case=> h [Eg P _]; rewrite /GrfCadFacts.in_class /GrfCadFacts.closed !all_cat => /and3P[Cm Cg]; rewrite -(all_C_perm _ P) /= => /andP[Ch Cs] Cl.
have inj_C B a a' : (forall p B, C p -> C (reduce p B)) -> inject B a = Ok a' -> C (apoly a) -> C (apoly a').
  by move=> HC; case: B => // b B [<-] /= /HC.
move: Eg; rewrite /add_goal_hyp; case: Cl => [HC|[G0]]; last rewrite -(all_C_perm _ P) /= => /andP[ne nes].
- move=> H; case: (bind_inv H) => hB EB {H} H; case: (bind_inv H) => gh' Eh {H} [<-] /=.
  rewrite Cm Cs all_cat /= !andbT; split; last by left.
  apply/andP; split; last by case: (gb (dgoal s)) Eh => [[<-] //|b B E]; exact: inj_C E Ch.

  move: EB; case: (aop h); try by case=> <-.
  move=> H; case: (bind_inv H) => hs' Em {H} [<-] /=; move: Em Cg.
  elim: (goal_hyps (dgoal s)) hs' => [|a l IH] hs' /=; first by case=> <-.
  move=> H; case: (bind_inv H) => a' Ea {H} H; case: (bind_inv H) => l' El {H} [<-] /andP[Ca Cl] /=.
  by rewrite (inj_C _ _ _ HC Ea Ca) (IH _ El Cl).
rewrite /is_eqn in ne; rewrite G0; case: (aop h) ne => // _; rewrite !bind_ok => -[<-] /=.
all: by rewrite Cm Cs all_cat Cg /= Ch; split=> //; right; split.
Qed.

Lemma filter_class (ps : seq poly) : all C ps -> all C (filter_proj_set ps).
Proof.
move=> /allP A; apply/allP => q; rewrite mem_undup => /mapP[p]; rewrite mem_filter => /andP[_ /A Cp] ->.
rewrite /pure_poly_base; case: eqP => // _; have := C_vars Cp.
by case: (variables p) => [|v [|v' vs]] //= /andP[/eqP ->].
Qed.

Variable solve : nat -> seq constraint -> seq nat -> res (nat -> bool).

Lemma check1_sound num fuel partial k eps cs (top : seq poly) s r s' :
  check O solve (sample_pt_dicts O 1 num) fuel partial k eps cs top s = Ok (r, s') ->
  all C top -> in_class (dgoal s) (hyps s) -> closed (dgoal s) (hyps s) ->
  forall e, goal_true val (dgoal s') e.
Proof.
elim: fuel cs top s r s' => [|fuel IH] cs top s r s' //=.
set top' := top ++ _; move=> H; case: (bind_inv H) => -[ds t] Es {H} H Ct Cg Cl e.
have Ct' : all C top'.
  move: Cg; rewrite /GrfCadFacts.in_class all_cat => /and3P[Cm Ch _].
  by rewrite all_cat Ct /= Cm all_map.
have Ctt : all C t.
  move: Es; rewrite /sample_pt_dicts /= => H'; case: (bind_inv H') => ris _ {H'} [_ <-].
  exact: filter_class.
case: (bind_inv H) => -[o ob] Eb {H} /=; case: ob Eb => [bads|] Eb; last first.
  case=> _ <- /=.
  have [|p /(allP Ct')|d [e' [Id A Md Sg]]] := @sample1_complete num _ _ top' _ ds t Es _ _ e.
  - move=> us Eu; split; first by apply: C_isolated Eu; exact: filter_class.
    move=> u Iu; have : exists2 q, q \in filter_proj_set top' & univariate q = Ok u.
      move: Eu Iu; elim: (filter_proj_set top') us => [|q l IHl] us /=; first by case=> <-.
      move=> H; case: (bind_inv H) => u' Eu' {H} H; case: (bind_inv H) => us' Eus {H} [<-] [<-|Iu].
        by exists q; rewrite ?mem_head.
      by have [q' qI Eq'] := IHl _ Eus Iu; exists q' => //; rewrite inE qI orbT.
    case=> q qI; apply: C_roots; first exact: (allP (filter_class Ct')).
    move: qI; rewrite mem_undup => /mapP[p]; rewrite mem_filter => /andP[nc _] ->.
    by rewrite /pure_poly_base; case: eqP => // _; case: (variables p) => [|v [|v' vs]].
  - exact: C_vars.
  rewrite (@goal_sg _ e e') => [|p pI]; last by apply: Sg; rewrite mem_cat pI orbT.
  apply: (@eval_goal_full _ d) => //; last exact: (all_bads_none Eb).
  move=> p pI; have /allP Vp : all (pred1 0%N) (variables p).
    by apply: C_vars; apply: (allP Ct'); rewrite mem_cat pI orbT.
  by apply/allP => v /Vp /eqP ->.
have run1 : forall s2, promotes (Decide (hyps s) (dgoal s) o) s2 -> promotes s s2.
  by move=> s2 [h [P1 P2 P3]]; exists h.
case: cs => [l|] H.
  case: (bind_inv H) => -[[s2 inter] l'] /interactP/run1 P {H} H.
  have [Cg2 Cl2] := promotes_class P Cg Cl.
  by case: (bind_inv H) => -[r2 s3] /IH/(_ Ctt Cg2 Cl2) X {H} [_ <-]; exact: X.
case: (bind_inv H) => s2 /autoP/run1 P {H} H.
have [Cg2 Cl2] := promotes_class P Cg Cl.
by case: (bind_inv H) => -[r2 s3] /IH/(_ Ctt Cg2 Cl2) X {H} [_ <-]; exact: X.
Qed.

Lemma check1_valid num fuel partial k eps cs s r s' :
  goal_hyps (dgoal s) = [::] -> gb (dgoal s) = [::] ->
  check O solve (sample_pt_dicts O 1 num) fuel partial k eps cs [::] s = Ok (r, s') ->
  in_class (dgoal s) (hyps s) -> closed (dgoal s) (hyps s) ->
  forall e, sequent_true val s e.
Proof.
move=> G0 B0 Ec Ic Cl e; have [Rr _] := check_result Ec.
by apply: (run_sound LB G0 B0 Rr); exact: (check1_sound Ec).
Qed.
End Sem.
End CadFacts.
