(** Proofs about several goals on one RCF_GD_Decide object. *)
From mathcomp Require Import all_ssreflect all_algebra.
From mathcomp.zify Require Import zify.
From mathcomp.real_closed Require Import polyrcf.
From Coq Require Import String Permutation.
From Verif Require Import Py GrfModel GrfCad GrfSpec GrfFacts GrfCheck GrfLoop GrfRun GrfLine GrfCadFacts
  GrfInst GrfEx GrfEx2 GrfLin GrfLinInst GrfLinEx GrfOut GrfOutEx GrfAgain.

Set Implicit Arguments.
Unset Strict Implicit.
Unset Printing Implicit Defensive.
Import GRing.Theory Num.Theory Order.Theory.
Local Open Scope ring_scope.

Section Facts.
Variables (R : realDomainType) (L : lib R) (O : oracle L).
Variable solve : nat -> seq constraint -> seq nat -> res (nat -> bool).
Local Notation poly := (P L).
Local Notation asg := (dict [eqType of var] R).
Variable sample : addr -> option (goal L) -> seq poly -> seq (atom L) -> res (seq asg * seq poly).
Implicit Types (s : decide L) (o : object L) (l : seq (call L)).

(** [check_q] is [check] with one more result. *)
Lemma check_qE fuel partial k eps cs top s :
  check O solve sample fuel partial k eps cs top s =
  (let! f := check_q O solve sample fuel partial k eps cs top s in Ok f.1).
Proof.
elim: fuel cs top s => [|fuel IH] cs top s //=.
case: (sample _ _ _ _) => [[ds t]|//]; rewrite !bind_ok /=.
case: (all_bads _ _ _ _ _ _ _) => [[o [bads|]]|//]; rewrite !bind_ok //=.
case: cs => [cs|].
  by case: (interact _ _ _ _) => [[[s2 i] l']|//]; rewrite !bind_ok IH; case: (check_q _ _ _ _ _ _ _ _ _ _) => // -[[]].
by case: (auto _ _ _) => [s2|//]; rewrite !bind_ok IH; case: (check_q _ _ _ _ _ _ _ _ _ _) => // -[[]].
Qed.

Lemma foldM_rcons (A S : Type) (f : S -> A -> res S) (z : S) (l : seq A) a :
  foldM f z (rcons l a) = (let! z1 := foldM f z l in f z1 a).
Proof.
elim: l z => /= [|b l IH] z; first by case: (f z a).
by case: (f z b) => // z1; rewrite !bind_ok IH.
Qed.
Lemma asserted_rcons l c : asserted (rcons l c) = asserted l ++ asserted [:: c].
Proof. by elim: l => //= -[h hs|g|fu p k e cs] l -> //; rewrite /= -catA. Qed.
Lemma goals_rcons l c : goals (rcons l c) = goals l ++ goals [:: c].
Proof. by elim: l => //= -[h hs|g|fu p k e cs] l ->. Qed.

Lemma add_goal_main ps (g0 g : goal L) : foldM (@add_goal_hyp R L) g0 ps = Ok g -> main_goal g = main_goal g0.
Proof.
elim: ps g0 => [|p ps IH] g0 /=; first by case=> <-.
move=> H; case: (bind_inv H) => g1 E1 {H} /IH ->; move: E1; rewrite /add_goal_hyp => H.
by case: (bind_inv H) => hB _ {H} H; case: (bind_inv H) => gh' _ [<-].
Qed.
Lemma run_moves s s' : run_result s s' -> gb (dgoal s) = [::] -> all (fun h => ~~ is_eqn h) (hyps s) ->
  [/\ main_goal (dgoal s') = main_goal (dgoal s), gb (dgoal s') = [::] &
   Permutation (goal_hyps (dgoal s') ++ hyps s') (goal_hyps (dgoal s) ++ hyps s)].
Proof.
case=> ps Ef [Pm _] B0; rewrite -(all_C_perm _ Pm) all_cat => /andP[ne _].
have [|E1 E2] := promote_no_eqn Ef _ B0.
  by apply/eqP; rewrite -leqn0 leqNgt -has_count -all_predC.
split=> //; first exact: add_goal_main Ef.
by rewrite E1 -catA; apply: Permutation_app_head.
Qed.

(** What a check does to the object. *)
Lemma check_objP fuel partial k eps cs o r o' : check_obj O solve sample fuel partial k eps cs o = Ok (r, o') ->
  exists g g', [/\ ogoal o = Some g, ogoal o' = Some g' &
    check_q O solve sample fuel partial k eps cs (ostore o) (Decide (ohyps o) g (oorder o)) =
      Ok (r, Decide (ohyps o') g' (oorder o'), ostore o')].
Proof.
rewrite /check_obj; case Eg : (ogoal o) => [g|//] H.
case: (bind_inv H) => -[[r1 [hs g' vo]] t] E [<- <-] /=.
by exists g, g'.
Qed.
Lemma check_q_check fuel partial k eps cs top s r s' t :
  check_q O solve sample fuel partial k eps cs top s = Ok (r, s', t) ->
  check O solve sample fuel partial k eps cs top s = Ok (r, s').
Proof. by rewrite check_qE => ->. Qed.

(** The hypotheses that a check promotes are gone for the next goal. *)
Lemma check_spends fuel partial k eps cs o r o' g : check_obj O solve sample fuel partial k eps cs o = Ok (r, o') ->
  ogoal o = Some g -> gb g = [::] -> all (fun h => ~~ is_eqn h) (ohyps o) ->
  exists2 g', ogoal o' = Some g' & [/\ main_goal g' = main_goal g, gb g' = [::] &
    Permutation (goal_hyps g' ++ ohyps o') (goal_hyps g ++ ohyps o)].
Proof.
case/check_objP=> g1 [g' [-> Eg' /check_q_check/check_result[Rr _]]] [E1] B0 ne; exists g' => //.
by rewrite E1 in Rr; exact: (run_moves Rr B0 ne).
Qed.
(** Without a goal. *)
Lemma serve_no_goal l o : serve O solve sample (new_object L) l = Ok o -> goals l = [::] -> ogoal o = None.
Proof.
elim/last_ind: l o => [|l c IH] o; first by case=> <-.
rewrite /serve foldM_rcons goals_rcons => H; case: (bind_inv H) => o1 /IH {IH H} IH H.
case E : (goals l) => //= E'; move: (IH E) H; case: c E' => //= [h hs|fu p k e cs] _ G.
  by case=> <-.
by rewrite /check_obj G.
Qed.
Lemma check_no_goal l o fuel partial k eps cs : serve O solve sample (new_object L) l = Ok o -> goals l = [::] ->
  check_obj O solve sample fuel partial k eps cs o = Err AttributeError.
Proof. by move=> E G; rewrite /check_obj (serve_no_goal E G). Qed.
End Facts.

Section Sound.
Variables (R : realDomainType) (L : lib R) (O : oracle L) (K : rcfType) (inj : R -> K).
Variables (val : P L -> (var -> K) -> K) (uval : U L -> {poly K}).
Hypotheses (LB : lib_ok inj val) (LC : cad_ok val uval) (LL : line_ok O inj uval) (LN : lin_ok inj val uval).
Variables (n : nat) (C : pred (P L)).
Hypothesis SC : solvable_class inj uval C n.
Variable solve : nat -> seq constraint -> seq nat -> res (nat -> bool).
Variable num : nat.
Hypothesis num0 : (0 < num)%N.
Implicit Types (s : decide L) (o : object L) (l : seq (call L)).
Local Notation sample := (sample_pt_dicts O n num).

Lemma sample_store w og top hs ds t : sample w og top hs = Ok (ds, t) -> t = filter_proj_set top.
Proof.
rewrite /sample_pt_dicts => H'; case: (bind_inv H') => x1 _ {H'} H'.
case: (bind_inv H') => x2 _ {H'} H'; case: (bind_inv H') => x3 _ {H'} H'; case: (bind_inv H') => x4 _ {H'} H'.
by case: (bind_inv H') => x5 _ {H'} [_ <-].
Qed.
Lemma check_q_store fuel partial k eps cs top s r s' t :
  check_q O solve sample fuel partial k eps cs top s = Ok (r, s', t) -> all C top -> in_lin C s -> all C t.
Proof.
elim: fuel cs top s r s' t => [|fuel IH] cs top s r s' t //=.
set top' := top ++ _; move=> H; case: (bind_inv H) => -[ds t1] Es {H} H Ct Is.
have [Cm Ch] : C (apoly (main_goal (dgoal s))) /\ all C [seq apoly h | h <- goal_hyps (dgoal s)].
  move: Is; rewrite /in_lin /= all_cat => /and3P[/and3P[/andP[-> Wm] Cg _] _ _].
  by split=> //; rewrite all_map; apply: sub_all Cg => h /andP[].
have Ctt : all C t1 by rewrite (sample_store Es); apply: (filter_class_lin SC); rewrite all_cat Ct /= Cm.
case: (bind_inv H) => -[o ob] Eb {H} /=; case: ob Eb => [bads|] Eb; last by case=> _ _ <-.
have run1 : forall s2, promotes (Decide (hyps s) (dgoal s) o) s2 -> promotes s s2.
  by move=> s2 [h [P1 P2 P3]]; exists h.
case: cs => [cs|] H.
  case: (bind_inv H) => -[[s2 inter] l'] /interactP/run1 P {H} H.
  by case: (bind_inv H) => -[[r2 s3] t2] /IH/(_ Ctt (promotes_lin P Is)) X {H} [_ _ <-].
case: (bind_inv H) => s2 /autoP/run1 P {H} H.
by case: (bind_inv H) => -[[r2 s3] t2] /IH/(_ Ctt (promotes_lin P Is)) X {H} [_ _ <-].
Qed.

(** The invariant of a session: [A] has been asserted, [gs] were the goals. *)
Definition in_class (a : atom L) : bool := C (apoly a) && atom_wf a.
Definition all_hyps o : seq (atom L) := (if ogoal o is Some g then goal_hyps g else [::]) ++ ohyps o.
Definition inv o (A gs : seq (atom L)) : Prop :=
  [/\ all C (ostore o), forall h, List.In h (all_hyps o) -> List.In h A &
   match ogoal o with
   | None => gs = [::]
   | Some g => gb g = [::] /\ exists gs', gs = rcons gs' (main_goal g)
   end].
Lemma inv_lin o A gs g : inv o A gs -> ogoal o = Some g ->
  all in_class A -> all (fun h => ~~ is_eqn h) A -> all in_class gs -> in_lin C (Decide (ohyps o) g (oorder o)).
Proof.
case=> _ S + E; rewrite E => -[B0 [gs' ->]] cA nA; rewrite all_rcons => /andP[cm _].
rewrite /in_lin /= B0 eqxx /= -/(in_class _) cm /=; apply/andP; split; apply: all_In => h I.
  by apply: (In_all cA); apply: S; rewrite /all_hyps E.
by apply: (In_all nA); apply: S; apply/List.in_or_app; right.
Qed.
Lemma inv_check fuel partial k eps cs o r o' A gs : inv o A gs ->
  all in_class A -> all (fun h => ~~ is_eqn h) A -> all in_class gs ->
  check_obj O solve sample fuel partial k eps cs o = Ok (r, o') ->
  inv o' A gs /\ forall gs' g, gs = rcons gs' g -> forall e, all_true val A e -> atom_true val g e.
Proof.
move=> I cA nA cg Ec; have [g [g' [Eg Eg' Eq]]] := check_objP Ec.
have Il := inv_lin I Eg cA nA cg; have [Cs S Hg] := I.
have nH : all (fun h => ~~ is_eqn h) (ohyps o).
  by apply: all_In => h Ih; apply: (In_all nA); apply: S; apply/List.in_or_app; right.
rewrite Eg in Hg; have [B0 [gs0 E0]] := Hg.
have [g2 E2 [M B Pm]] := check_spends Ec Eg B0 nH; move: E2; rewrite Eg' => -[E2].
rewrite -{g2}E2 in M B Pm.
have S' h : List.In h (all_hyps o') -> List.In h A.
  by rewrite /all_hyps Eg' => J; apply: S; rewrite /all_hyps Eg; exact: Permutation_in Pm J.
have I' : inv o' A gs.
  by split=> //; [exact: check_q_store Eq Cs Il|rewrite Eg' M; split=> //; exists gs0].
split=> // gs1 g1 E1 e TA.
have -> : g1 = main_goal g by move: E1; rewrite E0 => /rcons_inj[].
have := check_lin_sound LB LC LL LN SC num0 (check_q_check Eq) Cs Il e.
rewrite /goal_true /= M => /implyP; apply; apply: all_In => h J.
by apply: (In_all TA); apply: S'; rewrite /all_hyps Eg'; apply/List.in_or_app; left.
Qed.
Lemma inv_serve l o : serve O solve sample (new_object L) l = Ok o ->
  all in_class (asserted l) -> all (fun h => ~~ is_eqn h) (asserted l) -> all in_class (goals l) ->
  inv o (asserted l) (goals l).
Proof.
elim/last_ind: l o => [|l c IH] o; first by case=> <-.
rewrite /serve foldM_rcons asserted_rcons goals_rcons !all_cat => H.
case: (bind_inv H) => o1 /IH {IH H} IH H /andP[cA cA'] /andP[nA nA'] /andP[cg cg'].
have {IH} I := IH cA nA cg; case: c H cA' nA' cg' => [h hs|g|fu p k e cs] /=.
- case=> <- _ _ _; rewrite !cats0; have [Cs S Hg] := I; split=> // x.
  rewrite /all_hyps /= catA => /(@List.in_app_or (atom L))[J|J]; apply/List.in_or_app; first by left; exact: S.
  by right.
- case=> <- _ _ _; rewrite !cats0; have [Cs S Hg] := I; split=> //=; last by split=> //; exists (goals l); rewrite cats1.
  by move=> x /= J; apply: S; apply/List.in_or_app; right.
- move=> H _ _ _; rewrite !cats0; case: (bind_inv H) => -[r o2] Ec [<-].
  by have [] := inv_check I cA nA cg Ec.
Qed.

(** Whatever was checked before: an accepted goal follows from all that has
    been asserted. *)
Lemma session_sound l o fuel partial k eps cs r o' gs g : serve O solve sample (new_object L) l = Ok o ->
  check_obj O solve sample fuel partial k eps cs o = Ok (r, o') ->
  all in_class (asserted l) -> all (fun h => ~~ is_eqn h) (asserted l) -> all in_class (goals l) ->
  goals l = rcons gs g -> forall e, all_true val (asserted l) e -> atom_true val g e.
Proof.
move=> Es Ec cA nA cg Eg; have I := inv_serve Es cA nA cg.
by have [_ X] := inv_check I cA nA cg Ec; exact: X Eg.
Qed.
(** The hypotheses of a later check are among those asserted. *)
Lemma session_hyps l o : serve O solve sample (new_object L) l = Ok o ->
  all in_class (asserted l) -> all (fun h => ~~ is_eqn h) (asserted l) -> all in_class (goals l) ->
  forall h, List.In h (ohyps o) -> List.In h (asserted l).
Proof.
move=> Es cA nA cg h J; have [_ S _] := inv_serve Es cA nA cg.
by apply: S; apply/List.in_or_app; right.
Qed.
(** Checking an accepted goal again changes nothing. *)
Hypothesis TO : total_ok O.
Lemma all_bads_true w i s ds k eps : (forall d, List.In d ds -> eval_goal (dgoal s) d = Ok true) ->
  all_bads O w i s ds k eps = Ok (vorder s, None).
Proof.
elim: ds i s => [|d ds IH] i s H //=.
rewrite /bad_subsets_on_dict (H d (or_introl erefl)) !bind_ok /= IH /= => [//|d' J].
by apply: H; right.
Qed.
Lemma check_again fuel (partial : bool) k eps cs top s : (0 < n)%N -> partial \/ n = 1%N -> all C top -> in_lin C s ->
  all (ring_atom n) (main_goal (dgoal s) :: goal_hyps (dgoal s)) -> (forall e, goal_true val (dgoal s) e) ->
  exists t, check_q O solve sample fuel.+1 partial k eps cs top s = Ok ([::], s, t).
Proof.
move=> n0 Pa Ct Il Rg T /=; set top' := top ++ _.
have At' : all (in_ring n) top'.
  have S : subpred C (in_ring n) by move=> p /(sclass_vars SC).
  case/and3P: Il => /= /andP[/andP[Cm _]]; rewrite all_cat => /andP[Cg _] _ _.
  rewrite all_cat (sub_all S Ct) /= S //= all_map; apply: sub_all Cg => h /andP[/S].
  by [].
have [|ds Es] := @sample_ok R L O TO K inj val uval LC LN n num [:: fuel.+1; 0%N] (if partial then Some (dgoal s) else None) top' (hyps s) n0 At'.
  by case: Pa => [->|->]; [left|right].
rewrite Es bind_ok all_bads_true ?bind_ok /=; first by exists (filter_proj_set top'); case: (s).
move=> d /(sample_keys Es) Pd; have d0 := keys_nonnil n0 Pd; have [e A] := agrees_exists inj d.
have Dm v : (v < n)%N -> dmem d v by move=> lt; rewrite /dmem (perm_mem Pd) mem_iota.
rewrite (eval_goal_total LB d0 _ _ A) ?T //.
  by apply: sub_all Rg => h /andP[/allP A1 _]; apply/allP => v /A1/Dm.
case/andP: Rg => /andP[_ Wm] Rg; rewrite /goal_wf /= Wm; apply: sub_all Rg => h /andP[_].
by [].
Qed.
Lemma session_again l o fuel partial k eps cs r o' : serve O solve sample (new_object L) l = Ok o ->
  check_obj O solve sample fuel partial k eps cs o = Ok (r, o') ->
  all in_class (asserted l) -> all (fun h => ~~ is_eqn h) (asserted l) -> all in_class (goals l) ->
  all (ring_atom n) (asserted l) -> all (ring_atom n) (goals l) -> (0 < n)%N ->
  forall fuel' (partial' : bool) k' eps' cs', partial' \/ n = 1%N ->
  exists t, check_obj O solve sample fuel'.+1 partial' k' eps' cs' o' =
    Ok ([::], Obj (ohyps o') (ogoal o') (oorder o') t).
Proof.
move=> Es Ec cA nA cg Ra Rg n0 fuel' partial' k' eps' cs' Pa; have I := inv_serve Es cA nA cg.
have [I' _] := inv_check I cA nA cg Ec; have [g [g' [Eg Eg' Eq]]] := check_objP Ec.
have Il := inv_lin I Eg cA nA cg; have Il' := inv_lin I' Eg' cA nA cg.
have T := check_lin_sound LB LC LL LN SC num0 (check_q_check Eq) (let: And3 c _ _ := I in c) Il.
have [Ct S] := I'; rewrite Eg' => -[_ [gs' Egs]].
have [|t Et] := @check_again fuel' partial' k' eps' cs' (ostore o') _ n0 Pa Ct Il' _ T.
  rewrite /=; move: Rg; rewrite Egs all_rcons => /andP[-> _] /=; apply: all_In => h J.
  by apply: (In_all Ra); apply: S; rewrite /all_hyps Eg'; apply/List.in_or_app; left.
by exists t; rewrite /check_obj Eg' Et.
Qed.
End Sound.
