(** Property theorems about several goals on one RCF_GD_Decide object of
    GRF/grf.sage (C108). *)
From mathcomp Require Import all_ssreflect all_algebra.
From mathcomp.real_closed Require Import polyrcf.
From Coq Require Import String Permutation.
From Verif Require Import Py GrfModel GrfCad GrfSpec GrfFacts GrfCheck GrfLoop GrfRun GrfLine GrfCadFacts
  GrfInst GrfEx GrfEx2 GrfLin GrfLinInst GrfLinEx GrfOut GrfOutEx GrfAgain GrfAgainFacts GrfAgainEx.

Set Implicit Arguments.
Unset Strict Implicit.
Unset Printing Implicit Defensive.
Import GRing.Theory Num.Theory Order.Theory.
Local Open Scope ring_scope.

(** ** C108: an object that is used again *)

(** Whatever was asserted and checked before, in any order: an accepted goal
    follows from the hypotheses asserted so far. *)
Theorem C108_sound :
  forall (R : realDomainType) (L : lib R) (O : oracle L) (K : rcfType) (inj : R -> K)
    (val : P L -> (var -> K) -> K) (uval : U L -> {poly K}),
  lib_ok inj val -> cad_ok val uval -> line_ok O inj uval -> lin_ok inj val uval ->
  forall (n : nat) (C : pred (P L)), solvable_class inj uval C n ->
  forall solve num, (0 < num)%N ->
  forall (l : seq (call L)) o fuel partial k eps cs r o' gs g,
  serve O solve (sample_pt_dicts O n num) (new_object L) l = Ok o ->
  check_obj O solve (sample_pt_dicts O n num) fuel partial k eps cs o = Ok (r, o') ->
  all (in_class C) (asserted l) -> all (fun h => ~~ is_eqn h) (asserted l) -> all (in_class C) (goals l) ->
  goals l = rcons gs g -> forall e, all_true val (asserted l) e -> atom_true val g e.
Proof. exact: session_sound. Qed.
Print Assumptions C108_sound.

(** A check moves hypotheses from the object into its goal, and assert_goal
    drops them with the goal. *)
Theorem C108_moved :
  forall (R : realDomainType) (L : lib R) (O : oracle L) solve sample fuel partial k eps cs (o : object L) r o' g,
  check_obj O solve sample fuel partial k eps cs o = Ok (r, o') ->
  ogoal o = Some g -> gb g = [::] -> all (fun h => ~~ is_eqn h) (ohyps o) ->
  exists2 g', ogoal o' = Some g' & [/\ main_goal g' = main_goal g, gb g' = [::] &
    Permutation (goal_hyps g' ++ ohyps o') (goal_hyps g ++ ohyps o)].
Proof. exact: check_spends. Qed.
Print Assumptions C108_moved.

(** Checking an accepted goal again, without asserting it again: accepted, and
    nothing is promoted. *)
Theorem C108_recheck :
  forall (R : realDomainType) (L : lib R) (O : oracle L) (K : rcfType) (inj : R -> K)
    (val : P L -> (var -> K) -> K) (uval : U L -> {poly K}),
  lib_ok inj val -> cad_ok val uval -> line_ok O inj uval -> lin_ok inj val uval ->
  forall (n : nat) (C : pred (P L)), solvable_class inj uval C n ->
  forall solve num, (0 < num)%N -> total_ok O ->
  forall (l : seq (call L)) o fuel partial k eps cs r o',
  serve O solve (sample_pt_dicts O n num) (new_object L) l = Ok o ->
  check_obj O solve (sample_pt_dicts O n num) fuel partial k eps cs o = Ok (r, o') ->
  all (in_class C) (asserted l) -> all (fun h => ~~ is_eqn h) (asserted l) -> all (in_class C) (goals l) ->
  all (ring_atom n) (asserted l) -> all (ring_atom n) (goals l) -> (0 < n)%N ->
  forall fuel' (partial' : bool) k' eps' cs', partial' \/ n = 1%N ->
  exists t, check_obj O solve (sample_pt_dicts O n num) fuel'.+1 partial' k' eps' cs' o' =
    Ok ([::], Obj (ohyps o') (ogoal o') (oorder o') t).
Proof. exact: session_again. Qed.
Print Assumptions C108_recheck.

(** A check before the first assert_goal. *)
Theorem C108_no_goal :
  forall (R : realDomainType) (L : lib R) (O : oracle L) solve sample (l : seq (call L)) o fuel partial k eps cs,
  serve O solve sample (new_object L) l = Ok o -> goals l = [::] ->
  check_obj O solve sample fuel partial k eps cs o = Err AttributeError.
Proof. exact: check_no_goal. Qed.
Print Assumptions C108_no_goal.

(** x0 > 2, x0 < 5 |- x0 > 0 is accepted; when the same goal is asserted and
    checked once more on the same object, it is rejected by a counterexample. *)
Theorem C108_same_goal_refuted : exists (h : atom nlib) hs g, [/\
    exists o, nserve [:: AssertHyps h hs; AssertGoal g; chk] = Ok o,
    nserve [:: AssertHyps h hs; AssertGoal g; chk; AssertGoal g; chk] = Err counterexample &
    forall (K : rcfType) e, all_true (@lval K) (h :: hs) e -> atom_true (@lval K) g e].
Proof. exact: reuse_refuted. Qed.
Print Assumptions C108_same_goal_refuted.

(** Two valid goals, each accepted on a new object; the second one is rejected
    after the first one. *)
Theorem C108_next_goal_refuted : exists (h : atom nlib) hs g g', [/\
    exists o, nserve [:: AssertHyps h hs; AssertGoal g; chk] = Ok o,
    exists o, nserve [:: AssertHyps h hs; AssertGoal g'; chk] = Ok o,
    nserve [:: AssertHyps h hs; AssertGoal g; chk; AssertGoal g'; chk] = Err counterexample &
    forall (K : rcfType) e, all_true (@lval K) (h :: hs) e -> atom_true (@lval K) g' e].
Proof. exact: next_refuted. Qed.
Print Assumptions C108_next_goal_refuted.

(** The contracts are those of C104_contracts and C105_contracts. *)
Example C108_ex_class : [/\ all acls [:: hyp1; hyp2], all (fun h => ~~ is_eqn h) [:: hyp1; hyp2],
  all acls [:: goal1; goal2] & all (ring_atom (L := nlib) 1) [:: hyp1; hyp2; goal1; goal2]].
Proof. exact: ex_class. Qed.
Example C108_ex_accepted : left (nserve once) = Some [:: 2%N]. Proof. exact: ex_once. Qed.
Example C108_ex_again : left (nserve (once ++ [:: chk])) = Some [:: 2%N]. Proof. exact: ex_again. Qed.
