(** Property theorems about sessions with one RCF_GD_Decide object of
    GRF/grf.sage that go on after exceptions (C110). *)
From mathcomp Require Import all_ssreflect all_algebra.
From mathcomp.real_closed Require Import polyrcf.
From Coq Require Import String Permutation.
From Verif Require Import Py GrfModel GrfCad GrfSpec GrfFacts GrfCheck GrfLoop GrfRun GrfLine GrfCadFacts
  GrfInst GrfEx GrfEx2 GrfLin GrfLinInst GrfLinEx GrfOut GrfOutEx GrfAgain GrfAgainFacts GrfAgainEx
  GrfRepl GrfReplFacts GrfReplEx.

Set Implicit Arguments.
Unset Strict Implicit.
Unset Printing Implicit Defensive.
Import GRing.Theory Num.Theory Order.Theory.
Local Open Scope ring_scope.

(** ** C110: an object that is used after an exception *)

(** Whatever was asserted, checked and raised before: an accepted goal follows
    from the hypotheses asserted so far. *)
Theorem C110_sound :
  forall (R : realDomainType) (L : lib R) (O : oracle L) (K : rcfType) (inj : R -> K)
    (val : P L -> (var -> K) -> K) (uval : U L -> {poly K}),
  lib_ok inj val -> cad_ok val uval -> line_ok O inj uval -> lin_ok inj val uval ->
  forall (n : nat) (C : pred (P L)), solvable_class inj uval C n ->
  forall solve num, (0 < num)%N ->
  forall (l : seq (call L)) o fuel partial k eps cs r o' gs g,
  steps O solve (sample_pt_dicts O n num) l o ->
  check_obj O solve (sample_pt_dicts O n num) fuel partial k eps cs o = Ok (r, o') ->
  all (in_class C) (asserted l) -> all (fun h => ~~ is_eqn h) (asserted l) -> all (in_class C) (goals l) ->
  goals l = rcons gs g -> forall e, all_true val (asserted l) e -> atom_true val g e.
Proof. exact: repl_sound. Qed.
Print Assumptions C110_sound.

(** A check that raises keeps its goal, and no hypothesis is lost: each one is
    still a hypothesis or has become one of the goal. *)
Theorem C110_moved :
  forall (R : realDomainType) (L : lib R) (O : oracle L) (K : rcfType) (inj : R -> K) (val : P L -> (var -> K) -> K),
  lib_ok inj val ->
  forall solve sample (o o' : object L) fuel partial k eps cs g,
  step O solve sample o (Check L fuel partial k eps cs) o' ->
  ogoal o = Some g -> gb g = [::] -> all (fun h => ~~ is_eqn h) (ohyps o) ->
  exists2 g', ogoal o' = Some g' & [/\ main_goal g' = main_goal g, gb g' = [::] &
    Permutation (goal_hyps g' ++ ohyps o') (goal_hyps g ++ ohyps o)].
Proof. exact: step_moved. Qed.
Print Assumptions C110_moved.

(** The sessions of C108 are among these. *)
Theorem C110_serve :
  forall (R : realDomainType) (L : lib R) (O : oracle L) solve sample (l : seq (call L)) o,
  serve O solve sample (new_object L) l = Ok o -> steps O solve sample l o.
Proof. exact: serve_steps. Qed.
Print Assumptions C110_serve.

(** Every call leaves the object in some state. *)
Theorem C110_total :
  forall (R : realDomainType) (L : lib R) (O : oracle L) solve sample (o : object L) (c : call L),
  (forall fuel partial k eps cs, c = Check L fuel partial k eps cs ->
     check_obj O solve sample fuel partial k eps cs o <> Err OutOfFuel) ->
  exists o', step O solve sample o c o'.
Proof. exact: step_total. Qed.
Print Assumptions C110_total.

(** A check that the user leaves with end-of-file has spent a hypothesis: the
    next goal, which is valid and accepted on a new object, is rejected. *)
Theorem C110_quit_refuted : exists (h : atom nlib) hs g g' c, [/\
    nserve [:: AssertHyps h hs; AssertGoal g; c] = Err EOFError,
    exists o, nserve [:: AssertHyps h hs; AssertGoal g'; chk] = Ok o,
    exists2 o, nsteps [:: AssertHyps h hs; AssertGoal g; c; AssertGoal g'] o & ncheck_obj o = Err counterexample &
    forall (K : rcfType) e, all_true (@lval K) (h :: hs) e -> atom_true (@lval K) g' e].
Proof. exact: quit_refuted. Qed.
Print Assumptions C110_quit_refuted.

(** The contracts are those of C104_contracts and C105_contracts, the classes
    those of C108_ex_class.  A session with a rejected check, after which the
    lost hypothesis is asserted again: the goal is accepted. *)
Example C110_ex_rejected : nserve (once ++ [:: AssertGoal goal1; chk]) = Err counterexample.
Proof. exact (stops_err ex_same). Qed.
Example C110_ex_repaired : exists o r, nsteps repair o /\ ncheck_obj o = Ok r.
Proof. exact: repaired. Qed.
Example C110_ex_quit : ids (nsteps_q quit) = Some ([:: 1%N], [:: 2%N]). Proof. exact ex_quit. Qed.
