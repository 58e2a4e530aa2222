(** Property theorems about how an automatic run of GRF/grf.sage ends (C105). *)
From mathcomp Require Import all_ssreflect all_algebra.
From mathcomp.real_closed Require Import polyrcf.
From Coq Require Import String Permutation.
From Verif Require Import Py GrfModel GrfCad GrfSpec GrfFacts GrfCheck GrfLoop GrfRun GrfLine GrfCadFacts
  GrfInst GrfEx GrfEx2 GrfLin GrfLinInst GrfLinEx GrfOut GrfOutEx.

Set Implicit Arguments.
Unset Strict Implicit.
Unset Printing Implicit Defensive.
Import GRing.Theory Num.Theory Order.Theory.
Local Open Scope ring_scope.

(** ** C105: how an automatic run ends *)

(** Sampling never raises an exception, if partial evaluation is on or there is
    one variable. *)
Theorem C105_sampling :
  forall (R : realDomainType) (L : lib R) (O : oracle L), total_ok O ->
  forall (K : rcfType) (inj : R -> K) (val : P L -> (var -> K) -> K) (uval : U L -> {poly K}),
  cad_ok val uval -> lin_ok inj val uval ->
  forall n num w og (top : seq (P L)) ambient, (0 < n)%N -> all (in_ring n) top -> og <> None \/ n = 1%N ->
  exists ds, sample_pt_dicts O n num w og top ambient = Ok (ds, filter_proj_set top).
Proof. exact: sample_ok. Qed.
Print Assumptions C105_sampling.

(** Any sequent: the only exceptions are the counterexample, an IndexError at a
    point where no remaining hypothesis is true, and those of fsolve. *)
Theorem C105_exceptions :
  forall (R : realDomainType) (L : lib R) (O : oracle L), total_ok O ->
  forall (K : rcfType) (inj : R -> K) (val : P L -> (var -> K) -> K) (uval : U L -> {poly K}),
  cad_ok val uval -> lin_ok inj val uval ->
  forall solve, exact_solver solve -> lib_ok inj val ->
  forall n num fuel (partial : bool) k eps (top : seq (P L)) (s : decide L), (0 < n)%N -> partial \/ n = 1%N ->
  (size (hyps s) < fuel)%N -> all (in_ring n) top -> ring_state n s -> order_ok n (vorder s) ->
  forall x, check O solve (sample_pt_dicts O n num) fuel partial k eps None top s = Err x -> run_error O n s x.
Proof. exact: check_raises. Qed.
Print Assumptions C105_exceptions.

(** Without equations, what an exception says about the sequent. *)
Theorem C105_verdict :
  forall (R : realDomainType) (L : lib R) (O : oracle L), total_ok O ->
  forall (K : rcfType) (inj : R -> K) (val : P L -> (var -> K) -> K) (uval : U L -> {poly K}),
  cad_ok val uval -> lin_ok inj val uval ->
  forall solve, exact_solver solve -> lib_ok inj val ->
  forall n num fuel (partial : bool) k eps (s : decide L) x, (0 < n)%N -> partial \/ n = 1%N ->
  (size (hyps s) < fuel)%N -> goal_hyps (dgoal s) = [::] -> gb (dgoal s) = [::] -> vorder s = [::] ->
  all (ring_atom n) (main_goal (dgoal s) :: hyps s) -> all (fun h => ~~ is_eqn h) (hyps s) ->
  check O solve (sample_pt_dicts O n num) fuel partial k eps None [::] s = Err x ->
  [\/ x = counterexample /\ exists e, ~~ sequent_true val s e,
      x = IndexError /\ exists e, ~~ atom_true val (main_goal (dgoal s)) e | fsolve_raises O x].
Proof. exact: check_verdict. Qed.
Print Assumptions C105_verdict.

(** Sequents without equations whose polynomials have projections that are
    linear in the variable of each level and have rational roots at the bottom
    (C104): every outcome is right. *)
Theorem C105_outcome :
  forall (R : realDomainType) (L : lib R) (O : oracle L), total_ok O ->
  forall (K : rcfType) (inj : R -> K) (val : P L -> (var -> K) -> K) (uval : U L -> {poly K}),
  cad_ok val uval -> lin_ok inj val uval ->
  forall solve, exact_solver solve -> lib_ok inj val -> line_ok O inj uval ->
  forall (n : nat) (C : pred (P L)), solvable_class inj uval C n ->
  forall num fuel (partial : bool) k eps (s : decide L), (0 < n)%N -> (0 < num)%N -> partial \/ n = 1%N ->
  (size (hyps s) < fuel)%N -> goal_hyps (dgoal s) = [::] -> vorder s = [::] ->
  all (ring_atom n) (main_goal (dgoal s) :: hyps s) -> in_lin C s ->
  match check O solve (sample_pt_dicts O n num) fuel partial k eps None [::] s with
  | Ok _ => forall e, sequent_true val s e
  | Err x => [\/ x = counterexample /\ exists e, ~~ sequent_true val s e,
                 x = IndexError /\ exists e, ~~ atom_true val (main_goal (dgoal s)) e | fsolve_raises O x]
  end.
Proof. exact: check_class_outcome. Qed.
Print Assumptions C105_outcome.

(** Every accepted one has a hypothesis it does not need. *)
Theorem C105_spare_hypothesis :
  forall (R : realDomainType) (L : lib R) (O : oracle L) (K : rcfType)
    (inj : R -> K) (val : P L -> (var -> K) -> K) (uval : U L -> {poly K}),
  cad_ok val uval -> lin_ok inj val uval ->
  forall solve, exact_solver solve -> lib_ok inj val -> line_ok O inj uval ->
  forall (n : nat) (C : pred (P L)), solvable_class inj uval C n ->
  forall num fuel (partial : bool) k eps (s : decide L) r, (0 < num)%N -> goal_hyps (dgoal s) = [::] ->
  in_lin C s -> hyps s <> [::] ->
  check O solve (sample_pt_dicts O n num) fuel partial k eps None [::] s = Ok r ->
  exists h rest, Permutation (h :: rest) (hyps s) /\
    forall e, all_true val rest e ==> atom_true val (main_goal (dgoal s)) e.
Proof. exact: check_class_spare. Qed.
Print Assumptions C105_spare_hypothesis.

(** A valid one that needs all its hypotheses ends in an IndexError, unless
    fsolve raises another exception. *)
Theorem C105_needs_all_rejected :
  forall (R : realDomainType) (L : lib R) (O : oracle L), total_ok O ->
  forall (K : rcfType) (inj : R -> K) (val : P L -> (var -> K) -> K) (uval : U L -> {poly K}),
  cad_ok val uval -> lin_ok inj val uval ->
  forall solve, exact_solver solve -> lib_ok inj val -> line_ok O inj uval ->
  forall (n : nat) (C : pred (P L)), solvable_class inj uval C n ->
  forall num fuel (partial : bool) k eps (s : decide L), (0 < n)%N -> (0 < num)%N -> partial \/ n = 1%N ->
  (size (hyps s) < fuel)%N -> goal_hyps (dgoal s) = [::] -> vorder s = [::] ->
  all (ring_atom n) (main_goal (dgoal s) :: hyps s) -> in_lin C s -> hyps s <> [::] ->
  (forall h rest, Permutation (h :: rest) (hyps s) ->
     exists e, all_true val rest e && ~~ atom_true val (main_goal (dgoal s)) e) ->
  (forall e, sequent_true val s e) ->
  exists2 x, check O solve (sample_pt_dicts O n num) fuel partial k eps None [::] s = Err x &
    x = IndexError \/ fsolve_raises O x.
Proof. exact: check_class_needs_all. Qed.
Print Assumptions C105_needs_all_rejected.

(** A goal that is true everywhere is accepted, whatever the hypotheses. *)
Theorem C105_goal_accepted :
  forall (R : realDomainType) (L : lib R) (O : oracle L), total_ok O ->
  forall (K : rcfType) (inj : R -> K) (val : P L -> (var -> K) -> K) (uval : U L -> {poly K}),
  cad_ok val uval -> lin_ok inj val uval ->
  forall solve, exact_solver solve -> lib_ok inj val -> line_ok O inj uval ->
  forall (n : nat) (C : pred (P L)), solvable_class inj uval C n ->
  forall num fuel (partial : bool) k eps (s : decide L), (0 < n)%N -> (0 < num)%N -> partial \/ n = 1%N ->
  (size (hyps s) < fuel)%N -> goal_hyps (dgoal s) = [::] -> vorder s = [::] ->
  all (ring_atom n) (main_goal (dgoal s) :: hyps s) -> in_lin C s ->
  (forall x, ~ fsolve_raises O x) -> (forall e, atom_true val (main_goal (dgoal s)) e) ->
  exists r, check O solve (sample_pt_dicts O n num) fuel partial k eps None [::] s = Ok r.
Proof. exact: check_class_goal. Qed.
Print Assumptions C105_goal_accepted.

(** x0 > 0, x1 > 0 |- x0 + x1 > 0 is valid and linear, and the run stops with an
    IndexError. *)
Theorem C105_complete_refuted :
  exists s : decide nlib, [/\ goal_hyps (dgoal s) = [::] /\ vorder s = [::],
    all (ring_atom (L := nlib) 2) (main_goal (dgoal s) :: hyps s), in_lin (linear (L := nlib) 2) s,
    nrun 2 4 s = Err IndexError & forall (K : rcfType) e, sequent_true (@lval K) s e].
Proof. exact: ex105_incomplete. Qed.
Print Assumptions C105_complete_refuted.

(** The contracts (the others are in C104_contracts, the class of linear
    polynomials in C104_class), and runs that end in each
    of the ways. *)
Example C105_contracts : total_ok noracle /\ (forall x, ~ fsolve_raises noracle x) /\ exact_solver brute.
Proof. exact: (conj ntotal_ok (conj nfsolve_ok brute_exact)). Qed.
Example C105_accepts : [/\ oat s104, in_lin (linear (L := nlib) 2) s104 & is_ok (nrun 2 4 s104)].
Proof. exact: ex105_ok. Qed.
Example C105_counterexample : [/\ oat s105c, in_lin (linear (L := nlib) 2) s105c & ends s105c = Some counterexample].
Proof. exact: ex105_counter. Qed.
Example C105_goal : (forall (K : rcfType) e, atom_true (@lval K) (main_goal (dgoal s105t)) e) /\
  [/\ oat s105t, in_lin (linear (L := nlib) 2) s105t & is_ok (nrun 2 2 s105t)].
Proof. exact: (conj s105t_goal ex105_goal). Qed.
Example C105_equation : ring_state 2 s105e /\ ends s105e = Some counterexample.
Proof. exact: ex105_eqn. Qed.
Example C105_needs_all : forall K : rcfType, needs_all (@lval K) s105i /\ forall e, sequent_true (@lval K) s105i e.
Proof. exact: (fun K => conj (@s105i_needs K) (@s105i_valid K)). Qed.
