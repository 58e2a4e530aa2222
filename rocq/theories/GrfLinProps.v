(** Property theorems about the verdict of GRF/grf.sage in several variables
    (C104). *)
From mathcomp Require Import all_ssreflect all_algebra.
From mathcomp.real_closed Require Import polyrcf.
From Coq Require Import String.
From Verif Require Import Py GrfModel GrfCad GrfSpec GrfFacts GrfCheck GrfLoop GrfRun GrfLine GrfCadFacts
  GrfInst GrfEx GrfEx2 GrfLin GrfLinInst GrfLinEx.

Set Implicit Arguments.
Unset Strict Implicit.
Unset Printing Implicit Defensive.
Import GRing.Theory Num.Theory Order.Theory.
Local Open Scope ring_scope.

(** ** C104: the verdict in several variables *)

(** Linear sequents without equations among the hypotheses: what is accepted is
    valid, for any number of variables. *)
Theorem C104_linear_sound :
  forall (R : realDomainType) (L : lib R) (O : oracle L) (K : rcfType) (inj : R -> K)
    (val : P L -> (var -> K) -> K) (uval : U L -> {poly K}),
  lib_ok inj val -> cad_ok val uval -> line_ok O inj uval -> lin_ok inj val uval -> degree_ok L ->
  forall (n num : nat) solve fuel partial k eps cs (s : decide L) r s', (0 < num)%N ->
  goal_hyps (dgoal s) = [::] ->
  check O solve (sample_pt_dicts O n num) fuel partial k eps cs [::] s = Ok (r, s') ->
  in_lin (linear n) s -> forall e, sequent_true val s e.
Proof. exact: check_linear_valid. Qed.
Print Assumptions C104_linear_sound.

(** More generally, polynomials whose projections are linear in the variable of
    each level and have rational roots at the bottom. *)
Theorem C104_solvable_sound :
  forall (R : realDomainType) (L : lib R) (O : oracle L) (K : rcfType) (inj : R -> K)
    (val : P L -> (var -> K) -> K) (uval : U L -> {poly K}),
  lib_ok inj val -> cad_ok val uval -> line_ok O inj uval -> lin_ok inj val uval ->
  forall (n : nat) (C : pred (P L)), solvable_class inj uval C n ->
  forall solve (num fuel : nat) partial k eps cs (s : decide L) r s', (0 < num)%N ->
  goal_hyps (dgoal s) = [::] ->
  check O solve (sample_pt_dicts O n num) fuel partial k eps cs [::] s = Ok (r, s') ->
  in_lin C s -> forall e, sequent_true val s e.
Proof. exact: check_lin_valid. Qed.
Print Assumptions C104_solvable_sound.

(** The sample points: every point has one with the same signs, unless the goal
    holds at the point. *)
Theorem C104_sample_complete :
  forall (R : realDomainType) (L : lib R) (O : oracle L) (K : rcfType) (inj : R -> K)
    (val : P L -> (var -> K) -> K) (uval : U L -> {poly K}),
  lib_ok inj val -> cad_ok val uval -> line_ok O inj uval -> lin_ok inj val uval ->
  forall (n num : nat) w og (top : seq (P L)) ambient ds t, (0 < num)%N ->
  sample_pt_dicts O n num w og top ambient = Ok (ds, t) ->
  (forall p, p \in top -> all (fun v => (v < n)%N) (variables p)) -> solvable inj uval n top ->
  (forall g, og = Some g -> goal_wf g /\
     forall p, p \in apoly (main_goal g) :: [seq apoly h | h <- goal_hyps g] -> p \in top) ->
  forall a, (exists2 g, og = Some g & goal_true val g a) \/
    exists d e, [/\ List.In d ds, agrees inj d e, forall v, (v < n)%N -> dmem d v &
      forall p, p \in top -> Num.sg (val p a) = Num.sg (val p e)].
Proof. exact: sample_complete. Qed.
Print Assumptions C104_sample_complete.

(** |- x1^4 + x1^2 - x0^6 x1^2 >= 0 is accepted, and false at (2, 1). *)
Theorem C104_degree_refuted :
  exists s : decide nlib, [/\ goal_hyps (dgoal s) = [::], hyps s = [::] /\ atom_wf (main_goal (dgoal s)),
    exists r, nrun 2 3 s = Ok r & forall K : rcfType, exists e, ~~ sequent_true (@lval K) s e].
Proof. exact: ex104b_all. Qed.
Print Assumptions C104_degree_refuted.

(** With an equation among the hypotheses: x0 < 0, x0 = x1, x0 < 5 |- x0 > 3 is
    accepted, and false at (-1, -1). *)
Theorem C104_equation_refuted :
  exists s : decide nlib, [/\ goal_hyps (dgoal s) = [::],
    all (fun a : atom nlib => linear (L := nlib) 2 (apoly a) && atom_wf a) (main_goal (dgoal s) :: hyps s),
    exists r, nrun 2 4 s = Ok r & forall K : rcfType, exists e, ~~ sequent_true (@lval K) s e].
Proof. exact: ex104c_all. Qed.
Print Assumptions C104_equation_refuted.

Example C104_contracts : forall K : rcfType, [/\ lib_ok (L := nlib) ratr (@lval K),
  cad_ok (L := nlib) (@lval K) (uval K), line_ok noracle ratr (uval K),
  lin_ok (L := nlib) ratr (@lval K) (uval K) & degree_ok nlib].
Proof. exact: (fun K => And5 (nlib_ok K) (ncad_ok K) (nline_ok K) (nlin_ok K) ndegree_ok). Qed.
Example C104_class : forall (K : rcfType) (n : nat), solvable_class (L := nlib) ratr (uval K) (linear n) n.
Proof. exact: ex104_class. Qed.
(** x0 > 0, x1 > 0, 2 x0 + x1 > 1 |- x0 + x1 > 0 *)
Example C104_example : is_ok (nrun 2 4 s104) /\ in_lin (linear (L := nlib) 2) s104.
Proof. exact: (conj ex104 ex104_lin). Qed.
