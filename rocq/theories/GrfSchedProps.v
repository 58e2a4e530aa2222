(** Property theorems for the main loop of GRF/test.py. *)
From mathcomp Require Import all_ssreflect all_algebra.
From Verif Require Import Py GrfSmt GrfSched GrfSchedFacts GrfSchedEx.

Set Implicit Arguments.
Unset Strict Implicit.
Unset Printing Implicit Defensive.
Import GRing.Theory Num.Theory Order.Theory.
Local Open Scope ring_scope.

(** ** C58: the scheduler *)

(** After any number of iterations, in any environment: the counters are the
    lengths of the queues, at most Cores jobs run, no job number is used
    twice, and no assertion has failed. *)
Theorem C58_safe :
  forall (R : realDomainType) (param : Type) (E : env R) (Timeout : R) (Cores : nat) (params : seq param) (n : nat),
  match after E Timeout Cores params n with
  | Ok s => [/\ PQ s = size (param_queue s), RQ s = size (running_queue s),
                (size (running_queue s) <= Cores)%N &
                uniq (map (@pid R param) (running_queue s) ++ map (@line_id R param) (lines s))]
  | Err e => e = KeyError
  end.
Proof. exact: after_safe. Qed.
Print Assumptions C58_safe.

(** When the loop ends every job has exactly one line, with the parameters it
    was started with, and every line is justified by the environment. *)
Theorem C58_reports :
  forall (R : realDomainType) (param : Type) (E : env R) (Timeout : R) (Cores : nat) (params : seq param)
    (fuel : nat) (s : sched R param),
  run E Timeout Cores fuel 0 (init R params) = Ok s ->
  perm_eq (map (@line_id R param) (lines s)) (iota 1 (size params)) /\
  forall r, List.In r (lines s) ->
    pyget (rev params) (line_id r).-1 = Ok (line_params r) /\ justified E Timeout r.
Proof. exact: run_reports. Qed.
Print Assumptions C58_reports.

(** If no job exits without a result and every job exits or runs out of time,
    the loop ends. *)
Theorem C58_terminates :
  forall (R : realDomainType) (param : Type) (E : env R) (Timeout : R) (Cores : nat) (params : seq param),
  eventually_due E Timeout -> (0 < Cores)%N ->
  (forall t i, ~~ alive E t i -> return_dict E t i <> None) ->
  exists fuel s, run E Timeout Cores fuel 0 (init R params) = Ok s.
Proof. exact: run_terminates. Qed.
Print Assumptions C58_terminates.

(** With Cores = 0 it does not. *)
Theorem C58_no_cores :
  forall (R : realDomainType) (param : Type) (E : env R) (Timeout : R) (params : seq param) (fuel : nat),
  params <> [::] -> run E Timeout 0 fuel 0 (init R params) = Err OutOfFuel.
Proof. exact: run_no_cores. Qed.
Print Assumptions C58_no_cores.

(** Three jobs on two cores; the second is stopped. *)
Example C58_example : lines_of (run env58 3%:Z 2 10 0 (init _ ps58)) =
  [:: (1, 30, Some (2%:Z, 2)); (3, 10, Some (1%:Z, 4)); (2, 20, None)]%N.
Proof. exact: ex58. Qed.
Example C58_environment : eventually_due env58 3%:Z /\
  forall t i, ~~ alive env58 t i -> return_dict env58 t i <> None.
Proof. exact: (conj ex58_due ex58_result). Qed.

(** ** C59: crashing jobs *)

(** The only error is KeyError, and it is caused by a job that exited without
    a result. *)
Theorem C59_errors :
  forall (R : realDomainType) (param : Type) (E : env R) (Timeout : R) (Cores : nat) (params : seq param)
    (fuel : nat) (e : exn),
  run E Timeout Cores fuel 0 (init R params) = Err e ->
  e = OutOfFuel \/ e = KeyError /\ exists t i,
    [/\ (0 < i <= size params)%N, ~~ alive E t i & return_dict E t i = None].
Proof. exact: run_errors. Qed.
Print Assumptions C59_errors.

(** A job that never gives a result and is not stopped for its time always
    ends the experiment. *)
Theorem C59_aborts :
  forall (R : realDomainType) (param : Type) (E : env R) (Timeout : R) (Cores : nat) (params : seq param) (i : nat),
  eventually_due E Timeout -> (0 < Cores)%N -> (0 < i <= size params)%N ->
  (forall t, return_dict E t i = None) ->
  (forall t j t' j', alive E t i -> clock E t j - clock_start E t' j' <= Timeout) ->
  (forall fuel s, run E Timeout Cores fuel 0 (init R params) <> Ok s) /\
  exists fuel, run E Timeout Cores fuel 0 (init R params) = Err KeyError.
Proof. exact: run_crash. Qed.
Print Assumptions C59_aborts.

(** Three jobs, of which only the first crashes. *)
Theorem C59_refuted :
  exists (E : env [realDomainType of int]) (Timeout : int) (Cores : nat) (params : seq nat),
  [/\ (0 < Cores)%N, eventually_due E Timeout, forall t i, i != 1%N -> return_dict E t i <> None,
      (1 < size params)%N &
      (forall fuel s, run E Timeout Cores fuel 0 (init _ params) <> Ok s) /\
      exists fuel, run E Timeout Cores fuel 0 (init _ params) = Err KeyError].
Proof. exact: ex59_all. Qed.
Print Assumptions C59_refuted.

Example C59_environment : eventually_due env59 3%:Z /\
  forall t j t' j', alive env59 t 1 -> clock env59 t j - clock_start env59 t' j' <= 3%:Z.
Proof. exact: (conj ex59_due ex59_time). Qed.
