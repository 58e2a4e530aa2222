(** Model of the main loop of GRF/test.py (line numbers refer to it; test.sage
    is the same program without the rewriting of numerals).

    The environment is arbitrary: what the clock shows, which processes are
    alive and which results are in [return_dict] at each inspection.  Not
    modelled: how the parameters are drawn (50-59), messages, the percentiles
    and the listing after the loop (137-146).  The list Times
    holds the times of the lines, infinity for a job that was stopped. *)
From mathcomp Require Import all_ssreflect all_algebra.
From Verif Require Import Py GrfSmt.

Set Implicit Arguments.
Unset Strict Implicit.
Unset Printing Implicit Defensive.
Import GRing.Theory Num.Theory Order.Theory.
Local Open Scope ring_scope.

Section Sched.
Variables (R : realDomainType) (param : Type).

(** Of the iteration [t] of the outer loop: [clock t i] is the time read when
    the job at position [i] of the queue is inspected, [clock_start t i] the
    time read when the [i]-th job of this iteration is started. *)
Record env := Env {
  clock : nat -> nat -> R;
  clock_start : nat -> nat -> R;
  alive : nat -> nat -> bool;                    (* iteration, id *)
  return_dict : nat -> nat -> option (nat * nat) (* iteration, id *)
}.

(** ProcessStruct (27). *)
Record proc := Proc { pid : nat; start_time : R; pparams : param }.

(** A line of the file: a job that finished, with the time and the number of
    hidden formulas, or one that was stopped. *)
Inductive report := Finished of nat & param & R & nat | TimedOut of nat & param.

Record sched := Sched {
  param_queue : seq param; PQ : nat;
  running_queue : seq proc; RQ : nat;
  master_id : nat;
  lines : seq report
}.

(** 60-75. *)
Definition init (params : seq param) : sched := Sched params (size params) [::] 0 1 [::].

Variables (E : env) (Timeout : R) (Cores : nat).

Definition pop (T : Type) (l : seq T) (i : nat) : seq T := take i l ++ drop i.+1 l.

(** The job at position [i] leaves the queue with the line [r] (90-96, 103-110). *)
Definition remove (s : sched) (i : nat) (r : report) : sched :=
  Sched (param_queue s) (PQ s) (pop (running_queue s) i) (RQ s).-1 (master_id s) (rcons (lines s) r).

(** The loop of 80-111, [n] positions from [i] on. *)
Fixpoint poll (t n i : nat) (s : sched) : res sched :=
  if n is n'.+1 then
    let! p := pyget (running_queue s) i in
    let elapsed := clock E t i - start_time p in
    if ~~ alive E t (pid p) then
      if return_dict E t (pid p) is Some r
      then Ok (remove s i (Finished (pid p) (pparams p) elapsed (hides r)))
      else Err KeyError
    else if Timeout < elapsed then Ok (remove s i (TimedOut (pid p) (pparams p)))
    else poll t n' i.+1 s
  else Ok s.

(** The loop of 116-134; [fuel] bounds the number of its rounds. *)
Fixpoint restock (fuel t i : nat) (s : sched) : res sched :=
  if (0 < PQ s)%N && (RQ s < Cores)%N then
    if fuel is fuel'.+1 then
      let! params := pylast (param_queue s) in
      let p := Proc (master_id s) (clock_start E t i) params in
      restock fuel' t i.+1 (Sched (pybutlast (param_queue s)) (PQ s).-1 (rcons (running_queue s) p)
                              (RQ s).+1 (master_id s).+1 (lines s))
    else Err OutOfFuel
  else Ok s.

(** 78-79 and 114-115. *)
Definition asserts (s : sched) : bool :=
  (PQ s == size (param_queue s)) && (RQ s == size (running_queue s)).

Definition iteration (t : nat) (s : sched) : res sched :=
  if ~~ asserts s then Err AssertionError else
  let! s1 := poll t (RQ s) 0 s in
  if ~~ asserts s1 then Err AssertionError else
  restock (PQ s1) t 0 s1.

(** The outer loop (76-136) from iteration [t] on. *)
Fixpoint run (fuel t : nat) (s : sched) : res sched :=
  if (0 < PQ s)%N || (0 < RQ s)%N then
    if fuel is fuel'.+1 then
      let! s1 := iteration t s in
      run fuel' t.+1 s1
    else Err OutOfFuel
  else Ok s.
End Sched.
