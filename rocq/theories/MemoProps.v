(** Property theorems about highschool_qe/cachedsympywrapper.py (C36, C64). *)
From mathcomp Require Import all_ssreflect.
From Verif Require Import Py MemoModel MemoProof.

Set Implicit Arguments.
Unset Strict Implicit.
Unset Printing Implicit Defensive.

(** ** C36: the cache changes no outcome, and no call that returns a value is
    made twice. *)

Theorem C36_cached_transparent :
  forall (M : eqType) (V : Type) (K : eqType) (key : V -> K)
    (under : M -> seq V -> res (option V)) (direct : pred M),
  (forall m args args', ~~ direct m -> map key args = map key args' -> under m args = under m args') ->
  forall (T : Type) (p : prog M V T), arities direct p ->
  (run_cached key under direct (Node [::]) p).1.1 = run_plain under p /\
  forall m args v, ~~ direct m -> under m args = Ok (Some v) ->
    count (fun c => (c.1 == m) && (map key c.2 == map key args))
      (run_cached key under direct (Node [::]) p).2 <= 1.
Proof. exact: cached_transparent. Qed.
Print Assumptions C36_cached_transparent.

(** The same call twice. *)
Example C36_arities : arities pred0 twice_sympy.
Proof. by split; [right; left|split; [right; left|]]. Qed.
Example C36_run : (run_cached id sympy_num pred0 (Node [::]) twice_sympy).1.1 = Ok 0 /\
  (run_cached id sympy_num pred0 (Node [::]) twice_sympy).2 = [:: (tt, [:: 7])].
Proof. by []. Qed.

(** Without the condition on keys it fails: Python ints and sympy Integers are
    the same key. *)
Theorem C36_keys_refuted : exists p : prog [eqType of unit] num num,
  arities pred0 p /\
  run_plain has_variable p = Err AttributeError /\
  (run_cached num_key has_variable pred0 (Node [::]) p).1.1 = Ok (true, 0).
Proof. exact: keys_refuted. Qed.
Print Assumptions C36_keys_refuted.

(** ** C64: timer. *)

Theorem C64_timer_one : forall (V : Type) count (f : pyfun V) a,
  timer count f [:: a] = (f [:: a], if f [:: a] is Ok _ then count.+1 else 1).
Proof. exact: timer1. Qed.
Print Assumptions C64_timer_one.

Theorem C64_timer_two : forall (V : Type) count (f : pyfun V) a b,
  (timer count f [:: a; b]).1 = f [:: a; b].
Proof. exact: timer2. Qed.
Print Assumptions C64_timer_two.

Theorem C64_timer_many_refuted : forall (V : Type) count (f : pyfun V) a b c args,
  (timer count f [:: a, b, c & args]).1 = Err TypeError.
Proof. exact: timer_many. Qed.
Print Assumptions C64_timer_many_refuted.

Example C64_sum : timer 4 (fun l : seq nat => Ok (sumn l)) [:: 3] = (Ok 3, 5) /\
  timer 4 (fun l : seq nat => Ok (sumn l)) [:: 3; 4] = (Ok 7, 5) /\
  timer 4 (fun l : seq nat => Ok (sumn l)) [:: 3; 4; 5] = (Err TypeError, 1).
Proof. by []. Qed.
