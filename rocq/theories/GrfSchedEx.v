(** Concrete runs of the main loop of GRF/test.py. *)
From mathcomp Require Import all_ssreflect all_algebra.
From mathcomp.zify Require Import zify.
From Verif Require Import Py GrfSmt GrfSched GrfSchedFacts.

Set Implicit Arguments.
Unset Strict Implicit.
Unset Printing Implicit Defensive.
Import GRing.Theory Num.Theory Order.Theory.
Local Open Scope ring_scope.

Local Notation Z := [realDomainType of int].

(** The clock shows the iteration; job 2 never exits, the others have exited
    by the second iteration. *)
Definition env58 : env Z :=
  Env (R := Z) (fun t _ => t%:Z) (fun t _ => t%:Z) (fun t i => (i == 2) || (t < 2))%N (fun _ i => Some (i, 1%N)).
Definition ps58 : seq nat := [:: 10; 20; 30]%N.
Definition show (r : report Z nat) : nat * nat * option (int * nat) :=
  match r with Finished i p el h => (i, p, Some (el, h)) | TimedOut i p => (i, p, None) end.
Definition lines_of (r : res (sched Z nat)) : seq (nat * nat * option (int * nat)) :=
  if r is Ok s then map show (lines s) else [::].
Definition lines58 : seq (nat * nat * option (int * nat)) :=
  [:: (1, 30, Some (2%:Z, 2)); (3, 10, Some (1%:Z, 4)); (2, 20, None)]%N.
Lemma ex58 : lines_of (run env58 3%:Z 2 10 0 (init Z ps58)) = lines58. Proof. by vm_compute. Qed.

Lemma due_clock (E : env Z) T : (forall t j, clock E t j = t%:Z) -> eventually_due E T.
Proof.
move=> Ec i st; exists (`|T|%N + `|st|%N).+1 => t j le; apply/orP; right; rewrite Ec; lia.
Qed.
Lemma ex58_due : eventually_due env58 3%:Z. Proof. exact: due_clock. Qed.
Lemma ex58_result t i : ~~ alive env58 t i -> return_dict env58 t i <> None. Proof. by []. Qed.

(** Job 1 exits without a result. *)
Definition env59 : env Z :=
  Env (R := Z) (fun t _ => t%:Z) (fun t _ => t%:Z) (fun t i => t < 2)%N (fun _ i => if i == 1%N then None else Some (i, 1%N)).
Lemma ex59_time t j t' j' : alive env59 t 1 -> clock env59 t j - clock_start env59 t' j' <= 3%:Z.
Proof. by rewrite /=; lia. Qed.
Lemma ex59_due : eventually_due env59 3%:Z. Proof. exact: due_clock. Qed.

Lemma ex59_all : exists (E : env Z) (Timeout : Z) (Cores : nat) (params : seq nat),
  [/\ (0 < Cores)%N, eventually_due E Timeout, forall t i, i != 1%N -> return_dict E t i <> None,
      (1 < size params)%N &
      (forall fuel s, run E Timeout Cores fuel 0 (init Z params) <> Ok s) /\
      exists fuel, run E Timeout Cores fuel 0 (init Z params) = Err KeyError].
Proof.
exists env59, 3%:Z, 2%N, ps58; split=> //; first exact: ex59_due.
- by move=> t i /= /negPf ->.
- by apply: (@run_crash _ _ _ _ _ ps58 1) => //; [exact: ex59_due|exact: ex59_time].
Qed.
