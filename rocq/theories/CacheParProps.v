(** C107: several processes use the matrix cache of vts/matrix_of_signs.py. *)
From mathcomp Require Import all_ssreflect all_algebra.
From Verif Require Import Py VtsModel VtsSpec VtsInst CacheModel CacheSpec CachePar CacheParFacts.

Set Implicit Arguments.
Unset Strict Implicit.
Unset Printing Implicit Defensive.

(** A process alone does what the model of C15 and C16 says. *)
Theorem C107_alone (mx_inv : rmatrix -> rmatrix) (inv : bool) (n : pyarg) (s : proc) :
  prun (call_prog mx_inv inv n (lookup s, inv_lookup s)) (files s) =
  ((call mx_inv inv n s).1, (lookup (call mx_inv inv n s).2, inv_lookup (call mx_inv inv n s).2),
   files (call mx_inv inv n s).2).
Proof. exact (call_alone mx_inv inv n s). Qed.
Print Assumptions C107_alone.

Theorem C107_alone_import (mx_inv : rmatrix -> rmatrix) (d : disk) :
  prun (import_prog mx_inv) d =
  ((import_module mx_inv d).1, (lookup (import_module mx_inv d).2, inv_lookup (import_module mx_inv d).2),
   files (import_module mx_inv d).2).
Proof. exact (import_alone mx_inv d). Qed.
Print Assumptions C107_alone_import.

(** Any number of processes, any interleaving, any of them dying anywhere: no
    wrong matrix is returned, and no exception but EOFError is added. *)
Theorem C107_never_wrong (mx_inv : rmatrix -> rmatrix) : inv_contract mx_inv ->
  forall (css : seq (seq (bool * pyarg))) (sched : seq nat) (i : nat) cs x, pyget css i = Ok cs ->
  ended (sys_run ([seq session mx_inv cs | cs <- css], [::]) sched) i = Some x ->
  x = Err EOFError \/ exists2 out, x = Ok out & List.Forall2 answer_or_eof cs out.
Proof. exact (@par_never_wrong mx_inv). Qed.
Print Assumptions C107_never_wrong.

(** If no process died, there is no lasting damage: the next process gets all
    that it asks for. *)
Theorem C107_no_lasting_damage (mx_inv : rmatrix -> rmatrix) : inv_contract mx_inv ->
  forall (css : seq (seq (bool * pyarg))) (sched : seq nat) (cs : seq (bool * pyarg)),
  let s := sys_run ([seq session mx_inv cs | cs <- css], [::]) sched in all_ended s ->
  exists out d, prun (session mx_inv cs) s.2 = (Ok out, d) /\ List.Forall2 answer cs out.
Proof. exact (@par_no_damage mx_inv). Qed.
Print Assumptions C107_no_lasting_damage.

(** No process waits for another: it ends after a bounded number of its own steps. *)
Theorem C107_wait_free (mx_inv : rmatrix -> rmatrix) (css : seq (seq (bool * pyarg))) (d : disk)
    (sched : seq nat) (i : nat) cs : pyget css i = Ok cs ->
  (6 + 18 * size cs <= count_mem i sched)%N ->
  exists x, ended (sys_run ([seq session mx_inv cs | cs <- css], d) sched) i = Some x.
Proof. exact (@wait_free mx_inv css d sched i cs). Qed.
Print Assumptions C107_wait_free.

(** But two processes that start together, none of which dies: the import of one
    fails. *)
Theorem C107_start_refuted (mx_inv : rmatrix -> rmatrix) : exists css sched i,
  let s := sys_run ([seq session mx_inv cs | cs <- css], [::]) sched in
  all_ended s /\ ended s i = Some (Err EOFError).
Proof.
exact (ex_intro _ [:: [::]; [::]] (ex_intro _ [:: 0; 0; 1; 1; 0] (ex_intro _ 1
  (let: And3 h1 _ h3 := par_refuted mx_inv in conj h1 h3)))).
Qed.
Print Assumptions C107_start_refuted.

(** Three processes: two write the same file at the same time and get their
    matrix, the third reads it in between. *)
Example C107_ex : let s := sys_run ([seq session inv_run cs | cs <- css107], [::]) sched107 in
  [/\ all_ended s, kinds (ended s 0) = [:: Some true], kinds (ended s 1) = [:: Some true; None] &
      kinds (ended s 2) = [:: Some false]].
Proof. exact ex107. Qed.
