(** C15, C16: the matrix cache of vts/matrix_of_signs.py. *)
From mathcomp Require Import all_ssreflect all_algebra.
From Verif Require Import Py VtsModel VtsSpec VtsInst CacheModel CacheSpec CacheFacts.

Set Implicit Arguments.
Unset Strict Implicit.
Unset Printing Implicit Defensive.
Import GRing.Theory.
Local Open Scope ring_scope.

(** * C15 *)
(** After any history of calls and restarts: a new process can be started, a
    call with 1 <= k <= 5 gives the right matrix, any other call raises and
    changes nothing. *)
Theorem C15_cache_right (mx_inv : rmatrix -> rmatrix) : inv_contract mx_inv ->
  forall (es : seq event) (inv : bool) (n : pyarg), ~~ has dies es ->
  let m := run mx_inv es fresh in
  (exists s, step mx_inv Start m = (None, MkMachine (files s) (Some s))) /\
  forall s, mproc m = Some s ->
  (forall k, valid_arg n k ->
     exists M m', step mx_inv (Call inv n) m = (Some (Ok M), m') /\ is_expected inv k M) /\
  ((forall k, ~ valid_arg n k) ->
     exists e, step mx_inv (Call inv n) m = (Some (Err e), m)).
Proof. exact: cache_right. Qed.
Print Assumptions C15_cache_right.

(** The cached function is the cache-free one used in the model of uni_vts. *)
Theorem C15_refines_get_matrix_inverse (mx_inv : rmatrix -> rmatrix)
    (es : seq event) (n : nat) (s : proc) : ~~ has dies es ->
  let m := run mx_inv es fresh in mproc m = Some s ->
  (step mx_inv (Call true (PyInt (Posz n))) m).1 = Some (get_matrix_inverse mx_inv n).
Proof. exact: cache_refines. Qed.
Print Assumptions C15_refines_get_matrix_inverse.

(** A history with a restart: the third matrix is computed, then read back. *)
Example C15_ex :
  let m := run inv_run [:: Start; Call true (PyInt 2); Start; Call false (PyInt 7)] fresh in
  (step inv_run (Call false (PyInt 2)) m).1 = Some (Ok (sign_matrix 2)) /\
  map fst (mdisk m) = [:: (2, 0); (0, 2); (1, 2)]%N /\
  (if mproc m is Some s then map fst (lookup s) else [::]) = [:: 1]%N.
Proof. by vm_compute. Qed.

(** * C16 *)
(** Whatever processes died before, a call never returns a wrong matrix: it
    returns the right one or raises EOFError. *)
Theorem C16_never_wrong (mx_inv : rmatrix -> rmatrix) : inv_contract mx_inv ->
  forall (es : seq event) (inv : bool) (n : pyarg) (s : proc),
  let m := run mx_inv es fresh in
  mproc m = Some s ->
  (forall k, valid_arg n k ->
     exists r m', step mx_inv (Call inv n) m = (Some r, m') /\
     (r = Err EOFError \/ exists2 M, r = Ok M & is_expected inv k M)) /\
  ((forall k, ~ valid_arg n k) ->
     exists e, step mx_inv (Call inv n) m = (Some (Err e), m)).
Proof. exact: cache_never_wrong_spec. Qed.
Print Assumptions C16_never_wrong.

(** A process that dies while the second matrix is written leaves a state in
    which processes can still be started but no call, after any further
    history, can obtain that matrix. *)
Theorem C16_lost_matrix_refuted (mx_inv : rmatrix -> rmatrix) :
  exists es, (exists s, mproc (run mx_inv (rcons es Start) fresh) = Some s) /\
  forall es' s, let m := run mx_inv (es ++ es') fresh in
  mproc m = Some s ->
  (step mx_inv (Call false (PyInt 2)) m).1 = Some (Err EOFError).
Proof. exact: crash_loses_matrix. Qed.
Print Assumptions C16_lost_matrix_refuted.

(** A process that dies while the module is imported makes every later import
    fail. *)
Theorem C16_lost_module_refuted (mx_inv : rmatrix -> rmatrix) :
  exists es, forall es', let m := run mx_inv (es ++ es') fresh in
  mproc m = None /\ (step mx_inv Start m).1 = Some (Err EOFError).
Proof. exact: crash_loses_module. Qed.
Print Assumptions C16_lost_module_refuted.

(** A death before the file is opened or after it is complete does no harm. *)
Example C16_ex :
  let call k := (step inv_run (Call false (PyInt 2))
    (run inv_run [:: Start; DieInCall false (PyInt 2) k; Start] fresh)).1 in
  call 0%N = Some (Ok (sign_matrix 2)) /\ call 1%N = Some (Err EOFError) /\
  call 2%N = Some (Ok (sign_matrix 2)).
Proof. by vm_compute. Qed.
