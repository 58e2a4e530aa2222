(** Specification vocabulary for the matrix cache. *)
From mathcomp Require Import all_ssreflect all_algebra.
From Verif Require Import VtsSpec CacheModel.

Set Implicit Arguments.
Unset Strict Implicit.
Unset Printing Implicit Defensive.
Import GRing.Theory.
Local Open Scope ring_scope.

(** A process dies in this event. *)
Definition dies (e : event) : bool :=
  match e with DieInStart _ | DieInCall _ _ _ => true | _ => false end.

(** The argument is the Python int [k] and 1 <= k <= 5. *)
Definition valid_arg (n : pyarg) (k : nat) : Prop := n = PyInt k%:Z /\ (1 <= k <= 5)%N.

(** The matrix of signs for [n] polynomials: entry (i, j) is the product of
    the signs coded by the digits of [j] to the powers given by the digits of
    [i]. *)
Definition is_sign_matrix (n : nat) (M : seq (seq rat)) : Prop :=
  square_list (3 ^ n) M /\
  forall i j, (i < 3 ^ n)%N -> (j < 3 ^ n)%N ->
  (nth [::] M i)`_j = \prod_(k < n) (digit_sign (digit n j k))%:~R ^+ digit n i k.

(** The inverse of the matrix of signs. *)
Definition is_inverse_matrix (n : nat) (M : seq (seq rat)) : Prop :=
  square_list (3 ^ n) M /\
  forall S, is_sign_matrix n S -> mx_of (3 ^ n) M *m mx_of (3 ^ n) S = 1%:M.

Definition is_expected (inv : bool) (n : nat) (M : seq (seq rat)) : Prop :=
  if inv then is_inverse_matrix n M else is_sign_matrix n M.
