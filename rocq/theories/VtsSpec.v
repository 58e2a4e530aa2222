(** Specification vocabulary for the uni_vts.py properties.  Nothing here
    refers to the functions of the model, only to coefficient lists, the
    ordered field of points and mathcomp's polynomials. *)
From mathcomp Require Import all_ssreflect all_algebra.
From mathcomp.real_closed Require Import polyrcf polyorder.
From Verif Require Import Py.

Set Implicit Arguments.
Unset Strict Implicit.
Unset Printing Implicit Defensive.
Import GRing.Theory Num.Theory.
Local Open Scope ring_scope.

Section Spec.
Variables (D : realDomainType) (R : rcfType) (inj : D -> R).

(** The value at [x] of the polynomial with ascending coefficients [p]. *)
Definition value (p : seq D) (x : R) : R := \sum_(i < size p) inj p`_i * x ^+ i.

(** The same as a polynomial over the field of points. *)
Definition poly_of (p : seq D) : {poly R} := \poly_(i < size p) inj p`_i.

(** A list with a leading (last) coefficient that is not zero. *)
Definition wf (p : seq D) : bool := last 0 p != 0.

(** The zero polynomial, in any representation. *)
Definition allzero (p : seq D) : bool := all (fun c => c == 0) p.

(** [x] satisfies the four lists of conditions. *)
Definition satisfies (le lt eq ne : seq (seq D)) (x : R) : Prop :=
  [/\ forall p, p \in le -> value p x <= 0,
      forall p, p \in lt -> value p x < 0,
      forall p, p \in eq -> value p x = 0 &
      forall p, p \in ne -> value p x <> 0].

(** [T] lists the distinct real roots of [p]. *)
Definition lists_roots (p : seq D) (T : seq R) : Prop :=
  uniq T /\ forall x, x \in T <-> value p x = 0.

(** Contract of z3rcf.MkRoots: the distinct real roots of a polynomial. *)
Definition MkRoots_contract (MkRoots : seq D -> res (seq R)) : Prop :=
  forall p, wf p -> exists2 T, MkRoots p = Ok T & lists_roots p T.

(** The sign of a number. *)
Definition is_sign (s : int) (v : R) : Prop :=
  (s = 1 /\ 0 < v) \/ (s = -1 /\ v < 0) \/ (s = 0 /\ v = 0).

(** Sign of [p] immediately to the right of [r]. *)
Definition is_right_sign (s : int) (p : seq D) (r : R) : Prop :=
  exists2 d, 0 < d & forall y, r < y < r + d -> is_sign s (value p y).

(** [j] is the jump of [Q/P] at [x]: half the difference of the signs of
    [Q/P] right and left of [x] when [x] is a pole of [Q/P], otherwise 0. *)
Definition is_jump (Q P : {poly R}) (x : R) (j : int) : Prop :=
  if (Q != 0) && (\mu_x Q < \mu_x P)%N then
    exists2 d, 0 < d & exists sl sr : int,
      [/\ forall y, x - d < y < x -> is_sign sl (Q.[y] / P.[y]),
          forall y, x < y < x + d -> is_sign sr (Q.[y] / P.[y]) & j *+ 2 = sr - sl]
  else j = 0.

(** A signed remainder sequence: each element is a positive multiple of the
    negated remainder of the two before it, the last division is exact. *)
Fixpoint signed_chain (l : seq (seq D)) : Prop :=
  match l with
  | a :: l1 =>
      match l1 with
      | b :: l2 =>
          [/\ wf b,
              (exists m s, 0 < m /\ m *: Poly a = s * Poly b - Poly (head [::] l2)),
              (l2 != [::] -> (0 < size (head [::] l2) < size b)%N) &
              (if l2 is [::] then True else signed_chain l1)]
      | [::] => True
      end
  | [::] => True
  end.

End Spec.

(** The [k]-th of the [n] base-3 digits of [i], most significant first. *)
Definition digit (n i k : nat) : nat := ((i %/ 3 ^ (n - 1 - k)) %% 3)%N.
(** The sign coded by a base-3 digit. *)
Definition digit_sign (d : nat) : int := [:: 0; 1; -1]`_d.

(** Lists of rows as matrices. *)
Definition square_list (n : nat) (M : seq (seq rat)) : bool :=
  (size M == n) && all (fun r : seq rat => size r == n) M.
Definition mx_of (n : nat) (M : seq (seq rat)) : 'M[rat]_n :=
  \matrix_(i < n, j < n) (nth [::] M i)`_j.

(** Contract of sympy's [Matrix.inv] on square invertible matrices. *)
Definition inv_contract (mx_inv : seq (seq rat) -> seq (seq rat)) : Prop :=
  forall n M, square_list n M -> mx_of n M \in unitmx ->
    square_list n (mx_inv M) /\ mx_of n (mx_inv M) = invmx (mx_of n M).
