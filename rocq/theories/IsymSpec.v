(** Specification vocabulary for vts/isym.py. *)
From mathcomp Require Import all_ssreflect all_algebra.
From Verif Require Import Py VtsSpec IsymModel.

Set Implicit Arguments.
Unset Strict Implicit.
Unset Printing Implicit Defensive.
Import GRing.Theory Num.Theory.
Local Open Scope ring_scope.

(** sympy's [as_ordered_terms] and [leadterm] on the expansion of the
    univariate polynomial [P]: the non-zero terms in descending order, the
    single term 0 for the zero polynomial. *)
Definition ordered_terms (P : {poly rat}) : seq (num * nat) :=
  if P == 0 then [:: (NRat 0, 0%N)]
  else [seq (NRat P`_i, i) | i <- rev (iota 0 (size P)) & P`_i != 0].

(** [s] is a representation of the polynomial [P] that [convert] may be given:
    a Python int, a rational number, or an expression with one free symbol
    (which may cancel out on expansion). *)
Definition represents (s : sym) (P : {poly rat}) : Prop :=
  [\/ exists2 z : int, s = PyNum z & P = z%:~R%:P,
      exists2 q : rat, s = SymConst (NRat q) & P = q%:P |
      s = SymExpr 0 (ordered_terms P)].

(** The polynomial with these integer coefficients. *)
Definition int_poly (l : seq int) : {poly rat} := \poly_(i < size l) (l`_i)%:~R.

(** [m] is the least common multiple of the coefficients' denominators. *)
Definition lcm_dens (P : {poly rat}) (m : nat) : Prop :=
  (forall i, (`|denq P`_i| %| m)%N) /\
  forall d, (forall i, (`|denq P`_i| %| d)%N) -> (m %| d)%N.

(** Value of a rational polynomial at a point of a real closed field. *)
Definition rvalue (R : rcfType) (P : {poly rat}) (x : R) : R := (map_poly ratr P).[x].

Definition rsatisfies (R : rcfType) (le lt eq ne : seq {poly rat}) (x : R) : Prop :=
  [/\ forall P, P \in le -> rvalue P x <= 0,
      forall P, P \in lt -> rvalue P x < 0,
      forall P, P \in eq -> rvalue P x = 0 &
      forall P, P \in ne -> rvalue P x <> 0].
