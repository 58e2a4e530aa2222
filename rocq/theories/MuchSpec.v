(** Specification vocabulary for highschool_qe/muchnik.py. *)
From mathcomp Require Import all_ssreflect all_algebra.
From Verif Require Import Py MuchModel.

Set Implicit Arguments.
Unset Strict Implicit.
Unset Printing Implicit Defensive.
Import GRing.Theory Num.Theory Order.TTheory.
Local Open Scope ring_scope.

(** What is assumed of the algebra: its elements denote polynomials in the
    variable to be eliminated over a domain [C] of parameter expressions.
    Several elements may denote the same polynomial (a factored and an expanded
    form, say), but only [zero] denotes 0. *)
Record algebra_ops (P : eqType) (K : realDomainType) (A : algebra P K)
    (C : idomainType) (den : P -> {poly C}) : Prop := {
  den_zero : den (a_zero A) = 0;
  den_zero_only : forall p, den p = 0 -> p = a_zero A;
  den_degree : forall p, a_degree A p = (size (den p)).-1;
  den_LC : forall p, den (a_LC A p) = (lead_coef (den p))%:P;
  den_times : forall p n, den (a_times A p n) = den p *+ n;
  den_tail : forall p, den (a_tail A p) = den p - lead_coef (den p) *: 'X^(size (den p)).-1;
  den_sub_LT : forall p,
    den (a_sub A p (a_LT A p)) = den p - lead_coef (den p) *: 'X^(size (den p)).-1;
  den_derivative : forall p, den (a_derivative A p) = (den p)^`();
  den_div : forall p, ((a_div A p (a_e_var A)).1 == a_zero A) = (size (den p) <= 1)%N;
  den_pseudo_div : forall p q, den q != 0 -> (size (den q) <= size (den p))%N ->
    exists2 u, lead_coef (den q) ^+ (size (den p) - size (den q)).+1 *: den p
                 = u * den q + den (a_pseudo_div A p q).2
             & (size (den (a_pseudo_div A p q).2) < size (den q))%N;
  zero_scalar : ~~ a_has_variable A (a_zero A);
  zero_sign : a_sign A (a_zero A) = 0
}.

(** The code looks up the row of [LC(p) * degree!], which is there because it
    is the last derivative of [p]: the same element, not just the same
    polynomial. *)
Record algebra_contract (P : eqType) (K : realDomainType) (A : algebra P K)
    (C : idomainType) (den : P -> {poly C}) : Prop := {
  contract_ops :> algebra_ops A den;
  den_last : forall p, iter (a_degree A p) (a_derivative A) p = a_times A (a_LC A p) (fac (a_degree A p))
}.

Definition set_order (T : eqType) (setiter : seq T -> seq T) : Prop :=
  forall l, perm_eq (setiter l) l.

(** Tables before anything is extended: columns for the two infinities and one
    interval, where the constants [cf] have the signs [f]. *)
Definition cols3 : seq rat := [:: 0; 1 / 2%:R; 1].
Definition assigned (P : eqType) (cf : seq P) (f : P -> int) (D : diagram P [eqType of rat]) : Prop :=
  rows D =i cf /\
  forall q c, q \in cf -> cell D q c = if c \in cols3 then Ok (f q) else Err KeyError.

(** The same for complex tables: one column, for the generic point.  Dictionaries
    have no key twice. *)
Definition cassigned (P : eqType) (cf : seq P) (f : P -> int) (D : diagram P [eqType of nat]) : Prop :=
  [/\ rows D =i cf, forall q, uniq (cols D q) &
      forall q c, q \in cf -> cell D q c = if c == 0%N then Ok (f q) else Err KeyError].

(** A vector of values for the polynomials [vf], and what it is for [D'] to
    have these values in the columns [cs] and to be [D] elsewhere. *)
Definition vector (vals : seq int) (n : nat) (w : seq int) : Prop := size w = n /\ {subset w <= vals}.
Definition assigns (P T : eqType) (cs : seq T) (vf : seq P) (w : seq int) (D D' : diagram P T) : Prop :=
  forall q c, cell D' q c =
    if (q \in vf) && (c \in cs) then Ok (nth 0 w (index q vf)) else cell D q c.

(** The list [ds] has one diagram for every vector and no others. *)
Definition one_per_vector (P T : eqType) (vals : seq int) (cs : seq T) (vf : seq P)
    (D : diagram P T) (ds : seq (diagram P T)) : Prop :=
  [/\ size ds = (size vals ^ size vf)%N,
      forall i, (i < size ds)%N -> exists2 w, vector vals (size vf) w & assigns cs vf w D (nth [::] ds i) &
      forall w, vector vals (size vf) w -> exists i,
        [/\ (i < size ds)%N, assigns cs vf w D (nth [::] ds i) &
            forall j, (j < size ds)%N -> assigns cs vf w D (nth [::] ds j) -> j = i]].

Section Spec.
Variables (P : eqType) (K : realDomainType) (A : algebra P K).
Variables (C : idomainType) (den : P -> {poly C}).

(** What tails, derivatives and pseudo-remainders generate from a list. *)
Inductive generated (ps : seq P) : P -> Prop :=
  | gen_zero : generated ps (a_zero A)
  | gen_input p : p \in ps -> generated ps p
  | gen_tail p : generated ps p -> generated ps (a_tail A p)
  | gen_der p : generated ps p -> generated ps (a_derivative A p)
  | gen_rem p q : generated ps p -> generated ps q -> den q != 0 ->
      (size (den q) <= size (den p))%N -> generated ps (a_pseudo_div A p q).2.

(** A list of polynomials closed under the same operations. *)
Definition closed_seq (s : seq P) : Prop :=
  [/\ a_zero A \in s,
      forall p, p \in s -> a_tail A p \in s,
      forall p, p \in s -> a_derivative A p \in s &
      forall p q, p \in s -> q \in s -> den q != 0 -> (size (den q) <= size (den p))%N ->
        (a_pseudo_div A p q).2 \in s].

(** Constants with respect to the eliminated variable. *)
Definition const (p : P) : bool := (size (den p) <= 1)%N.

(** A constant with a parameter in it is generated. *)
Definition has_parameters (ps : seq P) : Prop :=
  exists p, [/\ generated ps p, const p & a_has_variable A p].

Section At.
Variables (F : comRingType) (ev : {rmorphism C -> F}).

(** The value of a polynomial at a parameter value and a point, and of a
    constant one at a parameter value. *)
Definition value (p : P) (x : F) : F := (map_poly ev (den p)).[x].
Definition cvalue (p : P) : F := ev (den p)`_0.
End At.

Section Real.
Variables (R : rcfType) (ev : {rmorphism C -> R}).

Definition real_sat (lesser equalities greater : seq P) (x : R) : Prop :=
  [/\ forall p, p \in lesser -> value ev p x < 0,
      forall p, p \in equalities -> value ev p x = 0 &
      forall p, p \in greater -> 0 < value ev p x].

(** A clause (less, equal, greater) of the result holds. *)
Definition real_clause_holds (c : seq P * seq P * seq P) : Prop :=
  [/\ forall p, p \in c.1.1 -> cvalue ev p < 0,
      forall p, p \in c.1.2 -> cvalue ev p = 0 &
      forall p, p \in c.2 -> 0 < cvalue ev p].

(** The sign that the algebra reports for scalars is right. *)
Definition sign_ok : Prop :=
  forall p, const p -> ~~ a_has_variable A p -> a_sign A p = sgz (cvalue ev p).

(** [D] is a table of the signs of the polynomials [s]: every row has the same
    columns, every column describes some point and every point is described
    by some column. *)
Definition sign_table (s : seq P) (D : diagram P [eqType of rat]) : Prop :=
  exists cs : seq rat,
  [/\ forall q, q \in s -> cols D q =i cs,
      forall c, c \in cs -> exists x, forall q, q \in s -> cell D q c = Ok (sgz (value ev q x)) &
      forall x, exists2 c, c \in cs & forall q, q \in s -> cell D q c = Ok (sgz (value ev q x))].
End Real.

Section Complex.
Variables (F : closedFieldType) (ev : {rmorphism C -> F}).

Definition complex_sat (equalities inequalities : seq P) (x : F) : Prop :=
  (forall p, p \in equalities -> value ev p x = 0) /\
  (forall p, p \in inequalities -> value ev p x <> 0).

Definition complex_clause_holds (c : seq P * seq P) : Prop :=
  (forall p, p \in c.1 -> cvalue ev p = 0) /\ (forall p, p \in c.2 -> cvalue ev p <> 0).

(** Non-zero scalars are not zero. *)
Definition scalars_ok : Prop :=
  forall p, const p -> ~~ a_has_variable A p -> den p != 0 -> cvalue ev p != 0.

(** 0 for zero, 1 for anything else. *)
Definition nz (v : F) : int := if v == 0 then 0 else 1.

Definition zero_table (s : seq P) (D : diagram P [eqType of nat]) : Prop :=
  exists cs : seq nat,
  [/\ forall q, q \in s -> cols D q =i cs,
      forall c, c \in cs -> exists x, forall q, q \in s -> cell D q c = Ok (nz (value ev q x)) &
      forall x, exists2 c, c \in cs & forall q, q \in s -> cell D q c = Ok (nz (value ev q x))].
End Complex.
End Spec.
