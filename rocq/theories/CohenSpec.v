(** Specification vocabulary for highschool_qe/cohenhorm.py; algebra_contract,
    sign_ok, value, cvalue, real_sat and real_clause_holds are those of
    MuchSpec. *)
From mathcomp Require Import all_ssreflect all_algebra.
From Verif Require Import Py MuchModel MuchSpec CohenModel.

Set Implicit Arguments.
Unset Strict Implicit.
Unset Printing Implicit Defensive.
Import GRing.Theory Num.Theory Order.TTheory.
Local Open Scope ring_scope.

(** Sorted sets: no element twice, the elements of the list, the largest degrees
    first. *)
Record degree_sets (P : eqType) (K : realDomainType) (A : algebra P K)
    (ss_of : seq P -> seq P) (ss_plus : seq P -> P -> seq P) : Prop := {
  ss_of_uniq : forall l, uniq (ss_of l);
  ss_of_mem : forall l, ss_of l =i l;
  ss_of_sorted : forall l, sorted (fun p q => deg A q <= deg A p) (ss_of l);
  ss_plus_uniq : forall l p, uniq l -> uniq (ss_plus l p);
  ss_plus_mem : forall l p, ss_plus l p =i p :: l
}.

Section Spec.
Variables (P : eqType) (K : realDomainType) (A : algebra P K).
Variables (C : idomainType) (den : P -> {poly C}).
Implicit Types (p q : P) (con : context P).

(** The signs of scalars are signs, and only that of zero is zero; a polynomial
    of degree 0 is its own leading coefficient (it is written in expanded
    form). *)
Definition scalars_exact : Prop :=
  (forall p, const den p -> ~~ a_has_variable A p ->
     a_sign A p \in [:: -1; 0; 1] /\ (a_sign A p = 0 -> p = a_zero A)) /\
  (forall p, const den p -> a_LC A p = p).

(** A dictionary that keeps all entries of another. *)
Definition extends (V : Type) (d d' : dict P V) : Prop := forall k v, dget d k = Ok v -> dget d' k = Ok v.

(** [q] is what is left of [p] when the leading terms that vanish according to
    the context are dropped; the leading coefficient of [q] is a scalar or has
    a non-zero sign in the context. *)
Inductive reduces con : P -> P -> Prop :=
  | red_scalar p : ~~ a_has_variable A (a_LC A p) -> reduces con p p
  | red_nonzero p s : a_has_variable A (a_LC A p) -> dget con (a_LC A p) = Ok s -> s != 0 ->
      reduces con p p
  | red_tail p q : a_has_variable A (a_LC A p) -> dget con (a_LC A p) = Ok 0 ->
      reduces con (a_tail A p) q -> reduces con p q.

(** The leading coefficient is known not to vanish. *)
Definition determined con p : Prop :=
  p <> a_zero A /\
  (~~ a_has_variable A (a_LC A p) \/ exists2 s, dget con (a_LC A p) = Ok s & s != 0).

(** The lists for which [real_table] is right: a single constant, or a list
    whose polynomials of largest degree are known to have this degree; zero only
    together with polynomials that are not constant. *)
Definition accepted con (ps : seq P) : Prop :=
  (exists2 p, ps =i [:: p] & const den p) \/
  [/\ ps <> [::],
      forall p, p \in ps -> (forall q, q \in ps -> (size (den q) <= size (den p))%N) -> determined con p &
      a_zero A \in ps -> exists2 p, p \in ps & ~~ const den p].

Section At.
Variables (R : rcfType) (ev : {rmorphism C -> R}).

(** The context holds at a parameter value. *)
Definition consistent con : bool := all (fun x => x.2 == sgz (cvalue den ev x.1)) con.

(** The sign of a polynomial near minus and near plus infinity. *)
Definition sign_minf (Q : {poly R}) : int := sgz (lead_coef Q) * (-1) ^+ (size Q).-1.
Definition sign_pinf (Q : {poly R}) : int := sgz (lead_coef Q).

(** [T] is a faithful sign table of the polynomials [s]: there are points
    [xs], in increasing order, such that the columns are 0 (minus infinity), one
    for every interval between points, one for every point, and 1 (plus
    infinity), in the order of the line. *)
Definition between_points (xs : seq R) (i : nat) (y : R) : Prop :=
  (forall j, (j < i)%N -> nth 0 xs j < y) /\
  (forall j, (i <= j)%N -> (j < size xs)%N -> y < nth 0 xs j).

Definition faithful_at (s : seq P) (T : diagram P [eqType of rat]) (xs : seq R) : Prop :=
  exists is_ es : seq rat,
  [/\ [/\ size is_ = (size xs).+1, size es = size xs, sorted <%R xs &
          sorted <%R (0 :: flatten [seq [:: x.1; x.2] | x <- zip is_ (rcons es 1)])],
      forall q, q \in s -> cols T q =i 0 :: 1 :: is_ ++ es,
      forall q, q \in s -> cell T q 0 = Ok (sign_minf (map_poly ev (den q))) /\
                           cell T q 1 = Ok (sign_pinf (map_poly ev (den q))),
      forall q i, q \in s -> (i < size xs)%N ->
        cell T q (nth 0 es i) = Ok (sgz (value den ev q (nth 0 xs i))) &
      forall q i y, q \in s -> (i <= size xs)%N -> between_points xs i y ->
        cell T q (nth 0 is_ i) = Ok (sgz (value den ev q y))].

Definition faithful (s : seq P) (T : diagram P [eqType of rat]) : Prop := exists xs, faithful_at s T xs.

(** The points are exactly the roots of the polynomials that do not vanish
    identically. *)
Definition condensed (s : seq P) (T : diagram P [eqType of rat]) : Prop :=
  exists2 xs, faithful_at s T xs &
  forall x, x \in xs <-> exists2 q, q \in s & map_poly ev (den q) != 0 /\ root (map_poly ev (den q)) x.
End At.
End Spec.
