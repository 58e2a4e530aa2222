(** Specification vocabulary for vts/checker.py: truth of relations at points,
    and the contracts of the sympy operations involved. *)
From Coq Require Import String.
From mathcomp Require Import all_ssreflect all_algebra.
From Verif Require Import Py CheckerModel.

Set Implicit Arguments.
Unset Strict Implicit.
Unset Printing Implicit Defensive.
Import GRing.Theory Num.Theory.
Local Open Scope ring_scope.

Section Truth.
Variables (R : realDomainType) (E Pt : Type) (val : E -> Pt -> R).

(** The relation between two numbers that a class stands for. *)
Definition rel_holds (c : cls) (a b : R) : Prop :=
  match c with
  | CLe => a <= b
  | CLt => a < b
  | CEq => a = b
  | CNe => a <> b
  | CGe => b <= a
  | CGt => b < a
  end.

Definition holds (x : Pt) (f : formula E) : Prop :=
  match f with
  | Rel c a b => rel_holds c (val a x) (val b x)
  | Bool t => t = true
  end.

Definition all_hold (x : Pt) (l : seq (formula E)) : Prop := forall f, List.In f l -> holds x f.

(** Contracts: unary minus; the relation constructors, which may evaluate;
    the iteration order of a set is any list with the same elements. *)
Definition opp_contract (opp : E -> E) : Prop := forall a x, val (opp a) x = - val a x.
Definition mk_contract (mk : cls -> E -> E -> formula E) : Prop :=
  forall c a b, mk c a b = Rel c a b \/
    exists t : bool, mk c a b = Bool t /\ forall x, t = true <-> rel_holds c (val a x) (val b x).
End Truth.

Definition set_contract (T : Type) (set_of : seq T -> seq T) : Prop :=
  forall l f, List.In f (set_of l) <-> List.In f l.

(** Only trivially true formulas. *)
Definition only_true (E : Type) (l : seq (formula E)) : Prop :=
  forall f, List.In f l -> f = Bool true.

(** Relations as make_univariate leaves them: a non-constant polynomial
    compared with zero, or a truth value. *)
Definition univariate (f : formula upoly) : Prop :=
  match f with Rel _ P Q => (1 < size P)%N /\ Q = 0 | Bool _ => True end.

(** The relations that the deciders accept. *)
Definition is_less (E : Type) (f : formula E) : bool :=
  match f with Rel (CGe | CGt) _ _ => false | _ => true end.

(** The four relations of make_relation_map. *)
Definition accepted (E : Type) (f : formula E) : bool :=
  match f with Rel (CLe | CLt | CEq | CNe) _ _ => true | _ => false end.

(** The left-hand sides of the relations of one of these classes, in order. *)
Definition lhs_of (E : Type) (c : cls) (l : seq (formula E)) : seq E :=
  pmap (fun f => match f, c with
    | Rel CLe a _, CLe | Rel CLt a _, CLt | Rel CEq a _, CEq | Rel CNe a _, CNe => Some a
    | _, _ => None end) l.

(** ** Values of terms: undefined where a division by zero occurs *)
Section Terms.
Variable R : realFieldType.

Definition lift2 (f : R -> R -> R) (a b : option R) : option R :=
  if a is Some x then if b is Some y then Some (f x y) else None else None.

Fixpoint tvalue (t : term) (v : string -> R) : option R :=
  match t with
  | TNum q => Some (ratr q)
  | TVar s => Some (v s)
  | TAdd a b => lift2 +%R (tvalue a v) (tvalue b v)
  | TSub a b => lift2 (fun x y => x - y) (tvalue a v) (tvalue b v)
  | TMul a b => lift2 *%R (tvalue a v) (tvalue b v)
  | TDiv a b =>
      if tvalue b v is Some y then
        if y == 0 then None else lift2 (fun x y => x / y) (tvalue a v) (tvalue b v)
      else None
  | TNeg a => omap (fun x => - x) (tvalue a v)
  end.

(** A relation between terms whose two sides have a value holds. *)
Definition tholds (v : string -> R) (f : formula term) : Prop :=
  match f with
  | Rel c a b => exists x y, [/\ tvalue a v = Some x, tvalue b v = Some y & rel_holds c x y]
  | Bool t => t = true
  end.

(** A rewriting of terms that keeps the value wherever there is one, and
    brings in no new variable. *)
Definition keeps_value (f : term -> term) : Prop :=
  (forall t v x, tvalue t v = Some x -> tvalue (f t) v = Some x) /\
  (forall t s, List.In s (tvars (f t)) -> List.In s (tvars t)).

(** Relation constructors that may evaluate the relation. *)
Definition mk_term_contract (mk : cls -> term -> term -> formula term) : Prop :=
  forall c a b, mk c a b = Rel c a b \/
    exists t : bool, mk c a b = Bool t /\
      forall v x y, tvalue a v = Some x -> tvalue b v = Some y -> (t = true <-> rel_holds c x y).
End Terms.

(** A sequent, read as in the example files: some succedent formula. *)
Definition some_hold (R : realDomainType) (E Pt : Type) (val : E -> Pt -> R)
    (x : Pt) (l : seq (formula E)) : Prop := exists2 f, List.In f l & holds val x f.
