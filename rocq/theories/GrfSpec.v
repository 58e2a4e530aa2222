(** Specification vocabulary for the GRF theorems: truth of atoms, goals and
    sequents at points of a real field [K] that contains the numbers [R] the
    program computes with, and what is assumed of Sage's polynomials. *)
From mathcomp Require Import all_ssreflect all_algebra.
From Coq Require Import String.
From Verif Require Import Py GrfModel.

Set Implicit Arguments.
Unset Strict Implicit.
Unset Printing Implicit Defensive.
Import GRing.Theory Num.Theory Order.Theory.
Local Open Scope ring_scope.

Section Spec.
Variables (R : realDomainType) (L : lib R) (K : realDomainType) (inj : R -> K).
Local Notation poly := (P L).
Local Notation asg := (dict [eqType of var] R).
Local Notation point := (var -> K).

(** The truth of [x op 0]. *)
Definition op_true (op : relop) (x : K) : bool :=
  match op with
  | RGt => 0 < x | RLt => x < 0 | RLe => x <= 0
  | RGe => 0 <= x | REq => x == 0 | RNe => x != 0
  end.

(** [val p e] is the value of the polynomial [p] at the point [e]. *)
Variable val : poly -> point -> K.

Definition atom_true (a : atom L) (e : point) : bool := op_true (aop a) (val (apoly a) e).
Definition all_true (l : seq (atom L)) (e : point) : bool := all (fun a => atom_true a e) l.
(** The goal: its hypotheses imply the main goal. *)
Definition goal_true (g : goal L) (e : point) : bool :=
  all_true (goal_hyps g) e ==> atom_true (main_goal g) e.
(** The sequent: the remaining hypotheses imply the goal. *)
Definition sequent_true (s : decide L) (e : point) : bool :=
  all_true (hyps s) e ==> goal_true (dgoal s) e.

(** A point that agrees with an assignment. *)
Definition agrees (d : asg) (e : point) : Prop :=
  forall v x, dget d v = Ok x -> e v = inj x.

Definition cmp_of (x : K) : comparison := if x < 0 then Lt else if x == 0 then Eq else Gt.

(** What is assumed of the library. *)
Record lib_ok : Prop := LibOk {
  (* the value depends on the variables only *)
  val_vars : forall p e e', {in variables p, e =1 e'} -> val p e = val p e';
  (* comparison with 0 of a fully substituted polynomial is that of its value *)
  val_subst : forall p d e, all (fun v => dmem d v) (variables p) -> agrees d e ->
    cmp0 (substitute p d) = cmp_of (val p e);
  (* a basis of an ideal vanishes where the generators do, ... *)
  val_gb : forall (l : seq poly) e, (forall p, p \in l -> val p e = 0) ->
    forall q, q \in groebner_basis l -> val q e = 0;
  (* ... is not the empty list, ... *)
  gb_nonempty : forall l : seq poly, l <> [::] -> groebner_basis l <> [::];
  (* ... and reduction keeps the value where the basis vanishes *)
  val_reduce : forall p (B : seq poly) e, (forall q, q \in B -> val q e = 0) -> val (reduce p B) e = val p e
}.

(** The atom knows its variables. *)
Definition atom_wf (a : atom L) : bool := all (fun v => v \in avars a) (variables (apoly a)).

(** All atoms of a goal know their variables. *)
Definition goal_wf (g : goal L) : bool := all atom_wf (main_goal g :: goal_hyps g).
End Spec.

(** ** The 0/1 program *)
Definition cost (w : seq nat) (l : seq nat) : nat := sumn [seq nth 0%N w i | i <- l].
Definition meets (x : nat -> bool) (c : constraint) : bool :=
  match c with AtLeastOne l => has x l | Fix v b => x v == b end.
Definition ones (n : nat) (x : nat -> bool) : seq nat := [seq i <- iota 0 n | x i].

(** An exact solver: it returns a cheapest solution, and raises only when
    there is none. *)
Definition exact_solver (solve : nat -> seq constraint -> seq nat -> res (nat -> bool)) : Prop :=
  forall n cs w,
    (forall x, solve n cs w = Ok x -> all (meets x) cs /\
       forall y, all (meets y) cs -> (cost w (ones n x) <= cost w (ones n y))%N) /\
    (forall e, solve n cs w = Err e -> e = Exc "MIPSolverException"%string /\ forall y, ~~ all (meets y) cs).
