(** Model of SMTContext of GRF/smt2.py (line numbers refer to it): the naming
    of variables and perform_grf.

    Not modelled: coercion of polynomials between rings (a variable is its
    number, and numbers keep their meaning when the ring grows); the pyparsing
    wrapper around the call. *)
From mathcomp Require Import all_ssreflect all_algebra.
From Coq Require Import String.
From Verif Require Import Py GrfModel.

Set Implicit Arguments.
Unset Strict Implicit.
Unset Printing Implicit Defensive.
Import GRing.Theory Num.Theory Order.Theory.

(** ** get_ring_var (60-81) *)

(** Names are an arbitrary type with equality.  [nvars] is [len(self.x)], and
    [var_map] maps names to the number of a generator; a new context has one
    generator (41-43). *)
Section Names.
Variable name : eqType.
Record ctx := Ctx { nvars : nat; var_map : dict name nat }.
Definition new_ctx : ctx := Ctx 1 [::].

Definition get_ring_var (c : ctx) (s : name) : res (ctx * nat) :=
  if dmem (var_map c) s then let! v := dget (var_map c) s in Ok (c, v) else
  if (size (var_map c) < nvars c)%N
  then (* new_x = self.x[len(self.var_map)] *)
    let v := size (var_map c) in Ok (Ctx (nvars c) (dset (var_map c) s v), v)
  else (* the ring gets one generator more; new_x = self.x[cur_ring_vars] *)
    let v := nvars c in Ok (Ctx (nvars c).+1 (dset (var_map c) s v), v).

(** A history of look-ups. *)
Fixpoint lookups (c : ctx) (l : seq name) : res (ctx * seq nat) :=
  match l with
  | [::] => Ok (c, [::])
  | s :: l' =>
      let! r := get_ring_var c s in
      let! r' := lookups r.1 l' in
      Ok (r'.1, r.2 :: r'.2)
  end.
End Names.

(** ** perform_grf (107-189) *)
Section Perform.
Local Open Scope ring_scope.
Variables (R : realDomainType) (L : lib R) (O : oracle L).
Local Notation poly := (P L).
Local Notation asg := (dict [eqType of var] R).
Variable solve : nat -> seq constraint -> seq nat -> res (nat -> bool).
Variable sample : addr -> option (goal L) -> seq poly -> seq (atom L) -> res (seq asg * seq poly).

(** 168-172 and 178-182.  [h in hyps_to_hide] compares objects, the class has
    no [__eq__]. *)
Fixpoint hide_indices (i : nat) (l : seq (atom L)) (hyps_to_hide : seq (atom L)) : seq nat :=
  match l with
  | [::] => [::]
  | h :: l' =>
      (if aid h \in map (@aid R L) hyps_to_hide then [:: i] else [::]) ++ hide_indices i.+1 l' hyps_to_hide
  end.

(** [top] and [order] are what earlier sequents of the file left in QEF and
    VarOrder.  [negate] changes the atoms of the succedent in place.  The
    result is hiding_result and self.GRF. *)
Definition perform_grf (fuel k : nat) (epsilon : R) (cs : option (seq command)) (top : seq poly) (order : seq var)
    (antecedent succedent : seq (atom L)) : res (seq nat * seq nat * decide L) :=
  let several := (1 < size succedent)%N in
  let succ := if several then rev succedent else succedent in
  let negated := if several then [seq negate h | h <- behead succ] else [::] in
  let ante := antecedent ++ negated in
  let! m := pyget succ 0 in
  let! r := check O solve sample fuel true k epsilon cs top (Decide ante (Goal m [::] [::]) order) in
  let hide := hyps r.2 in
  let s := rev (take 1 succ ++ negated) in
  Ok (hide_indices 0 ante hide, hide_indices 0 s hide, r.2).

(** grf_on_file (451-490) returns the lengths of the two lists. *)
Definition grf_on_file fuel k epsilon cs top order antecedent succedent : res (nat * nat) :=
  let! r := perform_grf fuel k epsilon cs top order antecedent succedent in
  Ok (size r.1.1, size r.1.2).

(** [hides = sum(return_dict[id])] of test.py 89. *)
Definition hides (r : nat * nat) : nat := r.1 + r.2.
End Perform.
