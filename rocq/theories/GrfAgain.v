(** Model of the use of one RCF_GD_Decide object of GRF/grf.sage for several
    goals.  Line numbers of grf.sage are marked [g]. *)
From mathcomp Require Import all_ssreflect all_algebra.
From Coq Require Import String.
From Verif Require Import Py GrfModel.

Set Implicit Arguments.
Unset Strict Implicit.
Unset Printing Implicit Defensive.
Import GRing.Theory Num.Theory Order.Theory.
Local Open Scope ring_scope.

Section Again.
Variables (R : realDomainType) (L : lib R) (O : oracle L).
Variable solve : nat -> seq constraint -> seq nat -> res (nat -> bool).
Local Notation poly := (P L).
Local Notation asg := (dict [eqType of var] R).
Variable sample : addr -> option (goal L) -> seq poly -> seq (atom L) -> res (seq asg * seq poly).

(** The attributes of the object that [check] uses (g 753-760): [hyps],
    [goal] (None before assert_goal), and the polynomials installed in
    [q.proj_sets[num_vars - 1]] (g 299-302).  [oorder] is VarOrder.order, a
    class attribute that lives as long as the interpreter.  [status] and
    [witness] are set to None by every assert and nowhere else: they are left
    out. *)
Record object := Obj { ohyps : seq (atom L); ogoal : option (goal L); oorder : seq var; ostore : seq poly }.

(** The constructor (g 753-760), in a fresh interpreter. *)
Definition new_object : object := Obj [::] None [::] [::].

(** assert_hyps (g 778-783) *)
Definition assert_hyps (o : object) (h : atom L) (hs : seq (atom L)) : object :=
  Obj (ohyps o ++ h :: hs) (ogoal o) (oorder o) (ostore o).

(** assert_goal (g 785-788): a new RCF_Goal, without goal hypotheses. *)
Definition assert_goal (o : object) (g : atom L) : object :=
  Obj (ohyps o) (Some (Goal g [::] [::])) (oorder o) (ostore o).

(** check (g 947-1035) as in GrfModel.v, returning in addition the polynomials
    that are installed at the end. *)
Fixpoint check_q (fuel : nat) (partial : bool) (k : nat) (epsilon : R) (cs : option (seq command))
    (top : seq poly) (s : decide L) : res (seq (seq nat) * decide L * seq poly) :=
  if fuel is fuel'.+1 then
    let top' := top ++ apoly (main_goal (dgoal s)) :: [seq apoly h | h <- goal_hyps (dgoal s)] in
    let! sp := sample [:: fuel; 0%N] (if partial then Some (dgoal s) else None) top' (hyps s) in
    let! ob := all_bads O [:: fuel; 1%N] 0 s sp.1 k epsilon in
    let s1 := Decide (hyps s) (dgoal s) ob.1 in
    match ob.2 with
    | None => Ok ([::], s1, sp.2)
    | Some bads =>
        match cs with
        | Some l =>
            let! r := interact solve s1 bads l in
            let: (s2, inter, l') := r in
            let! f := check_q fuel' partial k epsilon (if inter then Some l' else None) sp.2 s2 in
            Ok (bads, f.1.2, f.2)
        | None =>
            let! s2 := auto solve s1 bads in
            let! f := check_q fuel' partial k epsilon None sp.2 s2 in
            Ok (bads, f.1.2, f.2)
        end
    end
  else Err OutOfFuel.

(** The method on the object; without a goal [self.goal.main_goal] raises. *)
Definition check_obj (fuel : nat) (partial : bool) (k : nat) (epsilon : R) (cs : option (seq command))
    (o : object) : res (seq (seq nat) * object) :=
  if ogoal o is Some g then
    let! f := check_q fuel partial k epsilon cs (ostore o) (Decide (ohyps o) g (oorder o)) in
    Ok (f.1.1, Obj (hyps f.1.2) (Some (dgoal f.1.2)) (vorder f.1.2) f.2)
  else Err AttributeError.

(** The calls a program makes on the object. *)
Inductive call := AssertHyps of atom L & seq (atom L) | AssertGoal of atom L
  | Check of nat & bool & nat & R & option (seq command).
Definition serve1 (o : object) (c : call) : res object :=
  match c with
  | AssertHyps h hs => Ok (assert_hyps o h hs)
  | AssertGoal g => Ok (assert_goal o g)
  | Check fuel partial k eps cs => let! f := check_obj fuel partial k eps cs o in Ok f.2
  end.
Definition serve (o : object) (l : seq call) : res object := foldM serve1 o l.

(** ** Specification: what the program has asserted *)
Fixpoint asserted (l : seq call) : seq (atom L) :=
  match l with
  | [::] => [::]
  | AssertHyps h hs :: l' => h :: hs ++ asserted l'
  | _ :: l' => asserted l'
  end.
(** The goals, in order. *)
Fixpoint goals (l : seq call) : seq (atom L) :=
  match l with
  | [::] => [::]
  | AssertGoal g :: l' => g :: goals l'
  | _ :: l' => goals l'
  end.
End Again.
