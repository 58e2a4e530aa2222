(** Shared vocabulary of the models: Python exceptions as values, and Python
    dictionaries as association lists. *)
From mathcomp Require Import all_ssreflect.
From mathcomp.zify Require Import zify.
From Coq Require Import String.

Set Implicit Arguments.
Unset Strict Implicit.
Unset Printing Implicit Defensive.

(** [lia] for goals about lengths: the same list may occur at convertible but
    syntactically different types, so these are made equal first. *)
Ltac norm_sizes :=
  repeat match goal with
  | |- context [@size ?T ?s] =>
      match type of s with list ?T' =>
        tryif constr_eq T T' then fail
        else change (@size T s) with (@size T' s) end
  | H : context [@size ?T ?s] |- _ =>
      match type of s with list ?T' =>
        tryif constr_eq T T' then fail
        else change (@size T s) with (@size T' s) in H end
  end.
Ltac slia := norm_sizes; lia.

(** Exceptions that the modelled code can raise.  [Exc s] is
    [raise Exception(s)]; [OutOfFuel] is not a Python exception, it marks
    recursion that did not finish within the fuel given to the model (in
    Python: the recursion limit, or non-termination). *)
Inductive exn : Type :=
  | IndexError
  | KeyError
  | TypeError
  | AttributeError
  | AssertionError
  | EOFError
  | Exc of string
  | OutOfFuel.

(** A Python computation either returns a value or raises. *)
Inductive res (A : Type) : Type :=
  | Ok of A
  | Err of exn.
Arguments Err {A}.

Definition bind (A B : Type) (m : res A) (k : A -> res B) : res B :=
  match m with Ok a => k a | Err e => Err e end.

Notation "'let!' x := m 'in' k" := (bind m (fun x => k))
  (at level 200, x name, m at level 200, k at level 200).

Lemma bind_ok (A B : Type) (a : A) (k : A -> res B) : bind (Ok a) k = k a.
Proof. by []. Qed.

(** [map(f, l)] / a list comprehension whose body may raise: evaluated left
    to right, the first exception wins. *)
Fixpoint mapM (A B : Type) (f : A -> res B) (l : seq A) : res (seq B) :=
  match l with
  | [::] => Ok [::]
  | a :: l' => let! b := f a in let! bs := mapM f l' in Ok (b :: bs)
  end.

(** A [for] loop over a list threading a state, where the body may raise. *)
Fixpoint foldM (A S : Type) (f : S -> A -> res S) (s : S) (l : seq A) : res S :=
  match l with
  | [::] => Ok s
  | a :: l' => let! s' := f s a in foldM f s' l'
  end.

(** [l[i]] for a non-negative index. *)
Definition pyget (A : Type) (l : seq A) (i : nat) : res A :=
  match drop i l with [::] => Err IndexError | a :: _ => Ok a end.

(** [l[-1]]. *)
Definition pylast (A : Type) (l : seq A) : res A :=
  match l with [::] => Err IndexError | a :: l' => Ok (last a l') end.

(** [l[:-1]]. *)
Definition pybutlast (A : Type) (l : seq A) : seq A := take (size l).-1 l.

(** Python dictionaries as association lists without duplicate keys. *)
Section Dict.
Variables (K : eqType) (V : Type).
Definition dict := seq (K * V).

(** [d[k]]. *)
Fixpoint dget (d : dict) (k : K) : res V :=
  match d with
  | [::] => Err KeyError
  | (k', v) :: d' => if k == k' then Ok v else dget d' k
  end.

(** [d[k] = v]. *)
Fixpoint dset (d : dict) (k : K) (v : V) : dict :=
  match d with
  | [::] => [:: (k, v)]
  | (k', v') :: d' => if k == k' then (k', v) :: d' else (k', v') :: dset d' k v
  end.

(** [k in d]. *)
Definition dmem (d : dict) (k : K) : bool := k \in map fst d.
End Dict.
