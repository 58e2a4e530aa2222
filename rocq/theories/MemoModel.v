(** Model of highschool_qe/cachedsympywrapper.py.

    Python values are elements of [V]; [None] of [option V] is Python's None.
    [key] sends a value to its class under Python's [==] (dictionary keys are
    compared with it, so an int and the equal sympy Integer are one key).
    [under m args] is the call of method [m] of the wrapped SympyWrapper
    (sympywrapper.py), assumed to depend on nothing but its arguments.
    Dictionaries are mutated in place in the code; here the new dictionary is
    returned. *)
From mathcomp Require Import all_ssreflect.
From Coq Require Import String.
From Verif Require Import Py.

Set Implicit Arguments.
Unset Strict Implicit.
Unset Printing Implicit Defensive.

Section Memo.
Variables (M : eqType) (V : Type) (K : eqType) (key : V -> K).

(** Keys: a bound method (they are equal when object and function are), or a
    tuple of arguments. *)
Definition ckey : eqType := [eqType of (M + seq K)%type].

(** Nested dictionaries with values at the bottom. *)
Inductive tree : Type :=
  | Leaf of option V
  | Node of seq (ckey * tree).

(** cachedsympywrapper.py 33-38: _c_get.  The result is None or what is
    stored. *)
Fixpoint c_get (cache : tree) (args : seq ckey) : res (option tree) :=
  match args with
  | [::] => Err IndexError
  | k :: rest =>
      match cache with
      | Leaf _ => Err AttributeError
      | Node d =>
          if ~~ dmem d k then Ok None
          else
            let! t := dget d k in
            if rest is [::] then Ok (Some t) else c_get t rest
      end
  end.

(** cachedsympywrapper.py 40-49: _c_put.  Under a new key both recursive
    calls are made. *)
Fixpoint c_put (cache : tree) (value : option V) (args : seq ckey) : res tree :=
  match args with
  | [::] => Err IndexError
  | k :: rest =>
      match cache with
      | Leaf _ => if rest is [::] then Err TypeError else Err AttributeError
      | Node d =>
          if rest is [::] then Ok (Node (dset d k (Leaf value)))
          else
            let! d := (if ~~ dmem d k then
                         let! t := c_put (Node [::]) value rest in Ok (dset d k t)
                       else Ok d) in
            let! t := dget d k in
            let! t' := c_put t value rest in
            Ok (Node (dset d k t'))
      end
  end.

Variable under : M -> seq V -> res (option V).

(** A computation with the cache: the outcome, the new cache and the calls of
    the wrapped object that were made. *)
Definition step : Type := (res (option V) * tree * seq (M * seq V))%type.

(** cachedsympywrapper.py 62-73: _c_compute. *)
Definition c_compute (cache : tree) (f : M) (args : seq V) : step :=
  let k : seq ckey := [:: inl f; inr (map key args)] in
  match c_get cache k with
  | Err e => (Err e, cache, [::])
  | Ok (Some (Leaf (Some v))) => (Ok (Some v), cache, [::])
  | Ok (Some (Node _)) => (Err TypeError, cache, [::])  (* a dictionary would be returned *)
  | Ok _ =>
      if (size args == 1) || (size args == 2) then
        match under f args with
        | Err e => (Err e, cache, [:: (f, args)])
        | Ok ret =>
            match c_put cache ret k with
            | Err e => (Err e, cache, [:: (f, args)])
            | Ok cache' => (Ok ret, cache', [:: (f, args)])
            end
        end
      else (Err (Exc "not impl yet"), cache, [::])
  end.

(** cachedsympywrapper.py 76-111: the methods; [direct] are those that are
    passed on (e_var, zero, sign). *)
Variable direct : pred M.
Definition call (cache : tree) (m : M) (args : seq V) : step :=
  if direct m then (under m args, cache, [:: (m, args)]) else c_compute cache m args.

(** A program that uses the wrapper: it returns or raises, or calls a method
    and goes on, depending on the outcome (which it may catch). *)
Inductive prog (T : Type) : Type :=
  | Done of res T
  | Call of M & seq V & (res (option V) -> prog T).

(** With the wrapped object itself, and with the caching wrapper. *)
Fixpoint run_plain (T : Type) (p : prog T) : res T :=
  match p with
  | Done r => r
  | Call m args k => run_plain (k (under m args))
  end.

Fixpoint run_cached (T : Type) (cache : tree) (p : prog T) : res T * tree * seq (M * seq V) :=
  match p with
  | Done r => (r, cache, [::])
  | Call m args k =>
      let: (r, cache', calls) := call cache m args in
      let: (r', cache'', calls') := run_cached cache' (k r) in
      (r', cache'', calls ++ calls')
  end.

(** The methods take one or two arguments, except for the direct ones. *)
Fixpoint arities (T : Type) (p : prog T) : Prop :=
  match p with
  | Done _ => True
  | Call m args k => (direct m \/ size args = 1 \/ size args = 2) /\ forall r, arities (k r)
  end.
End Memo.

(** cachedsympywrapper.py 20-31: timer.  A Python function is called with a
    list of arguments; a lambda of one argument takes no other number.  The
    result comes with the number of calls of [f].  [range(count)] is [count]
    calls. *)
Section Timer.
Variable V : Type.
Definition pyfun := seq V -> res V.
Definition lambda1 (f : V -> res V) : pyfun := fun l => if l is [:: x] then f x else Err TypeError.

Fixpoint timer (count : nat) (f : pyfun) (args : seq V) : res V * nat :=
  match args with
  | [::] => (Err IndexError, 0)
  | a :: rest =>
      if rest is [::] then
        (fix loop n := match n with
          | 0 => (f [:: a], 1)
          | n'.+1 => match f [:: a] with
                     | Err e => (Err e, 1)
                     | Ok _ => let: (r, c) := loop n' in (r, c.+1)
                     end
          end) count
      else timer count (lambda1 (fun x => f [:: a; x])) rest
  end.
End Timer.
