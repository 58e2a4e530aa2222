(** vts/matrix_of_signs.py in several processes that share the cache directory:
    the same functions as in CacheModel, as programs whose operations on the
    directory can be interleaved with those of other processes. *)
From mathcomp Require Import all_ssreflect all_algebra.
From Coq Require Import String.
From Verif Require Import Py VtsModel CacheModel CacheSpec.

Set Implicit Arguments.
Unset Strict Implicit.
Unset Printing Implicit Defensive.
Import GRing.Theory.

(** ** Programs *)
Inductive prog (A : Type) : Type :=
  | Ret of A
  | Hit of fname & (bool -> prog A)                 (* 17-18: os.path.isfile *)
  | Read of fname & (res rmatrix -> prog A)         (* 19-21 *)
  | Open of fname & prog A                          (* 15: open(name, 'wb') *)
  | Dump of fname & rmatrix & prog A.               (* 16: pickle.dump *)
Arguments Ret {A}.

Fixpoint pbind (A B : Type) (p : prog A) (g : A -> prog B) : prog B :=
  match p with
  | Ret a => g a
  | Hit k f => Hit k (fun b => pbind (f b) g)
  | Read k f => Read k (fun r => pbind (f r) g)
  | Open k p => Open k (pbind p g)
  | Dump k m p => Dump k m (pbind p g)
  end.

(** The tables new_matrix_of_signs_lookup and new_matrix_of_signs_inverse_lookup
    of a process. *)
Definition tables : Type := memo * memo.

Section Programs.
Variable mx_inv : rmatrix -> rmatrix.

(** 9-16 [write_to_cache]; makedirs succeeds or finds the directory. *)
Definition write (A : Type) (k : fname) (m : rmatrix) (p : prog A) : prog A := Open k (Dump k m p).

(** 54-93 *)
Fixpoint matrix_prog (n : nat) (t : tables) : prog (res rmatrix * tables) :=
  match n with
  | 0 => Ret (Err (Exc "%d is < 1"), t)
  | n'.+1 =>
      if dget t.1 n is Ok m then Ret (Ok m, t)
      else if (5 < n)%N then Ret (Err exc_more_than_5, t)
      else Hit (0, n) (fun hit =>
        if hit then Read (0, n) (fun r =>
          Ret (match r with Ok m => (Ok m, (dset t.1 n m, t.2)) | Err e => (Err e, t) end))
        else pbind (matrix_prog n' t) (fun x =>
          match x.1 with
          | Err e => Ret (Err e, x.2)
          | Ok previous =>
              match dget x.2.1 1 with
              | Err e => Ret (Err e, x.2)
              | Ok first =>
                  let current := tensor_product previous first in
                  write (0, n) current (Ret (Ok current, (dset x.2.1 n current, x.2.2)))
              end
          end))
  end.

(** 95-138 *)
Definition inverse_prog (n : nat) (t : tables) : prog (res rmatrix * tables) :=
  if (n < 1)%N then Ret (Err (Exc "%d is < 1"), t)
  else if dget t.2 n is Ok m then Ret (Ok m, t)
  else if (5 < n)%N then Ret (Err exc_more_than_5, t)
  else Hit (1, n) (fun hit =>
    if hit then Read (1, n) (fun r =>
      Ret (match r with Ok m => (Ok m, (t.1, dset t.2 n m)) | Err e => (Err e, t) end))
    else pbind (matrix_prog n t) (fun x =>
      match x.1 with
      | Err e => Ret (Err e, x.2)
      | Ok matrix =>
          let inverse := mx_inv matrix in
          write (1, n) inverse (Ret (Ok inverse, (x.2.1, dset x.2.2 n inverse)))
      end)).

Definition call_prog (inv : bool) (n : pyarg) (t : tables) : prog (res rmatrix * tables) :=
  match n with
  | PyOther => Ret (Err (Exc "%s is not an int"), t)
  | PyInt (Negz _) => Ret (Err (Exc "%d is < 1"), t)
  | PyInt (Posz n) => if inv then inverse_prog n t else matrix_prog n t
  end.

(** 49-50, 162-175 *)
Definition import_prog : prog (res unit * tables) :=
  let t := ([:: (1%N, sign_matrix1)], [:: (1%N, mx_inv sign_matrix1)]) in
  Hit (2, 0) (fun hit =>
    if hit then Read (2, 0) (fun r => Ret (match r with Ok _ => (Ok tt, t) | Err e => (Err e, t) end))
    else pbind (matrix_prog 1 t) (fun x =>
      match x.1 with
      | Err e => Ret (Err e, x.2)
      | Ok m => write (2, 0) (mx_inv m) (Ret (Ok tt, x.2))
      end)).

(** A process imports the module and calls the two functions, [true] for
    get_matrix_inverse; it goes on after an exception of a call. *)
Fixpoint calls_prog (cs : seq (bool * pyarg)) (t : tables) (out : seq (res rmatrix)) : prog (seq (res rmatrix)) :=
  if cs is c :: cs' then pbind (call_prog c.1 c.2 t) (fun x => calls_prog cs' x.2 (rcons out x.1)) else Ret out.
Definition session (cs : seq (bool * pyarg)) : prog (res (seq (res rmatrix))) :=
  pbind import_prog (fun x =>
    match x.1 with Ok _ => pbind (calls_prog cs x.2 [::]) (fun out => Ret (Ok out)) | Err e => Ret (Err e) end).
End Programs.

(** ** Execution *)
Section Execution.
Variable A : Type.

(** One operation on the directory. *)
Definition pstep (p : prog A) (d : disk) : prog A * disk :=
  match p with
  | Ret a => (Ret a, d)
  | Hit k f => (f (dmem d k), d)
  | Read k f =>
      (f (match dget d k with Ok (Whole m) => Ok m | Ok Partial => Err EOFError | Err e => Err e end), d)
  | Open k p => (p, dset d k Partial)
  | Dump k m p => (p, dset d k (Whole m))
  end.
(** A process that runs alone. *)
Fixpoint prun (p : prog A) (d : disk) : A * disk :=
  match p with
  | Ret a => (a, d)
  | Hit k f => prun (f (dmem d k)) d
  | Read k f =>
      prun (f (match dget d k with Ok (Whole m) => Ok m | Ok Partial => Err EOFError | Err e => Err e end)) d
  | Open k p => prun p (dset d k Partial)
  | Dump k m p => prun p (dset d k (Whole m))
  end.
(** Several processes; the schedule names the process that makes the next step.
    A process that is not named any more has died. *)
Definition system : Type := seq (prog A) * disk.
Definition sys_step (s : system) (i : nat) : system :=
  if drop i s.1 is p :: _ then
    let: (p', d') := pstep p s.2 in (take i s.1 ++ p' :: drop i.+1 s.1, d')
  else s.
Definition sys_run (s : system) (sched : seq nat) : system := foldl sys_step s sched.
Definition ended (s : system) (i : nat) : option A := if drop i s.1 is Ret a :: _ then Some a else None.
Definition all_ended (s : system) : bool := all (fun p => if p is Ret _ then true else false) s.1.
End Execution.

(** ** Specification *)
(** The answer to a call: the expected matrix for a valid argument, an exception
    for any other. *)
Definition answer (c : bool * pyarg) (r : res rmatrix) : Prop :=
  (forall k, valid_arg c.2 k -> exists2 M, r = Ok M & is_expected c.1 k M) /\
  ((forall k, ~ valid_arg c.2 k) -> exists e, r = Err e).
(** The same, or EOFError for a valid argument. *)
Definition answer_or_eof (c : bool * pyarg) (r : res rmatrix) : Prop :=
  (forall k, valid_arg c.2 k -> r = Err EOFError \/ exists2 M, r = Ok M & is_expected c.1 k M) /\
  ((forall k, ~ valid_arg c.2 k) -> exists e, r = Err e).
