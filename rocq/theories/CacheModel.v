(** Model of vts/matrix_of_signs.py: the in-memory caches, the cache
    directory, module import, and processes that die in the middle of a call.

    The directory maps file names to files; [open(name, 'wb')] creates or
    truncates the file, [pickle.dump] then completes it, so a process that dies
    in between leaves a [Partial] file.  The returned matrices are never
    mutated by callers (uni_vts.py only multiplies them), so sharing is not
    modelled.  [load_or_create_matrix] returns None (line 33). *)
From mathcomp Require Import all_ssreflect all_algebra.
From Coq Require Import String.
From Verif Require Import Py VtsModel.

Set Implicit Arguments.
Unset Strict Implicit.
Unset Printing Implicit Defensive.
Import GRing.Theory.

(** File names: matrix_of_signs_%d.pkl is [(0, n)], matrix_of_signs_inverse_%d.pkl
    is [(1, n)], matrix_of_signs_inverse.pkl is [(2, 0)]. *)
Definition fname : eqType := [eqType of nat * nat].
Inductive file := Partial | Whole of rmatrix.
Definition disk := dict fname file.
Definition memo := dict nat_eqType rmatrix.

(** The state of a running process; [trace] lists the contents of the
    directory after each of its changes, most recent first. *)
Record proc := MkProc { lookup : memo; inv_lookup : memo; files : disk; trace : seq disk }.

(** An argument of get_matrix: a Python int or something else. *)
Inductive pyarg := PyInt of int | PyOther.

Section Cache.
Variable mx_inv : rmatrix -> rmatrix.

Definition put_file (name : fname) (f : file) (s : proc) : proc :=
  let d := dset (files s) name f in
  MkProc (lookup s) (inv_lookup s) d (d :: trace s).

(** 9-16 [write_to_cache]. *)
Definition write_to_cache (name : fname) (obj : rmatrix) (s : proc) : proc :=
  put_file name (Whole obj) (put_file name Partial s).

(** 17-18 [cache_hit] *)
Definition cache_hit (name : fname) (s : proc) : bool := dmem (files s) name.

(** 19-21 [read_cache]: unpickling an incomplete file raises EOFError. *)
Definition read_cache (name : fname) (s : proc) : res rmatrix :=
  let! f := dget (files s) name in
  match f with Whole m => Ok m | Partial => Err EOFError end.

Definition set_lookup n m (s : proc) :=
  MkProc (dset (lookup s) n m) (inv_lookup s) (files s) (trace s).
Definition set_inv_lookup n m (s : proc) :=
  MkProc (lookup s) (dset (inv_lookup s) n m) (files s) (trace s).

(** 54-93 [new_get_matrix] on a non-negative int. *)
Fixpoint get_matrix_nat (n : nat) (s : proc) : res rmatrix * proc :=
  match n with
  | 0 => (Err (Exc "%d is < 1"), s)                                (* 68-69 *)
  | n'.+1 =>
      if dget (lookup s) n is Ok m then (Ok m, s)                  (* 71-72 *)
      else if (5 < n)%N then (Err exc_more_than_5, s)              (* 74-75 *)
      else if cache_hit (0, n) s then                              (* 79-83 *)
        match read_cache (0, n) s with
        | Ok m => (Ok m, set_lookup n m s)
        | Err e => (Err e, s)
        end
      else
        match get_matrix_nat n' s with                             (* 87 *)
        | (Err e, s1) => (Err e, s1)
        | (Ok previous, s1) =>
            match dget (lookup s1) 1 with                          (* 88 *)
            | Err e => (Err e, s1)
            | Ok first =>
                let current := tensor_product previous first in    (* 89 *)
                (Ok current, set_lookup n current (write_to_cache (0, n) current s1))
            end
        end
  end.

(** 95-138 [new_get_matrix_inverse] on a non-negative int. *)
Definition get_inverse_nat (n : nat) (s : proc) : res rmatrix * proc :=
  if (n < 1)%N then (Err (Exc "%d is < 1"), s)                     (* 110-111 *)
  else if dget (inv_lookup s) n is Ok m then (Ok m, s)             (* 113-114 *)
  else if (5 < n)%N then (Err exc_more_than_5, s)                  (* 116-117 *)
  else if cache_hit (1, n) s then                                  (* 121-125 *)
    match read_cache (1, n) s with
    | Ok m => (Ok m, set_inv_lookup n m s)
    | Err e => (Err e, s)
    end
  else
    match get_matrix_nat n s with                                  (* 130 *)
    | (Err e, s1) => (Err e, s1)
    | (Ok matrix, s1) =>
        let inverse := mx_inv matrix in                            (* 133 *)
        (Ok inverse, set_inv_lookup n inverse (write_to_cache (1, n) inverse s1))
    end.

(** The two public entry points [get_matrix] (140-141, [inv = false]) and
    [get_matrix_inverse] (177-178, [inv = true]). *)
Definition call (inv : bool) (n : pyarg) (s : proc) : res rmatrix * proc :=
  match n with
  | PyOther => (Err (Exc "%s is not an int"), s)                   (* 66-67, 108-109 *)
  | PyInt (Negz _) => (Err (Exc "%d is < 1"), s)
  | PyInt (Posz n) => if inv then get_inverse_nat n s else get_matrix_nat n s
  end.

(** 49-50, 162-175: importing the module in a new process. *)
Definition import_module (d : disk) : res unit * proc :=
  let s := MkProc [:: (1%N, sign_matrix1)] [:: (1%N, mx_inv sign_matrix1)] d [:: d] in
  if cache_hit (2, 0) s then
    match read_cache (2, 0) s with Ok _ => (Ok tt, s) | Err e => (Err e, s) end
  else
    match get_matrix_nat 1 s with
    | (Err e, s1) => (Err e, s1)
    | (Ok m, s1) => (Ok tt, write_to_cache (2, 0) (mx_inv m) s1)
    end.

(** A machine: the directory and, if one is running, the process. *)
Record machine := MkMachine { mdisk : disk; mproc : option proc }.

(** Start a new process (the old one, if any, ends); call a function;
    or die during an import or a call, after any of its directory changes. *)
Inductive event :=
  | Start
  | Call of bool & pyarg
  | DieInStart of nat
  | DieInCall of bool & pyarg & nat.

(** What the caller sees: [None] when there is no process to call. *)
Definition step (e : event) (m : machine) : option (res rmatrix) * machine :=
  match e with
  | Start =>
      match import_module (mdisk m) with
      | (Ok _, s) => (None, MkMachine (files s) (Some s))
      | (Err e, s) => (Some (Err e), MkMachine (files s) None)
      end
  | Call inv n =>
      if mproc m is Some s then
        let: (r, s') := call inv n s in (Some r, MkMachine (files s') (Some s'))
      else (None, m)
  | DieInStart k =>
      let: (_, s) := import_module (mdisk m) in
      (None, MkMachine (nth (mdisk m) (trace s) k) None)
  | DieInCall inv n k =>
      if mproc m is Some s then
        let: (_, s') := call inv n (MkProc (lookup s) (inv_lookup s) (files s) [:: files s]) in
        (None, MkMachine (nth (mdisk m) (trace s') k) None)
      else (None, m)
  end.

Fixpoint run (es : seq event) (m : machine) : machine :=
  if es is e :: es' then run es' (step e m).2 else m.

(** A new installation: empty directory, nothing running. *)
Definition fresh : machine := MkMachine [::] None.

End Cache.
