(** Model of the part of the file system that vts/examples_parser.py uses: a
    tree of directories, path lookup, [os.mkdir], [os.makedirs], [os.walk] and
    opening files.

    [fold] says which names the file system takes to be the same: the identity
    where case matters (Linux), lower case where it does not (OS X, Windows).
    New entries are listed last.  Not modelled: links, permissions, a full
    disk. *)
From Coq Require Import String.
From mathcomp Require Import all_ssreflect.
From Verif Require Import Py.

Set Implicit Arguments.
Unset Strict Implicit.
Unset Printing Implicit Defensive.

Lemma string_eqP : Equality.axiom String.eqb.
Proof. move=> a b; exact: String.eqb_spec. Qed.
Definition string_eqMixin := EqMixin string_eqP.
Canonical string_eqType := EqType string string_eqMixin.

(** A path, from the root to the leaf. *)
Notation fpath := (seq string).

Definition ENOENT := Exc "ENOENT".
Definition ENOTDIR := Exc "ENOTDIR".
Definition EEXIST := Exc "EEXIST".
Definition EISDIR := Exc "EISDIR".

Section FS.
Variable C : Type.       (* contents of files *)

Inductive node := File of C | Dir of seq (string * node).

Variable fold : string -> string.

Definition same (a b : string) : bool := fold a == fold b.

Fixpoint entry (es : seq (string * node)) (k : string) : option node :=
  if es is (k', m) :: es' then if same k k' then Some m else entry es' k else None.

(** An existing entry keeps its name. *)
Fixpoint set_entry (es : seq (string * node)) (k : string) (m : node) : seq (string * node) :=
  match es with
  | [::] => [:: (k, m)]
  | (k', m') :: es' => if same k k' then (k', m) :: es' else (k', m') :: set_entry es' k m
  end.

Fixpoint look (n : node) (p : fpath) : option node :=
  if p is k :: q then
    if n is Dir es then if entry es k is Some m then look m q else None else None
  else Some n.

(** The node at a path replaced by what [f] makes of it. *)
Fixpoint upd (f : option node -> res node) (n : node) (p : fpath) : res node :=
  if p is k :: q then
    if n is Dir es then
      match entry es k with
      | Some m => let! m' := upd f m q in Ok (Dir (set_entry es k m'))
      | None => if q is [::] then let! m' := f None in Ok (Dir (set_entry es k m'))
                else Err ENOENT
      end
    else Err ENOTDIR
  else f (Some n).

(** [os.mkdir]. *)
Definition mkdir (n : node) (p : fpath) : res node :=
  upd (fun o => if o is Some _ then Err EEXIST else Ok (Dir [::])) n p.

(** [open(p, 'wb')] followed by writing: the file at [p] has contents [c]. *)
Definition put (c : C) (n : node) (p : fpath) : res node :=
  upd (fun o => if o is Some (Dir _) then Err EISDIR else Ok (File c)) n p.

(** [open(p, 'r')]. *)
Definition get (n : node) (p : fpath) : res C :=
  match look n p with
  | Some (File c) => Ok c
  | Some (Dir _) => Err EISDIR
  | None => Err ENOENT
  end.

(** [try: r except OSError: if errno != EEXIST: raise], where [r] starts from
    the state [n]. *)
Definition unless_exists (n : node) (r : res node) : res node :=
  match r with
  | Ok n' => Ok n'
  | Err (Exc m) => if m == "EEXIST"%string then Ok n else Err (Exc m)
  | Err e => Err e
  end.

(** [os.makedirs]: missing parents are made first.  [p] is listed from the
    leaf to the root here. *)
Fixpoint makedirs_rev (n : node) (p : fpath) : res node :=
  if p is k :: q then
    let! n' := (if (q == [::]) || (if look n (rev q) is Some _ then true else false) then Ok n
                else unless_exists n (makedirs_rev n q)) in
    mkdir n' (rev p)
  else Err ENOENT.
Definition makedirs (n : node) (p : fpath) : res node := makedirs_rev n (rev p).

Definition is_dir (n : node) : bool := if n is Dir _ then true else false.

(** [os.walk]: for each directory, from the top, its path and the names of
    its directories and of its files.  A path that is not a directory gives
    nothing. *)
Fixpoint walk_from (p : fpath) (n : node) : seq (fpath * seq string * seq string) :=
  if n is Dir es then
    (p, [seq e.1 | e <- es & is_dir e.2], [seq e.1 | e <- es & ~~ is_dir e.2]) ::
    flatten (map (fun e : string * node => let: (k, m) := e in walk_from (rcons p k) m) es)
  else [::].
Definition walk (n : node) (p : fpath) : seq (fpath * seq string * seq string) :=
  if look n p is Some m then walk_from p m else [::].

End FS.
Arguments File {C}.
Arguments Dir {C}.
