(** Specification vocabulary for vts/examples_parser.py: the files of a
    directory tree, and what it means for it to be well formed. *)
From Coq Require Import String.
From mathcomp Require Import all_ssreflect all_algebra.
From Verif Require Import Py CheckerModel CheckerSpec GParserModel FileSys.

Set Implicit Arguments.
Unset Strict Implicit.
Unset Printing Implicit Defensive.

(** The directories of the program, from the root of the repository. *)
Definition in_dir : fpath := [:: "GRF"; "Examples"; "MetiTarski"]%string.
Definition ex_dir : fpath := [:: "vts"; "Examples"]%string.
Definition out_dir : fpath := [:: "vts"; "Examples"; "Metitarski"]%string.

Section Spec.
Variables (C : Type) (fold : string -> string).

(** The file at [q] below a node has contents [c]. *)
Inductive has_file : node C -> fpath -> C -> Prop :=
  | HereFile c : has_file (File c) [::] c
  | BelowDir es k m q c : List.In (k, m) es -> has_file m q c -> has_file (Dir es) (k :: q) c.

(** No two names in a directory are the same for the file system. *)
Inductive wf : node C -> Prop :=
  | WfFile c : wf (File c)
  | WfDir es : uniq [seq fold e.1 | e <- es] -> (forall k m, List.In (k, m) es -> wf m) -> wf (Dir es).

(** The node below [n] along a path is [m], as names are written. *)
Inductive at_path : node C -> fpath -> node C -> Prop :=
  | AtHere n : at_path n [::] n
  | AtBelow es k m q n : List.In (k, m) es -> at_path m q n -> at_path (Dir es) (k :: q) n.

(** The name of a file. *)
Definition base (q : fpath) : string := last ""%string q.

(** Files below [n] are told apart by their names alone. *)
Definition distinct_names (n : node C) : Prop :=
  forall q1 q2 c1 c2, has_file n q1 c1 -> has_file n q2 c2 -> base q1 = base q2 -> q1 = q2.

(** The examples can be written: vts is a directory, vts/Examples is not a
    file. *)
Definition writable (s : node C) : Prop :=
  (exists es, look fold s [:: "vts"%string] = Some (Dir es)) /\
  (forall c, look fold s ex_dir <> Some (File c)).

(** The names of the pickles of two files are different. *)
Definition names_differ (V : Type) (ff : dict string_eqType V) : Prop :=
  forall f g, dmem ff f -> dmem ff g ->
  same fold (f ++ ".pkl")%string (g ++ ".pkl")%string -> f = g.

(** No directory or file is in the way of the pickles. *)
Definition clear_way (V : Type) (s : node C) (ff : dict string_eqType V) : Prop :=
  (forall c, look fold s out_dir <> Some (File c)) /\
  (forall f es, dmem ff f -> look fold s (rcons out_dir (f ++ ".pkl")%string) <> Some (Dir es)).

(** [r] has the entries of [ff], under the names of the pickles. *)
Definition pickles_of (V : Type) (ff r : dict string_eqType V) : Prop :=
  (forall f v, dget r (f ++ ".pkl")%string = Ok v <-> dget ff f = Ok v) /\
  (forall k, dmem r k -> exists f, k = (f ++ ".pkl")%string).

(** A file system where case matters, and one where it does not matter for
    the name of the directory of the examples. *)
Definition case_matters : Prop := ~~ same fold "Metitarski" "MetiTarski".
Definition case_ignored : Prop := same fold "Metitarski" "MetiTarski".
(** The other directories are told apart. *)
Definition other_names : Prop :=
  ~~ same fold "Metitarski" "HidingProblems" /\ ~~ same fold "vts" "GRF".
End Spec.

(** ** Sequents on the diagonal, where all variables have the same value *)
Import GRing.Theory Num.Theory.
Local Open Scope ring_scope.

(** The polynomial that a term is when all its variables are the same: only
    divisions by nonzero numbers are allowed. *)
Fixpoint diag (t : term) : option {poly rat} :=
  match t with
  | TNum q => Some q%:P
  | TVar _ => Some 'X
  | TAdd a b => if diag a is Some P then if diag b is Some Q then Some (P + Q) else None else None
  | TSub a b => if diag a is Some P then if diag b is Some Q then Some (P - Q) else None else None
  | TMul a b => if diag a is Some P then if diag b is Some Q then Some (P * Q) else None else None
  | TDiv a b =>
      if diag a is Some P then
        if diag b is Some Q then if size Q == 1%N then Some (Q`_0^-1 *: P) else None else None
      else None
  | TNeg a => if diag a is Some P then Some (- P) else None
  end.

Definition poly_rel (f : cls * term * term) : Prop := diag f.1.2 <> None /\ diag f.2 <> None.

Section Diagonal.
Variable R : realFieldType.

Definition true_at (u : R) (f : cls * term * term) : Prop :=
  tholds (fun=> u) (Rel f.1.1 f.1.2 f.2).
Definition valid_diag (q : sequent) : Prop :=
  forall u : R, (forall f, List.In f (s_ante q) -> true_at u f) ->
                forall f, List.In f (s_succ q) -> true_at u f.
Definition always (f : cls * term * term) : Prop := forall u : R, true_at u f.
Definition never (f : cls * term * term) : Prop := forall u : R, ~ true_at u f.
End Diagonal.

(** Contracts of sympy: rewriting keeps polynomials and brings in no variable;
    the relation of an expanded constant with zero is evaluated; the deciders
    see the polynomial of an expression. *)
Definition keeps_poly (f : term -> term) : Prop :=
  (forall t P, diag t = Some P -> diag (f t) = Some P) /\
  (forall t s, List.In s (tvars (f t)) -> List.In s (tvars t)).
Definition only_x (t : term) : Prop := forall s, List.In s (tvars t) -> s = "x"%string.
Definition mk_evaluates (expand : term -> term) (mk : cls -> term -> term -> formula term) : Prop :=
  forall c t P, only_x (expand t) -> diag (expand t) = Some P -> (size P <= 1)%N ->
  exists b : bool, mk c (expand t) (TNum 0) = Bool b.
Definition view_contract (view : term -> {poly rat}) : Prop :=
  forall t P, diag t = Some P -> view t = P.
