(** Model of vts/examples_parser.py (line numbers refer to it) and of the loop
    of check_examples in vts/checker.py over the pickled files.

    A file is a text, a pickled list of examples or one that is still being
    written.  Pickling is taken to be faithful.  The process runs in the
    directory vts.  A dictionary is iterated in the order of insertion (in
    Python 2 the order is arbitrary).  Not modelled: messages. *)
From Coq Require Import String Ascii.
From mathcomp Require Import all_ssreflect all_algebra.
From Verif Require Import Py CheckerModel GParserModel FileSys.

Set Implicit Arguments.
Unset Strict Implicit.
Unset Printing Implicit Defensive.

(** What is pickled: a list of pairs of an antecedent and a succedent. *)
Notation examples E := (seq (seq (formula E) * seq (formula E))).

Inductive content := Text of text | Pickle of examples term | Partial.

Notation fs := (node content).

Section Examples.
Variable fold : string -> string.
Variable dump : examples term -> text.          (* the text of a pickle *)
Variable load_text : text -> res (examples term). (* pickle.load of any other file *)

Variables (simp expand : term -> term) (var_set : seq string -> seq string).
Variable mk : cls -> term -> term -> formula term.

(** [f.read()]. *)
Definition read_text (c : content) : text :=
  match c with Text t => t | Pickle o => dump o | Partial => [::] end.

(** [pickle.load(f)]. *)
Definition load (c : content) : res (examples term) :=
  match c with Text t => load_text t | Pickle o => Ok o | Partial => Err EOFError end.

(** The directory and name of each file that [os.walk] reports. *)
Definition walked (s : fs) (dir : fpath) : seq (fpath * string) :=
  flatten [seq [seq (w.1.1, f) | f <- w.2] | w <- walk fold s dir].

(** 182-212 [parse_files_from_dir]; the boolean is the state of grf_parser. *)
Definition parse_files_from_dir (s : fs) (dir : fpath) (st : bool) :
    res (dict string_eqType (seq sequent) * bool) :=
  foldM (fun a pf =>
    let! c := get fold s (rcons pf.1 pf.2) in
    let content := read_text c in
    let! x := scan (size content).+1 a.2 content in
    Ok (dset a.1 pf.2 x.1, x.2)) ([::], st) (walked s dir).

(** 160-180 [parse_example_dirs]. *)
Definition parse_example_dirs (s : fs) : res (dict string_eqType (dict string_eqType (seq sequent))) :=
  let! r := parse_files_from_dir s [:: "GRF"; "Examples"; "MetiTarski"]%string true in
  Ok [:: ("Metitarski"%string, r.1)].

(** The relation object that grf_parser (20-31) builds. *)
Definition relation_of (f : cls * term * term) : formula term :=
  mk f.1.1 (simp f.1.2) (simp f.2).

Definition univariate_example (q : sequent) : res (seq (formula term) * seq (formula term)) :=
  let! uni_ante := make_univariate simp expand var_set mk (map relation_of (s_ante q)) in
  let! uni_succ := make_univariate simp expand var_set mk (map relation_of (s_succ q)) in
  Ok (uni_ante, uni_succ).

(** 44-69 [examples_preformat_uni]. *)
Definition examples_preformat_uni (s : fs) :
    res (dict string_eqType (dict string_eqType (examples term))) :=
  let! dirResults := parse_example_dirs s in
  mapM (fun d => let! ff := mapM (fun f => let! es := mapM univariate_example f.2 in
                                           Ok (f.1, es)) d.2 in
                 Ok (d.1, ff)) dirResults.

(** The changes to the file system that write_sympy_parseable_examples makes,
    in order. *)
Inductive op :=
  | Makedirs of fpath                  (* 32-36 *)
  | Open of fpath                      (* 40 *)
  | Dump of fpath & examples term.     (* 41 *)

Definition ops_of (dir_examples : dict string_eqType (dict string_eqType (examples term))) : seq op :=
  flatten [seq Makedirs [:: "vts"; "Examples"; d.1]%string ::
               flatten [seq let p := [:: "vts"; "Examples"; d.1; f.1 ++ ".pkl"]%string in
                            [:: Open p; Dump p f.2] | f <- d.2] | d <- dir_examples].

Definition perform (s : fs) (o : op) : res fs :=
  match o with
  | Makedirs p => unless_exists s (makedirs fold s p)
  | Open p => put fold Partial s p
  | Dump p o => put fold (Pickle o) s p
  end.

(** 24-42 [write_sympy_parseable_examples], stopped after [k] changes when
    [k] is given: the new state of the file system, or an exception. *)
Definition write_examples (k : option nat) (s : fs) : res fs :=
  let! d := examples_preformat_uni s in
  let l := ops_of d in
  foldM perform s (if k is Some k then take k l else l).

(** 139-158 [unpickle_from_dir]. *)
Definition unpickle_from_dir (s : fs) (dir : fpath) : res (dict string_eqType (examples term)) :=
  foldM (fun ret pf =>
    let! c := get fold s (rcons pf.1 pf.2) in
    let! o := load c in
    Ok (dset ret pf.2 o)) [::] (walked s dir).

Definition met_dir : fpath := [:: "vts"; "Examples"; "MetiTarski"]%string.
Definition hid_dir : fpath := [:: "vts"; "Examples"; "HidingProblems"]%string.

(** 118-137 [unpickle_dirs]. *)
Definition unpickle_dirs (s : fs) : res (dict string_eqType (dict string_eqType (examples term))) :=
  let! met_results := unpickle_from_dir s met_dir in
  let! hid_results := unpickle_from_dir s hid_dir in
  Ok [:: ("Metitarski"%string, met_results); ("HidingProblems"%string, hid_results)].

(** 91-116 [unpickle_dirs_gen]: the names; the files are loaded one by one
    when the consumer asks for them. *)
Definition all_names (s : fs) : seq fpath :=
  [seq rcons pf.1 pf.2 | pf <- walked s met_dir ++ walked s hid_dir].
Definition unpickle_file (s : fs) (p : fpath) : res (examples term) :=
  let! c := get fold s p in load c.

(** check_examples (checker.py 8-65) over the generator: [enumerate] loads a
    fourth file, if there is one, before the loop stops.  [view] is what
    the checker sees of an expression. *)
Section Check.
Variables (E : Type) (view : term -> E).
Variables (opp : E -> E) (mkE : cls -> E -> E -> formula E).
Variable set_of : seq (formula E) -> seq (formula E).
Variable decide : seq E -> seq E -> seq E -> seq E -> res bool.

Definition view_formula (f : formula term) : formula E :=
  match f with Rel c a b => Rel c (view a) (view b) | Bool t => Bool t end.
Definition view_example (e : seq (formula term) * seq (formula term)) :=
  (map view_formula e.1, map view_formula e.2).

Definition check_pickles (s : fs) : res (seq (nat * seq (nat * bool))) :=
  let names := all_names s in
  let! out := mapM (fun fe =>
      let! es := unpickle_file s fe.2 in
      let! vs := check_file opp mkE set_of decide fe.1 (map view_example es) in
      Ok (fe.1, vs)) (zip (iota 0 3) (take 3 names)) in
  let! _ := (if drop 3 names is p :: _ then let! _ := unpickle_file s p in Ok tt else Ok tt) in
  if has (fun fv : nat * seq (nat * bool) => has (fun iv => ~~ iv.2) fv.2) out
  then Err TypeError else Ok out.
End Check.
End Examples.
