(** C86-C89: the properties of vts/examples_parser.py and of the checker over
    the pickled files.  [fold] says which names the file system takes to be
    the same, [dump] and [load_text] are the other sides of pickling; the
    sympy operations are external, by contract where it matters. *)
From Coq Require Import String Ascii.
From mathcomp Require Import all_ssreflect all_algebra.
From Verif Require Import Py VtsModel VtsSpec VtsInst IsymModel IsymSpec IsymFacts.
From Verif Require Import CheckerModel CheckerSpec GParserModel GParserSpec.
From Verif Require Import FileSys ExamplesSpec ExamplesModel ExamplesMain ExamplesCheck ExamplesEx.

Set Implicit Arguments.
Unset Strict Implicit.
Unset Printing Implicit Defensive.

(** * C86: reading the texts of the examples *)
Theorem C86_every_file_read (fold : string -> string) (dump : examples term -> text)
    (s : fs) (es : seq (string * fs)) (want : fpath -> seq sequent) :
  wf fold s -> look fold s in_dir = Some (Dir es) -> distinct_names (Dir es) ->
  (forall q c, has_file (Dir es) q c -> exists t, [/\ c = Text t, file_text (want q) t &
     ~~ has (sequent_mentions "sympy") (want q)]) ->
  exists2 d, parse_example_dirs fold dump s = Ok [:: ("Metitarski"%string, d)] &
  forall f qs, dget d f = Ok qs <-> exists q c, [/\ has_file (Dir es) q c, base q = f & qs = want q].
Proof. exact: every_file_read. Qed.
Print Assumptions C86_every_file_read.

Theorem C86_missing_directory (fold : string -> string) (dump : examples term -> text) (s : fs) :
  look fold s in_dir = None -> parse_example_dirs fold dump s = Ok [:: ("Metitarski"%string, [::])].
Proof. exact: missing_directory. Qed.
Print Assumptions C86_missing_directory.

(** Two files of the same name in two directories: one of them is lost. *)
Theorem C86_same_name_refuted :
  exists s es q1 q2 t1 t2 d,
  [/\ wf exact_names s, look exact_names s in_dir = Some (Dir es),
      has_file (Dir es) q1 (Text t1) /\ has_file (Dir es) q2 (Text t2),
      file_text [:: seq1 "1"] t1 /\ file_text [:: seq1 "2"] t2 &
      parse_example_dirs exact_names no_dump s = Ok [:: ("Metitarski"%string, d)] /\
      forall f qs, dget d f = Ok qs -> qs = [:: seq1 "2"]].
Proof. exact: twins_lost. Qed.
Print Assumptions C86_same_name_refuted.

Example C86_example : exists es,
  [/\ wf exact_names repo, look exact_names repo in_dir = Some (Dir es), distinct_names (Dir es) &
      has_file (Dir es) [:: "a"%string] (Text text_a) /\
      names_of (preformatE exact_names repo) =
        Some [:: ("Metitarski"%string, [:: ("a"%string, 1); ("b"%string, 1)])]].
Proof. exact: repo_example. Qed.

(** * C87: what is written is read again *)
Theorem C87_round_trip (fold : string -> string) (dump : examples term -> text)
    (load_text : text -> res (examples term)) (simp expand : term -> term)
    (var_set : seq string -> seq string) (mk : cls -> term -> term -> formula term)
    (s : fs) (ff : dict string_eqType (examples term)) :
  wf fold s -> writable fold s -> look fold s out_dir = None ->
  examples_preformat_uni fold dump simp expand var_set mk s = Ok [:: ("Metitarski"%string, ff)] ->
  names_differ fold ff ->
  exists s' r, [/\ write_examples fold dump simp expand var_set mk None s = Ok s',
    unpickle_from_dir fold load_text s' out_dir = Ok r & pickles_of ff r].
Proof. exact: round_trip. Qed.
Print Assumptions C87_round_trip.

(** Where case does not matter the loader finds them. *)
Theorem C87_loaded_case_ignored (fold : string -> string) (dump : examples term -> text)
    (load_text : text -> res (examples term)) (simp expand : term -> term)
    (var_set : seq string -> seq string) (mk : cls -> term -> term -> formula term)
    (s : fs) (ff h : dict string_eqType (examples term)) :
  wf fold s -> writable fold s -> look fold s out_dir = None ->
  examples_preformat_uni fold dump simp expand var_set mk s = Ok [:: ("Metitarski"%string, ff)] ->
  names_differ fold ff -> case_ignored fold -> other_names fold ->
  unpickle_from_dir fold load_text s hid_dir = Ok h ->
  exists s' r, [/\ write_examples fold dump simp expand var_set mk None s = Ok s', pickles_of ff r &
    unpickle_dirs fold load_text s' = Ok [:: ("Metitarski"%string, r); ("HidingProblems"%string, h)]].
Proof. exact: round_trip_dirs. Qed.
Print Assumptions C87_loaded_case_ignored.

(** Where case matters the loader finds none of them, and reports nothing. *)
Theorem C87_not_loaded_case_matters (fold : string -> string) (dump : examples term -> text)
    (load_text : text -> res (examples term)) (simp expand : term -> term)
    (var_set : seq string -> seq string) (mk : cls -> term -> term -> formula term)
    (s : fs) (ff h : dict string_eqType (examples term)) :
  wf fold s -> writable fold s ->
  examples_preformat_uni fold dump simp expand var_set mk s = Ok [:: ("Metitarski"%string, ff)] ->
  clear_way fold s ff -> look fold s met_dir = None -> case_matters fold -> other_names fold ->
  unpickle_from_dir fold load_text s hid_dir = Ok h ->
  exists2 s', write_examples fold dump simp expand var_set mk None s = Ok s' &
    unpickle_dirs fold load_text s' = Ok [:: ("Metitarski"%string, [::]); ("HidingProblems"%string, h)].
Proof. exact: not_found. Qed.
Print Assumptions C87_not_loaded_case_matters.

Theorem C87_loaded_refuted :
  exists s s' ff v,
  [/\ wf exact_names s, preformatE exact_names s = Ok [:: ("Metitarski"%string, ff)],
      dget ff "a"%string = Ok [:: v], writeE exact_names None s = Ok s' &
      unpickle_dirs exact_names no_load s' =
        Ok [:: ("Metitarski"%string, [::]); ("HidingProblems"%string, [::])]].
Proof. exact: not_found_again. Qed.
Print Assumptions C87_loaded_refuted.

(** In a directory that exists, every new pickle is written and every other
    file stays. *)
Theorem C87_each_written (fold : string -> string) (dump : examples term -> text)
    (simp expand : term -> term) (var_set : seq string -> seq string)
    (mk : cls -> term -> term -> formula term) (s : fs) (ff : dict string_eqType (examples term)) f v :
  wf fold s -> writable fold s ->
  examples_preformat_uni fold dump simp expand var_set mk s = Ok [:: ("Metitarski"%string, ff)] ->
  clear_way fold s ff -> names_differ fold ff -> dget ff f = Ok v ->
  exists2 s', write_examples fold dump simp expand var_set mk None s = Ok s' &
    look fold s' (rcons out_dir (f ++ ".pkl")%string) = Some (File (Pickle v)).
Proof. exact: each_written. Qed.
Print Assumptions C87_each_written.

Theorem C87_old_stays (fold : string -> string) (dump : examples term -> text)
    (simp expand : term -> term) (var_set : seq string -> seq string)
    (mk : cls -> term -> term -> formula term) (s : fs) (ff : dict string_eqType (examples term))
    (k : string) (m : fs) :
  wf fold s -> writable fold s ->
  examples_preformat_uni fold dump simp expand var_set mk s = Ok [:: ("Metitarski"%string, ff)] ->
  clear_way fold s ff -> look fold s (rcons out_dir k) = Some m ->
  (forall f, dmem ff f -> ~~ same fold k (f ++ ".pkl")%string) ->
  exists2 s', write_examples fold dump simp expand var_set mk None s = Ok s' &
    look fold s' (rcons out_dir k) = Some m.
Proof. exact: old_stays. Qed.
Print Assumptions C87_old_stays.

(** So a pickle of a file that is gone is still loaded. *)
Theorem C87_only_current_refuted :
  exists s s' ff r,
  [/\ preformatE exact_names s = Ok [:: ("Metitarski"%string, ff)], writeE exact_names None s = Ok s',
      unpickle_from_dir exact_names no_load s' out_dir = Ok r,
      dget r "old.pkl"%string = Ok [::] & dmem ff "old"%string = false].
Proof. exact: old_pickle. Qed.
Print Assumptions C87_only_current_refuted.

(** A file in the place of a directory. *)
Theorem C87_parent_is_file (fold : string -> string) (dump : examples term -> text)
    (simp expand : term -> term) (var_set : seq string -> seq string)
    (mk : cls -> term -> term -> formula term) (s : fs) (ff : dict string_eqType (examples term)) c :
  examples_preformat_uni fold dump simp expand var_set mk s = Ok [:: ("Metitarski"%string, ff)] ->
  look fold s [:: "vts"; "Examples"]%string = Some (File c) ->
  write_examples fold dump simp expand var_set mk None s = Err ENOTDIR.
Proof. exact: blocked_parent. Qed.
Print Assumptions C87_parent_is_file.

Theorem C87_directory_is_file (fold : string -> string) (dump : examples term -> text)
    (simp expand : term -> term) (var_set : seq string -> seq string)
    (mk : cls -> term -> term -> formula term) (s : fs) (ff : dict string_eqType (examples term)) c :
  examples_preformat_uni fold dump simp expand var_set mk s = Ok [:: ("Metitarski"%string, ff)] ->
  look fold s out_dir = Some (File c) ->
  write_examples fold dump simp expand var_set mk None s = if ff is [::] then Ok s else Err ENOTDIR.
Proof. exact: blocked_directory. Qed.
Print Assumptions C87_directory_is_file.

(** No examples, and a file where their directory should be. *)
Example C87_in_the_way :
  let s : fs := Dir [:: ("vts"%string, Dir [:: ("Examples"%string, File (Text [::]))])] in
  let s2 : fs := Dir [:: ("vts"%string, Dir [:: ("Examples"%string, Dir [:: ("Metitarski"%string, File (Text [::]))])])] in
  [/\ preformatE exact_names s = Ok [:: ("Metitarski"%string, [::])],
      look exact_names s [:: "vts"; "Examples"]%string = Some (File (Text [::])),
      preformatE exact_names s2 = Ok [:: ("Metitarski"%string, [::])] &
      look exact_names s2 out_dir = Some (File (Text [::]))].
Proof. by []. Qed.

Example C87_names : (case_matters exact_names /\ other_names exact_names) /\
  (case_ignored lower /\ other_names lower).
Proof. exact: (conj names_linux names_mac). Qed.
Example C87_example : exists ff a b,
  [/\ wf lower repo, writable lower repo, look lower repo out_dir = None,
      preformatE lower repo = Ok [:: ("Metitarski"%string, ff)] &
      names_differ lower ff /\ ff = [:: ("a"%string, [:: a]); ("b"%string, [:: b])]].
Proof. exact: repo_ready_lower. Qed.

(** * C88: interruptions *)
Theorem C88_interrupted (fold : string -> string) (dump : examples term -> text)
    (load_text : text -> res (examples term)) (simp expand : term -> term)
    (var_set : seq string -> seq string) (mk : cls -> term -> term -> formula term)
    (s : fs) (ff : dict string_eqType (examples term)) (k : nat) :
  wf fold s -> writable fold s -> look fold s out_dir = None ->
  examples_preformat_uni fold dump simp expand var_set mk s = Ok [:: ("Metitarski"%string, ff)] ->
  names_differ fold ff ->
  exists2 s', write_examples fold dump simp expand var_set mk (Some k) s = Ok s' &
    if ~~ odd k && (0 < k) && (k.-1./2 < size ff)
    then unpickle_from_dir fold load_text s' out_dir = Err EOFError
    else exists2 r, unpickle_from_dir fold load_text s' out_dir = Ok r & pickles_of (take k.-1./2 ff) r.
Proof. exact: interrupted. Qed.
Print Assumptions C88_interrupted.

Theorem C88_loadable_refuted :
  exists s s' k, writeE exact_names (Some k) s = Ok s' /\
    unpickle_from_dir exact_names no_load s' out_dir = Err EOFError.
Proof. exact: interrupted_eof. Qed.
Print Assumptions C88_loadable_refuted.

(** Running it again repairs the directory. *)
Theorem C88_recovered (fold : string -> string) (dump : examples term -> text)
    (load_text : text -> res (examples term)) (simp expand : term -> term)
    (var_set : seq string -> seq string) (mk : cls -> term -> term -> formula term)
    (s : fs) (ff : dict string_eqType (examples term)) (k : nat) :
  wf fold s -> writable fold s -> look fold s out_dir = None ->
  examples_preformat_uni fold dump simp expand var_set mk s = Ok [:: ("Metitarski"%string, ff)] ->
  names_differ fold ff -> ~~ same fold "vts" "GRF" ->
  exists s1 s2 r, [/\ write_examples fold dump simp expand var_set mk (Some k) s = Ok s1,
    write_examples fold dump simp expand var_set mk None s1 = Ok s2,
    unpickle_from_dir fold load_text s2 out_dir = Ok r & pickles_of ff r].
Proof. exact: recovered. Qed.
Print Assumptions C88_recovered.

Example C88_example : exists ff a b,
  [/\ wf exact_names repo, writable exact_names repo, look exact_names repo out_dir = None,
      preformatE exact_names repo = Ok [:: ("Metitarski"%string, ff)] &
      names_differ exact_names ff /\ ff = [:: ("a"%string, [:: a]); ("b"%string, [:: b])]].
Proof. exact: repo_ready. Qed.

(** * C89: from the text to the verdict *)
Theorem C89_text_to_verdict (R : rcfType) (simp expand : term -> term)
    (var_set : seq string -> seq string) (mk : cls -> term -> term -> formula term)
    (view : term -> {poly rat}) (H : eqType) (str : int -> H)
    (MkRoots : seq int -> res (seq R)) (mx_inv : rmatrix -> rmatrix)
    (set_of : seq (formula {poly rat}) -> seq (formula {poly rat})) :
  keeps_poly simp -> keeps_poly expand -> set_contract var_set ->
  mk_term_contract R mk -> mk_evaluates expand mk -> view_contract view ->
  injective str -> inv_contract mx_inv -> MkRoots_contract (intr : int -> R) MkRoots ->
  set_contract set_of ->
  forall q t, sequent_text q t -> ~~ sequent_mentions "sympy" q ->
  (forall f, List.In f (s_ante q ++ s_succ q) -> poly_rel f) ->
  let run :=
    let! q' := parse_string cmd true t in
    let! ex := univariate_example simp expand var_set mk q' in
    check_one opp_upoly mk_upoly set_of (decide_vts intr str MkRoots mx_inv) (view_example view ex) in
  (exists b, run = Ok b /\ (b = true <-> valid_diag R q)) \/
  [\/ run = Err AttributeError /\
        exists2 f, List.In f (s_ante q ++ s_succ q) & exists b, relation_of simp mk f = Bool b,
      run = Err (Exc "antecedent or succedent became zero") /\
        ((forall f, List.In f (s_ante q) -> always R f) \/ (forall f, List.In f (s_succ q) -> always R f)),
      run = Err KeyError /\ (exists2 f, List.In f (s_succ q) & never R f) |
      run = Err (Exc "relation wasn't added") /\ (exists2 f, List.In f (s_ante q) & never R f) \/
      run = Err (Exc "more than 5 polies")].
Proof. by move=> h1 h2 h3 h4 h5 h6 h7 h8 h9 h10 q t; exact: text_to_verdict. Qed.
Print Assumptions C89_text_to_verdict.

(** The loop over the pickles is check_examples on their contents; only the
    first four files are opened. *)
Theorem C89_check_pickles (fold : string -> string) (load_text : text -> res (examples term))
    (E : Type) (view : term -> E) (opp : E -> E) (mk : cls -> E -> E -> formula E)
    (set_of : seq (formula E) -> seq (formula E))
    (decide : seq E -> seq E -> seq E -> seq E -> res bool) (s : fs) (files : seq (examples term)) :
  mapM (unpickle_file fold load_text s) (take 4 (all_names fold s)) = Ok files ->
  check_pickles fold load_text view opp mk set_of decide s =
  check_examples opp mk set_of decide (map (map (view_example view)) files).
Proof. exact: check_pickles_examples. Qed.
Print Assumptions C89_check_pickles.

(** Where case matters, writing the examples makes no difference to the
    checker. *)
Theorem C89_checker_unchanged (fold : string -> string) (dump : examples term -> text)
    (load_text : text -> res (examples term)) (simp expand : term -> term)
    (var_set : seq string -> seq string) (mk : cls -> term -> term -> formula term)
    (E : Type) (view : term -> E) (opp : E -> E) (mkE : cls -> E -> E -> formula E)
    (set_of : seq (formula E) -> seq (formula E))
    (decide : seq E -> seq E -> seq E -> seq E -> res bool)
    (s : fs) (ff : dict string_eqType (examples term)) :
  wf fold s -> writable fold s ->
  examples_preformat_uni fold dump simp expand var_set mk s = Ok [:: ("Metitarski"%string, ff)] ->
  clear_way fold s ff -> case_matters fold -> other_names fold ->
  exists2 s', write_examples fold dump simp expand var_set mk None s = Ok s' &
    check_pickles fold load_text view opp mkE set_of decide s' =
    check_pickles fold load_text view opp mkE set_of decide s.
Proof. exact: checker_unchanged. Qed.
Print Assumptions C89_checker_unchanged.

(** The contracts, and the two sequents of the example files: x >= 1 implies
    y > 0 is valid, x > 0 implies x >= 1 is not. *)
Example C89_contracts (R : rcfType) :
  [/\ keeps_poly id, mk_term_contract R mkX, mk_evaluates id mkX & view_contract viewX].
Proof. exact: contractsX. Qed.
Example C89_example_a : verdictZ seq_a = Ok true.
Proof. exact: verdict_a. Qed.
Example C89_example_b : verdictZ seq_b = Ok false.
Proof. exact: verdict_b. Qed.
