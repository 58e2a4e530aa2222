(** Property theorems about vts/grf_parser.py (C27). *)
From Coq Require Import String Ascii.
From mathcomp Require Import all_ssreflect all_algebra.
From Verif Require Import Py CheckerModel GParserModel GParserSpec GParserFacts.

Set Implicit Arguments.
Unset Strict Implicit.
Unset Printing Implicit Defensive.
Import GRing.Theory Num.Theory.
Local Open Scope ring_scope.

(** ** C27: every text of a term, relation or sequent parses to it. *)

Theorem C27_term_round_trip :
  forall t s, term_text t s -> ~~ mentions "sympy" t ->
  parse_string (p_term (size s).+1) true s = Ok t.
Proof. exact: term_round_trip. Qed.
Print Assumptions C27_term_round_trip.

Theorem C27_relation_round_trip :
  forall f s, rel_text f s -> ~~ rel_mentions "sympy" f ->
  parse_string (p_rln (size s).+1) true s = Ok f.
Proof. exact: rel_round_trip. Qed.
Print Assumptions C27_relation_round_trip.

Theorem C27_sequent_round_trip :
  forall q s, sequent_text q s -> ~~ sequent_mentions "sympy" q ->
  parse_string cmd true s = Ok q.
Proof. exact: sequent_round_trip. Qed.
Print Assumptions C27_sequent_round_trip.

(** The files of a directory, each with its name. *)
Theorem C27_files_round_trip :
  forall (fs : seq (string * seq sequent)) (texts : seq (string * seq ascii)),
  List.Forall2 (fun f t => f.1 = t.1 /\ file_text f.2 t.2) fs texts ->
  ~~ has (fun f => has (sequent_mentions "sympy") f.2) fs ->
  parse_files true texts = Ok fs.
Proof. exact: files_round_trip. Qed.
Print Assumptions C27_files_round_trip.

(** A variable called [sympy] anywhere in the files makes the whole
    directory unreadable. *)
Theorem C27_variable_sympy_raises :
  forall (fs : seq (string * seq sequent)) (texts : seq (string * seq ascii)),
  List.Forall2 (fun f t => f.1 = t.1 /\ file_text f.2 t.2) fs texts ->
  has (fun f => has (sequent_mentions "sympy") f.2) fs ->
  parse_files true texts = Err AttributeError.
Proof. exact: files_sympy. Qed.
Print Assumptions C27_variable_sympy_raises.

Theorem C27_round_trip_refuted :
  exists q s, sequent_text q s /\ parse_string cmd true s = Err AttributeError.
Proof. exact: round_trip_refuted. Qed.
Print Assumptions C27_round_trip_refuted.

(** Whatever the files contain, reading them ends, and it fails only if
    [sympy] occurs in one of them. *)
Theorem C27_reading_total :
  forall texts : seq (string * seq ascii),
  (exists r, parse_files true texts = Ok r) \/
  (parse_files true texts = Err AttributeError /\
   exists2 f, List.In f texts & occurs (txt "sympy") f.2).
Proof. exact: parse_files_total. Qed.
Print Assumptions C27_reading_total.

(** A relation with irregular white space, numbers of every form, and both
    meanings of [-]; it meets the hypotheses. *)
Definition ex_text : seq ascii := txt "( <(-(- _x1)- 1.5) 07.)".
Definition ex_rel : cls * term * term :=
  (CLt, TSub (TNeg (TVar "_x1")) (TNum (- (decimal (txt "1") + decimal (txt "5") / 10%:R ^+ 1))),
   TNum (decimal (txt "07"))).

Example C27_ex_text : rel_text ex_rel ex_text.
Proof.
pose s1 := txt "(-(- _x1)- 1.5)"; pose s2 := txt " 07.".
apply: (@TxRel "<" CLt _ _ [::] (txt " ") s1 s2 [::]) => //; first by right; left.
- apply: (@TxBin "-" TSub _ _ [::] [::] (txt "(- _x1)") (txt "- 1.5") [::]) => //.
  + by right; right; left.
  + apply: (@TxMinus _ [::] [::] (txt " _x1") [::]) => //.
    exact: (@TxVar (txt " ") (txt "_x1")).
  + apply: (@TxNeg _ [::] (txt " ") (txt "1.5")) => //.
    exact: (@NumDec (txt "1") (txt "5")).
- apply: (@TxNum _ (txt " ") (txt "07.")) => //.
  exact: (@NumDot (txt "07") [::]).
Qed.

Example C27_ex_values : decimal (txt "07") = 7%:R /\
  decimal (txt "1") + decimal (txt "5") / 10%:R ^+ 1 = 3%:R / 2%:R.
Proof. by rewrite !decimalE. Qed.

Example C27_ex_parse : parse_string (p_rln (size ex_text).+1) true ex_text = Ok ex_rel.
Proof. exact: (C27_relation_round_trip C27_ex_text). Qed.

(** A file with a comment and three sequents, by computation; the third is
    not admissible ([<x] is not a relation symbol and a variable) and is
    skipped. *)
Definition shape (r : res (seq sequent * bool)) : option (seq (seq ascii * nat * nat) * bool) :=
  if r is Ok (qs, st) then Some ([seq (s_name q, size (s_ante q), size (s_succ q)) | q <- qs], st)
  else None.

Example C27_ex_scan :
  shape (scan 300 true (txt "; three problems
    (sequent ""a b"" (antecedent (<= x 1) (> y 0)) (succedent (= (* x y)(/ 1 2))))
    (sequent """" (antecedent) (succedent(!= x-1)))
    (sequent ""c"" (antecedent) (succedent (<x 1)))")) =
  Some ([:: (txt "a b", 2, 1); (txt "", 0, 1)]%N, true).
Proof. by vm_compute. Qed.
