(** Property theorems for ParseSMT and grf_on_file of GRF/smt2.py. *)
From Coq Require Import String Ascii.
From mathcomp Require Import all_ssreflect all_algebra.
From mathcomp.real_closed Require Import polyrcf.
From Verif Require Import Py CheckerModel GParserModel GParserSpec CheckerSpec GrfModel GrfCad GrfSpec GrfCheck
  GrfLoop GrfRun GrfLine GrfCadFacts GrfInst GrfEx GrfEx2 GrfSmt GrfSmtFacts GrfSmtEx
  SmtParse SmtParseSpec SmtParseFacts SmtParseEx.

Set Implicit Arguments.
Unset Strict Implicit.
Unset Printing Implicit Defensive.
Import GRing.Theory Num.Theory Order.Theory.
Local Open Scope ring_scope.

(** ** C55: numerals *)

(** With a dot they are constants, ... *)
Theorem C55_dotted :
  forall (R : realDomainType) (L : lib R) (A : arith (P L)) (K : realFieldType) (val : P L -> (var -> K) -> K),
  arith_ok val A ->
  forall W (perform : W -> nat -> seq (atom L) -> seq (atom L) -> res (W * (seq nat * seq nat))) q s,
  decimal_text q s -> read_as A val perform (compare_text (txt "x") s) (fun e => e 0%N - ratr q).
Proof. exact: dotted. Qed.
Print Assumptions C55_dotted.

Theorem C55_dotted_tilde :
  forall (R : realDomainType) (L : lib R) (A : arith (P L)) (K : realFieldType) (val : P L -> (var -> K) -> K),
  arith_ok val A ->
  forall W (perform : W -> nat -> seq (atom L) -> seq (atom L) -> res (W * (seq nat * seq nat))) q s,
  decimal_text q s -> read_as A val perform (compare_text (txt "x") (txt "~" ++ s)) (fun e => e 0%N + ratr q).
Proof. exact: dotted_neg. Qed.
Print Assumptions C55_dotted_tilde.

(** ... without a dot they are variables: 2 = 2. is not valid. *)
Theorem C55_undotted :
  forall (R : realDomainType) (L : lib R) (A : arith (P L)) (K : realFieldType) (val : P L -> (var -> K) -> K),
  arith_ok val A ->
  forall W (perform : W -> nat -> seq (atom L) -> seq (atom L) -> res (W * (seq nat * seq nat))) ds,
  digits ds -> read_as A val perform (compare_text ds (ds ++ txt ".")) (fun e => e 0%N - ratr (decimal ds)).
Proof. exact: undotted. Qed.
Print Assumptions C55_undotted.

Theorem C55_minus :
  forall (R : realDomainType) (L : lib R) (A : arith (P L)) (K : realFieldType) (val : P L -> (var -> K) -> K),
  arith_ok val A ->
  forall W (perform : W -> nat -> seq (atom L) -> seq (atom L) -> res (W * (seq nat * seq nat))) q s,
  decimal_text q s -> read_as A val perform (compare_text (txt "-" ++ s) (txt "~" ++ s)) (fun e => e 0%N + ratr q).
Proof. exact: minus_numeral. Qed.
Print Assumptions C55_minus.

(** A tilde before a numeral without a dot is a syntax error. *)
Theorem C55_tilde :
  forall (R : realDomainType) (L : lib R) (A : arith (P L))
    W (perform : W -> nat -> seq (atom L) -> seq (atom L) -> res (W * (seq nat * seq nat))) ds w,
  digits ds ->
  process_commands A perform w (compare_text (txt "x") (txt "~" ++ ds)) = Err (Exc "ParseException").
Proof. exact: tilde_undotted. Qed.
Print Assumptions C55_tilde.

Theorem C55_refuted : exists ds : seq ascii, digits ds /\
  forall K : rcfType, exists h r st a e, [/\ p_cmd qarith (Pst (new_ctx sname) 0) (compare_text ds (ds ++ txt ".")) = Yes h r st,
    hp_succ h = [:: a], aop a = REq & ~~ atom_true (@qval K) a e].
Proof. exact: numeral_refuted. Qed.
Print Assumptions C55_refuted.

Example C55_example : decimal_text (decimal (txt "2") + decimal (txt "5") / 10%:R ^+ 1) (txt "2.5") /\ digits (txt "2") /\
  problem_data (p_cmd qarith (Pst (new_ctx sname) 0) (compare_text (txt "2") (txt "2."))) =
  Some ([::], [::], [:: (0%N, lx (-2%:R), REq, [:: 0%N])], [::]).
Proof. exact: (conj (@DecFrac (txt "2") (txt "5") isT isT) (conj isT two_is_variable)). Qed.
Example C55_contract : forall K : rcfType, arith_ok (L := qlib) (@qval K) qarith.
Proof. exact: qarith_ok. Qed.

(** ** C73: what is read is what is written *)

(** Every sequent of the file is given to perform_grf, in order, as atoms that
    say what the formulas say; different names are different variables of the
    ring. *)
Theorem C73_file :
  forall (R : realDomainType) (L : lib R) (A : arith (P L))
    W (perform : W -> nat -> seq (atom L) -> seq (atom L) -> res (W * (seq nat * seq nat)))
    (K : realFieldType) (val : P L -> (var -> K) -> K) qs s,
  arith_ok val A -> problems_text qs s ->
  ~~ has problem_divides qs \/ (forall p r e, a_div A p r <> Err e) ->
  exists nu l, [/\ numbering (file_names qs) nu, List.Forall2 (reading val nu) qs l &
    forall w, process_commands A perform w s = in_order perform w None l].
Proof. exact: file_reading. Qed.
Print Assumptions C73_file.

(** One sequent: either a division fails, or the ring has as many variables as
    there are names, and one at least. *)
Theorem C73_single :
  forall (R : realDomainType) (L : lib R) (A : arith (P L))
    W (perform : W -> nat -> seq (atom L) -> seq (atom L) -> res (W * (seq nat * seq nat)))
    (K : realFieldType) (val : P L -> (var -> K) -> K) q s w',
  arith_ok val A -> problem_text q s -> blank w' ->
  (problem_divides q /\ exists p r e, a_div A p r = Err e /\ forall w, process_commands A perform w (s ++ w') = Err e) \/
  exists nu h, [/\ numbering (problem_names q) nu, reading val nu q (maxn 1 (distinct (problem_names q)), h) &
    forall w, process_commands A perform w (s ++ w') =
      in_order perform w None [:: (maxn 1 (distinct (problem_names q)), h)]].
Proof. exact: single_reading. Qed.
Print Assumptions C73_single.

Example C73_example : problem_text three three_text /\ problem_names three = [:: "x"; "x"; "x"; "x"]%string /\
  ~~ problem_divides three /\
  problem_data (p_cmd qarith (Pst (new_ctx sname) 0) three_text) =
  Some (txt "s1", [:: (0%N, lx (-3%:R), RLt, [:: 0%N])],
        [:: (1%N, lx (-2%:R), RLe, [:: 0%N]); (2%N, x2m1, RGt, [:: 0%N])], [::]).
Proof. exact: (conj three_ok (conj erefl (conj isT three_read))). Qed.

(** ** C74: any text *)

(** The reading ends; the only errors are those of the grammar, of the
    arithmetic and of perform_grf. *)
Theorem C74_errors :
  forall (R : realDomainType) (L : lib R) (A : arith (P L))
    W (perform : W -> nat -> seq (atom L) -> seq (atom L) -> res (W * (seq nat * seq nat))) w s e,
  process_commands A perform w s = Err e ->
  [\/ e = Exc "ParseException", exists p q, a_div A p q = Err e |
      e <> IndexError /\ exists w n a a', perform w n a a' = Err e].
Proof. exact: commands_errors. Qed.
Print Assumptions C74_errors.

Example C74_example : three_hiding (txt "(sequent") = Err (Exc "ParseException") /\
  three_hiding (txt "(sequent ""s"" (antecedent) (succedent (> (/ x 0.) 1.)))") = Err (Exc "ZeroDivisionError").
Proof. exact: (conj errors_parse errors_div). Qed.

(** ** C75: the result of a file *)

(** It is that of the last sequent. *)
Theorem C75_last :
  forall (R : realDomainType) (L : lib R) (A : arith (P L))
    W (perform : W -> nat -> seq (atom L) -> seq (atom L) -> res (W * (seq nat * seq nat)))
    (K : realFieldType) (val : P L -> (var -> K) -> K) q qs s w o,
  arith_ok val A -> problems_text (q :: qs) s ->
  ~~ has problem_divides (q :: qs) \/ (forall p r e, a_div A p r <> Err e) ->
  process_commands A perform w s = Ok o ->
  exists nu n h w1 w2 r, [/\ numbering (file_names (q :: qs)) nu, reading val nu (last q qs) (n, h),
    perform w1 n (hp_ante h) (hp_succ h) = Ok (w2, r) & o = Some (pb_name (last q qs), r)].
Proof. exact: last_result. Qed.
Print Assumptions C75_last.

(** The two numbers returned count the hidden formulas of the antecedent and
    of the succedent. *)
Theorem C75_counts :
  forall (R : realDomainType) (L : lib R) (A : arith (P L))
    W (perform : W -> nat -> seq (atom L) -> seq (atom L) -> res (W * (seq nat * seq nat)))
    (K : realFieldType) (val : P L -> (var -> K) -> K) q qs s w a b,
  arith_ok val A -> problems_text (q :: qs) s ->
  ~~ has problem_divides (q :: qs) \/ (forall p r e, a_div A p r <> Err e) ->
  grf_on_text A perform w s = Ok (a, b) ->
  exists nu n h w1 w2 ha hs, [/\ numbering (file_names (q :: qs)) nu, reading val nu (last q qs) (n, h),
    perform w1 n (hp_ante h) (hp_succ h) = Ok (w2, (ha, hs)), a = size ha & b = size hs].
Proof. exact: last_counts. Qed.
Print Assumptions C75_counts.

Theorem C75_empty_file :
  forall (R : realDomainType) (L : lib R) (A : arith (P L))
    W (perform : W -> nat -> seq (atom L) -> seq (atom L) -> res (W * (seq nat * seq nat))) w s,
  blank s -> process_commands A perform w s = Ok None /\ grf_on_text A perform w s = Err TypeError.
Proof. exact: no_sequent. Qed.
Print Assumptions C75_empty_file.

Theorem C75_empty_succedent :
  forall (R : realDomainType) (L : lib R) (O : oracle L) (A : arith (P L)) solve num fuel k eps cs
    (K : realFieldType) (val : P L -> (var -> K) -> K) q s w',
  arith_ok val A -> problem_text q s -> blank w' -> ~~ problem_divides q -> pb_succ q = [::] ->
  text_hiding O A solve num fuel k eps cs (s ++ w') = Err (Exc "ParseException").
Proof. exact: empty_succedent. Qed.
Print Assumptions C75_empty_succedent.

Example C75_example : three_hiding two_text = Ok (Some (txt "s2", ([::], [::]))) /\
  three_hiding (txt "(sequent ""s"" (antecedent (> x 0.)) (succedent))") = Err (Exc "ParseException").
Proof. exact: (conj two_hides empty_hides). Qed.

(** ** C76: hiding from the text to the meaning *)

(** For a file with one sequent in one variable, whose polynomials have
    rational roots only: the sequent that is left is valid. *)
Theorem C76_sound :
  forall (R : realDomainType) (L : lib R) (O : oracle L) (K : rcfType) (inj : R -> K)
    (val : P L -> (var -> K) -> K) (uval : U L -> {poly K}),
  lib_ok inj val -> cad_ok val uval -> line_ok O inj uval ->
  forall C : pred (P L), rational_class uval inj C ->
  forall A : arith (P L), arith_ok val A ->
  forall solve num fuel k eps cs q s w' name ha hs,
  problem_text q s -> blank w' -> (distinct (problem_names q) <= 1)%N ->
  (forall h r st, p_cmd A (Pst (new_ctx sname) 0) (s ++ w') = Yes h r st ->
    all (fun a => C (apoly a)) (hp_ante h ++ hp_succ h)) ->
  ~~ has is_equation (pb_ante q) -> ~~ has is_disequation (pb_succ q) ->
  text_hiding O A solve num fuel k eps cs (s ++ w') = Ok (Some (name, (ha, hs))) ->
  name = pb_name q /\
  forall v : string -> K, (forall f, List.In f (pb_ante q ++ pb_succ q) -> formula_holds v f <> None) ->
    entails v (remaining ha (pb_ante q)) (remaining hs (pb_succ q)).
Proof. exact: text_sound. Qed.
Print Assumptions C76_sound.

Example C76_example : problem_text three three_text /\ [/\ blank (txt " "), (distinct (problem_names three) <= 1)%N,
  ~~ has is_equation (pb_ante three), ~~ has is_disequation (pb_succ three) &
  three_hiding (three_text ++ txt " ") = Ok (Some (txt "s1", ([:: 0%N], [::])))].
Proof. exact: (conj three_ok (And5 isT isT isT isT three_hides)). Qed.
Example C76_class : forall h r st, p_cmd qarith (Pst (new_ctx sname) 0) (three_text ++ txt " ") = Yes h r st ->
  all (fun a : atom qlib => mem class67 (apoly a)) (hp_ante h ++ hp_succ h).
Proof. exact: three_class. Qed.
Example C76_contracts : forall K : rcfType,
  [/\ lib_ok (L := qlib) ratr (@qval K), cad_ok (L := qlib) (@qval K) (uval K), line_ok qoracle ratr (uval K),
      rational_class (L := qlib) (uval K) ratr (mem class67) & arith_ok (L := qlib) (@qval K) qarith].
Proof. exact: (fun K => And5 (qlib_ok K) (qcad_ok K) (qline_ok K) (class67_ok K) (qarith_ok K)). Qed.

(** ** C77: the result string *)

(** It determines the result. *)
Theorem C77_unambiguous : forall name name' ha ha' hs hs',
  ~~ has (Ascii.eqb """"%char) name -> ~~ has (Ascii.eqb """"%char) name' ->
  result_text name ha hs = result_text name' ha' hs' -> [/\ name = name', ha = ha' & hs = hs'].
Proof. exact: result_inj. Qed.
Print Assumptions C77_unambiguous.

Example C77_example : result_text (txt "s1") [:: 0; 12]%N [::] =
  txt "(""s1"" (hide_antecedent_0 hide_antecedent_12) ())".
Proof. exact: result_example. Qed.
