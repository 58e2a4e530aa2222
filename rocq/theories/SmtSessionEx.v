(** perform_grf in the life of a ParseSMT object, and a concrete parser. *)
From Coq Require Import String Ascii.
From mathcomp Require Import all_ssreflect all_algebra.
From Verif Require Import Py CheckerModel GParserModel GParserSpec CheckerSpec
  GrfModel GrfCad GrfSpec GrfInst GrfEx GrfEx2 GrfSmt GrfSmtFacts GrfSmtEx SmtParse SmtParseSpec SmtParseFacts SmtParseEx
  SmtSession SmtSessionSpec SmtSessionFacts.

Set Implicit Arguments.
Unset Strict Implicit.
Unset Printing Implicit Defensive.

(** perform_grf reads succedent[0] (142). *)
Lemma hide_needs (R : realDomainType) (L : lib R) (O : oracle L) solve sample fuel k eps cs settings :
  needs_succedent (@grf_of R L settings unit (hide_action O solve sample fuel k eps cs)).
Proof. by move=> w c E; rewrite /grf_of E /hide_action perform_empty. Qed.

(** The settings are whether the context is interactive. *)
Definition qgrf := @grf_of _ qlib bool unit (hide_action qoracle brute (fun n => sample_pt_dicts qoracle n 1) 5 1 1%R None).
Definition qstore : store qlib bool := Store (fun=> new_context qlib true) 0.

Definition one_text : text := txt "(sequent ""s0"" (antecedent (< x 3.)) (succedent (>= (* x x) 0.)))".
Definition other_text : text := txt "(sequent ""s2"" (antecedent) (succedent (>= (* y y) 0.)))".
Definition other : problem := Problem (txt "s2") [::] [:: (RGe, TMul (TVar "y") (TVar "y"), TNum (decimal (txt "0")))].

Lemma other_ok : problem_text other other_text.
Proof.
have yT : sterm_text (TVar "y") (txt " y") by exact: (@StVar (txt " ") (txt "y")).
have F3 : srel_text (RGe, TMul (TVar "y") (TVar "y"), TNum (decimal (txt "0"))) (txt " (>= (* y y) 0.)").
  apply: (@StRel ">=" RGe _ _ (txt " ") [::] (txt " (* y y)") (txt " 0.") [::]) => //; [by do 4!right; left| |exact: (@dT "0")].
  by apply: (@StBin "*" TMul _ _ (txt " ") [::] (txt " y") (txt " y") [::]) => //; right; left.
apply: (@StProblem other [::] [::] (txt " ") (txt " (antecedent)") (txt " (succedent (>= (* y y) 0.))") [::]) => //.
  by apply: (@StSide "antecedent" _ (txt " ") [::] [::] [::]) => //; exact: StNil.
apply: (@StSide "succedent" _ (txt " ") [::] (txt " (>= (* y y) 0.)") [::]) => //.
exact: (StCons F3 StNil).
Qed.

(** A new parser with the settings [false]. *)
Definition first_parser := new_parser None false 0 qstore.

(** Its own context: *)
Definition own_result s := let: (p, st) := first_parser in
  let: (_, _, st', y) := process qarith qgrf None p tt st s in
  let! c := y in hidden st' c.
Lemma own_works : own_result other_text = Ok ([::], [::]).
Proof. by vm_compute. Qed.

(** Another context: *)
Definition other_result s := let: (p, st) := first_parser in
  let: (p', _, _, y) := process qarith qgrf (Some 1) p tt st s in (self_context p', y).
Lemma other_fails : other_result other_text = (1, Err (Exc "ParseException")).
Proof. by vm_compute. Qed.

(** The parser reads one file, is cleared, and reads another: the result of
    the second call, what the first context says, and whether the new context
    is interactive. *)
Definition cleared_result s s' := let: (p, st) := first_parser in
  let: (p1, w1, st1, y1) := process qarith qgrf None p tt st s in
  let: (p2, st2) := clear_context true 1 p1 st1 in
  let: (p3, w3, st3, y3) := process qarith qgrf None p2 w1 st2 s' in
  (y1, y3, (let! c := y3 in hidden st3 c), reported (heap st3 0), cset (heap st3 1)).
Lemma cleared_example : cleared_result one_text other_text =
  (Ok 0, Ok 1, Err TypeError, Some (txt "s2", ([:: 0], [::])), true).
Proof. by vm_compute. Qed.
Lemma qgrf_needs : needs_succedent qgrf. Proof. exact: hide_needs. Qed.
