(** Property theorems for the life of a ParseSMT object of GRF/smt2.py. *)
From Coq Require Import String Ascii.
From mathcomp Require Import all_ssreflect all_algebra.
From Verif Require Import Py CheckerModel GParserModel GParserSpec CheckerSpec
  GrfModel GrfCad GrfSpec GrfInst GrfEx GrfEx2 GrfSmt GrfSmtFacts GrfSmtEx SmtParse SmtParseSpec SmtParseFacts SmtParseEx
  SmtSession SmtSessionSpec SmtSessionFacts SmtSessionEx.

Set Implicit Arguments.
Unset Strict Implicit.
Unset Printing Implicit Defensive.

(** ** C95: processCommands with a context *)

(** Without one, a new parser does what SmtParse.v says. *)
Theorem C95_without_context :
  forall (R : realDomainType) (L : lib R) (A : arith (P L)) (settings W : Type)
    (perform : W -> nat -> seq (atom L) -> seq (atom L) -> res (W * (seq nat * seq nat))) (o : settings) n w st s,
  next st = 0 ->
  let: (p, st1) := new_parser None o n st in
  let: (p', w', st', y) := process A (grf_of perform) None p w st1 s in
  process_commands A perform w s =
    match y with Ok c => Ok (reported (heap st' c)) | Err e => Err e end.
Proof. exact: new_agrees. Qed.
Print Assumptions C95_without_context.

(** With one, this context never gets a result, ... *)
Theorem C95_no_result :
  forall (R : realDomainType) (L : lib R) (A : arith (P L)) (settings W : Type)
    (grf : W -> context L settings -> W * context L settings * option exn) (c : nat) p w st s p' w' st' x,
  c != action_context p -> process A grf (Some c) p w st s = (p', w', st', x) ->
  [/\ cset (heap st' c) = cset (heap st c), cseq (heap st' c) = cseq (heap st c),
      chide (heap st' c) = chide (heap st c) &
      forall j, j != c -> j != action_context p -> heap st' j = heap st j].
Proof. exact: given_keeps. Qed.
Print Assumptions C95_no_result.

(** ... and what is filtered is the problem of the context that the parser was
    made with, once for each sequent of the text. *)
Theorem C95_old_problem :
  forall (R : realDomainType) (L : lib R) (A : arith (P L)) (settings W : Type)
    (grf : W -> context L settings -> W * context L settings * option exn)
    (K : realFieldType) (val : P L -> (var -> K) -> K) qs s (c : nat) p w st,
  arith_ok val A -> problems_text qs s ->
  ~~ has problem_divides qs \/ (forall p p' e, a_div A p p' <> Err e) ->
  c != action_context p -> good_ctx (cnames (heap st c)) ->
  let x := rerun grf (map pb_name qs) w (heap st (action_context p)) in
  let: (p', w', st', y) := process A grf (Some c) p w st s in
  [/\ w' = x.1.1, heap st' (action_context p) = x.1.2 & y = outcome c x.2].
Proof. exact: given_rerun. Qed.
Print Assumptions C95_old_problem.

(** A parser that has read nothing accepts blank texts only. *)
Theorem C95_unused_parser :
  forall (R : realDomainType) (L : lib R) (A : arith (P L)) (settings W : Type)
    (grf : W -> context L settings -> W * context L settings * option exn) (c : nat) p w st s,
  c != action_context p -> needs_succedent grf -> csucc (heap st (action_context p)) = [::] ->
  (exists r : nat, (process A grf (Some c) p w st s).2 = Ok r) <-> blank s.
Proof. exact: given_new. Qed.
Print Assumptions C95_unused_parser.

Theorem C95_needs_succedent :
  forall (R : realDomainType) (L : lib R) (O : oracle L) solve sample fuel k eps cs settings,
  needs_succedent (@grf_of R L settings unit (hide_action O solve sample fuel k eps cs)).
Proof. exact: hide_needs. Qed.
Print Assumptions C95_needs_succedent.

(** The context of the parser is restored, unless there is an exception. *)
Theorem C95_parser_afterwards :
  forall (R : realDomainType) (L : lib R) (A : arith (P L)) (settings W : Type)
    (grf : W -> context L settings -> W * context L settings * option exn) c p w st s,
  let: (p', w', st', x) := process A grf (Some c) p w st s in
  action_context p' = action_context p /\
  match x with
  | Ok r => r = c /\ self_context p' = self_context p
  | Err e => self_context p' = c
  end.
Proof. exact: given_parser. Qed.
Print Assumptions C95_parser_afterwards.

Theorem C95_own_parser_afterwards :
  forall (R : realDomainType) (L : lib R) (A : arith (P L)) (settings W : Type)
    (grf : W -> context L settings -> W * context L settings * option exn) p w st s,
  let: (p', w', st', x) := process A grf None p w st s in
  p' = p /\ if x is Ok r then r = self_context p else Logic.True.
Proof. exact: own_parser. Qed.
Print Assumptions C95_own_parser_afterwards.

Theorem C95_blank :
  forall (R : realDomainType) (L : lib R) (A : arith (P L)) (settings W : Type)
    (grf : W -> context L settings -> W * context L settings * option exn) (c : nat) p w st s,
  blank s -> exists2 st', process A grf (Some c) p w st s = (p, w, st', Ok c) & heap st' =1 heap st.
Proof. exact: given_blank. Qed.
Print Assumptions C95_blank.

(** The same sequent with the parser's own context and with another one. *)
Theorem C95_refuted : exists q s,
  [/\ problem_text q s, ~~ problem_divides q, own_result s = Ok ([::], [::]) &
      other_result s = (1, Err (Exc "ParseException"))].
Proof. exact: (ex_intro _ other (ex_intro _ other_text (And4 other_ok isT own_works other_fails))). Qed.
Print Assumptions C95_refuted.

Example C95_example : needs_succedent qgrf /\
  csucc (heap (first_parser.2) (action_context first_parser.1)) = [::] /\ 1 != action_context first_parser.1.
Proof. exact: (conj qgrf_needs (conj erefl isT)). Qed.

(** ** C96: clearContext *)

(** The new context never gets a result, and it has the default settings. *)
Theorem C96_no_result :
  forall (R : realDomainType) (L : lib R) (A : arith (P L)) (settings W : Type)
    (grf : W -> context L settings -> W * context L settings * option exn) (o : settings) (n : nat) p0 st0 w s p w' st' y,
  n != action_context p0 ->
  (let: (p, st) := clear_context o n p0 st0 in process A grf None p w st s) = (p, w', st', y) ->
  [/\ chide (heap st' n) = None, cseq (heap st' n) = [::] & cset (heap st' n) = o].
Proof. exact: cleared_nothing. Qed.
Print Assumptions C96_no_result.

(** What is filtered is the problem that was there before. *)
Theorem C96_old_problem :
  forall (R : realDomainType) (L : lib R) (A : arith (P L)) (settings W : Type)
    (grf : W -> context L settings -> W * context L settings * option exn)
    (K : realFieldType) (val : P L -> (var -> K) -> K) qs s (o : settings) (n : nat) p0 st0 w,
  arith_ok val A -> problems_text qs s ->
  ~~ has problem_divides qs \/ (forall p p' e, a_div A p p' <> Err e) ->
  n != action_context p0 ->
  let x := rerun grf (map pb_name qs) w (heap st0 (action_context p0)) in
  let: (p, st) := clear_context o n p0 st0 in
  let: (p', w', st', y) := process A grf None p w st s in
  [/\ w' = x.1.1, heap st' (action_context p0) = x.1.2 & y = outcome n x.2].
Proof. exact: cleared_rerun. Qed.
Print Assumptions C96_old_problem.

(** A parser that is not interactive reads a file, is cleared and reads a
    second file: there is no result, the first context says that the sequent
    of the second file hides a formula it does not have, and the new context
    is interactive. *)
Theorem C96_refuted : exists s s',
  own_result s' = Ok ([::], [::]) /\
  cleared_result s s' = (Ok 0, Ok 1, Err TypeError, Some (txt "s2", ([:: 0], [::])), true).
Proof. exact: (ex_intro _ one_text (ex_intro _ other_text (conj own_works cleared_example))). Qed.
Print Assumptions C96_refuted.

Example C96_example : problems_text [:: other] (other_text ++ [::]) /\ ~~ has problem_divides [:: other] /\
  1 != action_context first_parser.1.
Proof. exact: (conj (StMore other_ok (StEnd (isT : blank [::]))) (conj isT isT)). Qed.
