(** Model of perform_grf of GRF/smt2.py for files with several sequents: what one
    sequent leaves behind for the next one.  Lines of smt2.py in parentheses. *)
From Coq Require Import String Ascii.
From mathcomp Require Import all_ssreflect all_algebra.
From Verif Require Import Py CheckerModel GParserModel GrfModel GrfAgain GrfSmt SmtParse.

Set Implicit Arguments.
Unset Strict Implicit.
Unset Printing Implicit Defensive.
Import GRing.Theory Num.Theory Order.Theory.
Local Open Scope ring_scope.

Section File.
Variables (R : realDomainType) (L : lib R) (O : oracle L).
Local Notation poly := (P L).
Local Notation asg := (dict [eqType of var] R).
Variable solve : nat -> seq constraint -> seq nat -> res (nat -> bool).

(** perform_grf (107-189) as in GrfSmt.v, returning in addition the polynomials
    that are installed at the end. *)
Definition perform_q (sample : addr -> option (goal L) -> seq poly -> seq (atom L) -> res (seq asg * seq poly))
    (fuel k : nat) (epsilon : R) (cs : option (seq command)) (top : seq poly) (order : seq var)
    (antecedent succedent : seq (atom L)) : res (seq nat * seq nat * decide L * seq poly) :=
  let several := (1 < size succedent)%N in
  let succ := if several then rev succedent else succedent in
  let negated := if several then [seq negate h | h <- behead succ] else [::] in
  let ante := antecedent ++ negated in
  let! m := pyget succ 0 in
  let! r := check_q O solve sample fuel true k epsilon cs top (Decide ante (Goal m [::] [::]) order) in
  let hide := hyps r.1.2 in
  let s := rev (take 1 succ ++ negated) in
  Ok (hide_indices 0 ante hide, hide_indices 0 s hide, r.1.2, r.2).

(** What is kept between sequents: self.QEF (41, 121) with the number of its
    variables and the polynomials installed in it, and VarOrder.order. *)
Record fstate := FState { f_vars : nat; f_top : seq poly; f_order : seq var }.
(** 41: QE_Factory(num_vars=1), in a fresh interpreter. *)
Definition new_fstate : fstate := FState 1 [::] [::].

(** get_ring_var (60-79) makes a new QE_Factory, without polynomials, when the
    ring is extended; otherwise the next sequent uses the old one. *)
Definition file_action (sample : nat -> addr -> option (goal L) -> seq poly -> seq (atom L) -> res (seq asg * seq poly))
    (fuel k : nat) (epsilon : R) (cs : option (seq command)) (w : fstate) (n : nat)
    (antecedent succedent : seq (atom L)) : res (fstate * (seq nat * seq nat)) :=
  let top := if f_vars w == n then f_top w else [::] in
  let! r := perform_q (sample n) fuel k epsilon cs top (f_order w) antecedent succedent in
  Ok (FState n r.2 (vorder r.1.2), r.1.1).

(** The sequents that are read from a text, each with the number of variables of
    the ring at that moment. *)
Variable A : arith (P L).
Fixpoint sequents (k : nat) (st : pst) (s : text) : seq (nat * hiding_problem L) :=
  if k is k'.+1 then
    if p_cmd A st s is Yes h r st' then (nvars (names st'), h) :: sequents k' st' r else [::]
  else [::].
Definition file_sequents (s : text) : seq (nat * hiding_problem L) :=
  sequents (size s).+1 (Pst (new_ctx sname) 0) s.
End File.
