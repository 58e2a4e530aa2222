(** Property theorems about files with several sequents that GRF/smt2.py reads
    (C111). *)
From Coq Require Import String Ascii.
From mathcomp Require Import all_ssreflect all_algebra.
From mathcomp.real_closed Require Import polyrcf.
From Verif Require Import Py CheckerModel GParserModel GParserSpec CheckerSpec
  GrfModel GrfCad GrfSpec GrfFacts GrfCheck GrfLoop GrfRun GrfLine GrfCadFacts GrfInst GrfEx GrfLin GrfLinInst GrfLinEx GrfAgain
  GrfSmt GrfSmtFacts GrfSmtEx SmtParse SmtParseSpec SmtParseFacts SmtParseEx SmtFile SmtFileFacts SmtFileEx.

Set Implicit Arguments.
Unset Strict Implicit.
Unset Printing Implicit Defensive.
Import GRing.Theory Num.Theory Order.Theory.
Local Open Scope ring_scope.

(** ** C111: a file with several sequents *)

(** The formulas that the printed result leaves of the last sequent form a valid
    sequent, whatever the sequents before it left behind in the program. *)
Theorem C111_sound :
  forall (R : realDomainType) (L : lib R) (O : oracle L) (K : rcfType) (inj : R -> K)
    (val : P L -> (var -> K) -> K) (uval : U L -> {poly K}),
  lib_ok inj val -> cad_ok val uval -> line_ok O inj uval -> lin_ok inj val uval ->
  forall C : nat -> pred (P L), (forall n, solvable_class inj uval (C n) n) ->
  forall A : arith (P L), arith_ok val A ->
  forall solve num, (0 < num)%N ->
  forall fuel k eps cs q qs s name ha hs,
  problems_text (q :: qs) s ->
  ~~ has problem_divides (q :: qs) \/ (forall p r e, a_div A p r <> Err e) ->
  (forall n h, List.In (n, h) (file_sequents A s) -> all (fun a => C n (apoly a)) (hp_ante h ++ hp_succ h)) ->
  (forall p, List.In p (q :: qs) -> ~~ has is_equation (pb_ante p) && ~~ has is_disequation (pb_succ p)) ->
  process_commands A (file_action O solve (fun n => sample_pt_dicts O n num) fuel k eps cs) (new_fstate L) s =
    Ok (Some (name, (ha, hs))) ->
  name = pb_name (last q qs) /\
  forall v : string -> K, (forall f, List.In f (pb_ante (last q qs) ++ pb_succ (last q qs)) -> formula_holds v f <> None) ->
    entails v (remaining ha (pb_ante (last q qs))) (remaining hs (pb_succ (last q qs))).
Proof. exact: file_sound. Qed.
Print Assumptions C111_sound.

(** Handling one sequent is perform_grf. *)
Theorem C111_same :
  forall (R : realDomainType) (L : lib R) (O : oracle L) solve sample fuel k eps cs top order antecedent succedent,
  perform_grf O solve sample fuel k eps cs top order antecedent succedent =
  (let! r := perform_q O solve sample fuel k eps cs top order antecedent succedent in Ok r.1).
Proof. exact: perform_qE. Qed.
Print Assumptions C111_same.

(** The result depends on earlier sequents: x > 2, x < -2 |- x > 0 raises an
    exception alone, and gets a result after x > -2, x < 5 |- x > -3. *)
Theorem C111_earlier_refuted : exists p q s1 s2, [/\ problem_text p s1, problem_text q s2,
  exists r, nfile (s1 ++ s2) = Ok (Some (pb_name q, r)) & exists e, nfile s2 = Err e].
Proof. exact: earlier_matters. Qed.
Print Assumptions C111_earlier_refuted.

(** VarOrder.order, once it is set, stays as it is for the rest of the file. *)
Theorem C111_order :
  forall (R : realDomainType) (L : lib R) (O : oracle L) solve sample fuel k eps cs (w w' : fstate L) n a s r,
  f_order w <> [::] -> file_action O solve sample fuel k eps cs w n a s = Ok (w', r) -> f_order w' = f_order w.
Proof. exact: file_order. Qed.
Print Assumptions C111_order.

(** Two sequents that get results when each is alone in its file, and an
    exception when they are in one file: x > -2, x < 5 |- x > -3, then
    y > 2, y < 5 |- y > 0.  VarOrder.order still is that of the first sequent. *)
Theorem C111_order_refuted : exists p q s1 s2, [/\ problem_text p s1, problem_text q s2,
  exists r, nfile s1 = Ok (Some (pb_name p, r)), exists r, nfile s2 = Ok (Some (pb_name q, r)) &
  exists e, nfile (s1 ++ s2) = Err e].
Proof. exact: order_matters. Qed.
Print Assumptions C111_order_refuted.

(** A file with two sequents in two variables that meets the hypotheses of C111_sound. *)
Example C111_case : exists q qs s r, [/\ problems_text (q :: qs) s, ~~ has problem_divides (q :: qs),
  forall n h, List.In (n, h) (file_sequents narith s) -> all (fun a => linear (L := nlib) n (apoly a)) (hp_ante h ++ hp_succ h),
  forall p, List.In p (q :: qs) -> ~~ has is_equation (pb_ante p) && ~~ has is_disequation (pb_succ p) &
  nfile s = Ok (Some (txt "d", r))].
Proof. exact: file_case. Qed.
Example C111_result : nfile (c_txt ++ d_txt) = Ok (Some (txt "d", ([:: 0%N; 2%N], [::]))).
Proof. exact cd_run. Qed.
Example C111_order_case : exists (w : fstate nlib) n a s w' r, f_order w <> [::] /\ naction w n a s = Ok (w', r).
Proof. exact: order_case. Qed.
Example C111_contracts (K : rcfType) : [/\ @lib_ok [realDomainType of rat] nlib K ratr (@nval K),
  @cad_ok [realDomainType of rat] nlib K (@nval K) (@uval K),
  @line_ok [realDomainType of rat] nlib noracle K ratr (@uval K),
  @lin_ok [realDomainType of rat] nlib K ratr (@nval K) (@uval K) &
  (forall n, solvable_class (L := nlib) ratr (uval K) (linear n) n) /\ arith_ok (L := nlib) (@nval K) narith].
Proof. exact: file_contracts. Qed.
