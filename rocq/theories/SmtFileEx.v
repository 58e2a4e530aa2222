(** A concrete library and concrete files for SmtFile.v. *)
From Coq Require Import String Ascii.
From mathcomp Require Import all_ssreflect all_algebra.
From mathcomp.zify Require Import zify.
From mathcomp.real_closed Require Import polyrcf.
From Verif Require Import Py CheckerModel GParserModel GParserSpec GParserFacts CheckerSpec
  GrfModel GrfCad GrfSpec GrfFacts GrfCheck GrfLoop GrfRun GrfLine GrfCadFacts GrfInst GrfEx GrfLin GrfLinInst GrfLinEx GrfAgain
  GrfSmt GrfSmtFacts GrfSmtEx SmtParse SmtParseSpec SmtParseFacts SmtParseEx SmtFile SmtFileFacts.
Set Implicit Arguments.
Unset Strict Implicit.
Unset Printing Implicit Defensive.
Import GRing.Theory Num.Theory Order.Theory.
Local Open Scope ring_scope.

(** Arithmetic of the polynomials of GrfLinInst.v; division by constants only. *)
Definition nscale (c : rat) (l : seq GrfInst.term) : seq GrfInst.term := [seq (t.1, c * t.2) | t <- l].
Definition ndiv (p q : npoly) : res npoly :=
  if nterms q is [:: ([::], c)] then
    if c == 0 then Err (Exc "ZeroDivisionError") else Ok (mk (nscale c^-1 (nterms p)))
  else if nterms q is [::] then Err (Exc "ZeroDivisionError") else Err TypeError.
Definition narith : arith (P nlib) :=
  @Arith (P nlib) (fun c => mk [:: ([::], c)]) (fun p q => mk (nterms p ++ nterms q))
    (fun p q => mk (nscale (-1) (nterms q) ++ nterms p)) (fun p q => mk (qmul (nterms p) (nterms q))) ndiv.
Definition naction := file_action noracle brute (fun n => sample_pt_dicts noracle n 1) 5 1 1 None.
Definition nfile (s : text) := process_commands narith naction (new_fstate nlib) s.
Definition a_txt := txt "(sequent ""a"" (antecedent (> x ~2.) (< x 5.)) (succedent (> x ~3.)))".
Definition b_txt := txt "(sequent ""b"" (antecedent (> x 2.) (< x ~2.)) (succedent (> x 0.)))".
Definition c_txt := txt "(sequent ""c"" (antecedent (> x 1.) (> y 1.) (< y 9.)) (succedent (> y 0.)))".
Definition d_txt := txt "(sequent ""d"" (antecedent (> y 1.) (> x 1.) (< x 9.)) (succedent (> x 0.)))".
Definition e_txt := txt "(sequent ""e"" (antecedent (> y 2.) (< y 5.)) (succedent (> y 0.)))".

Section NArith.
Variable K : rcfType.
Lemma nscaleE c p e : @pval K (nscale c p) e = ratr c * pval p e.
Proof. by elim: p => [|t p IH] /=; rewrite ?mulr0 // IH mulrDr /tval /= rmorphM mulrA. Qed.
Lemma narith_ok : arith_ok (L := nlib) (@nval K) narith.
Proof.
split.
- by move=> c e; rewrite [LHS]nval_mk /= /tval /= mulr1 addr0.
- by move=> v e; exact: (GrfCadFacts.val_gen (ncad_ok K)).
- by move=> p q e; rewrite [LHS]nval_mk pval_cat.
- by move=> p q e; rewrite [LHS]nval_mk pval_cat nscaleE rmorphN1 mulN1r addrC.
- by move=> p q e; rewrite [LHS]nval_mk pval_mul.
- move=> p q r e; rewrite /= /ndiv /nval; case: (nterms q) => // -[m c] [|//]; case: m => //; case: eqP => // /eqP c0 [<-].
  rewrite -/(nval _ _) nval_mk nscaleE /= /tval /= mulr1 addr0 mulrAC -rmorphM mulVf //.
  by rewrite rmorph1 mul1r.
Qed.
End NArith.

(** ** The sequents *)
Definition num1 c := TNum (decimal [:: c]).
Definition neg1 c := TNum (- decimal [:: c]).
Definition a_seq : problem := Problem (txt "a")
  [:: (RGt, TVar "x", neg1 "2"); (RLt, TVar "x", num1 "5")] [:: (RGt, TVar "x", neg1 "3")].
Definition b_seq : problem := Problem (txt "b")
  [:: (RGt, TVar "x", num1 "2"); (RLt, TVar "x", neg1 "2")] [:: (RGt, TVar "x", num1 "0")].
Definition c_seq : problem := Problem (txt "c")
  [:: (RGt, TVar "x", num1 "1"); (RGt, TVar "y", num1 "1"); (RLt, TVar "y", num1 "9")] [:: (RGt, TVar "y", num1 "0")].
Definition d_seq : problem := Problem (txt "d")
  [:: (RGt, TVar "y", num1 "1"); (RGt, TVar "x", num1 "1"); (RLt, TVar "x", num1 "9")] [:: (RGt, TVar "x", num1 "0")].
Definition e_seq : problem := Problem (txt "e")
  [:: (RGt, TVar "y", num1 "2"); (RLt, TVar "y", num1 "5")] [:: (RGt, TVar "y", num1 "0")].

Lemma yT : sterm_text (TVar "y") (txt " y"). Proof. exact: (@StVar (txt " ") (txt "y")). Qed.
Lemma nT c : digit c -> sterm_text (neg1 c) (txt " ~" ++ [:: c] ++ txt ".").
Proof. by move=> h; apply: (@StNeg _ (txt " ") [::]) => //; apply: DecDot; rewrite /digits /= h. Qed.
Lemma gtT t s1 u s2 : sterm_text t (txt " " ++ s1) -> sterm_text u (txt " " ++ s2) ->
  srel_text (RGt, t, u) (txt " (>" ++ (txt " " ++ s1) ++ (txt " " ++ s2) ++ txt ")").
Proof.
move=> h1 h2; apply: (@StRel ">" RGt _ _ (txt " ") [::] _ _ [::] _ _ _ _ h1 h2) => //; first by do 5!right; left.
by rewrite /separate orbT.
Qed.
Lemma ltT t s1 u s2 : sterm_text t (txt " " ++ s1) -> sterm_text u (txt " " ++ s2) ->
  srel_text (RLt, t, u) (txt " (<" ++ (txt " " ++ s1) ++ (txt " " ++ s2) ++ txt ")").
Proof.
move=> h1 h2; apply: (@StRel "<" RLt _ _ (txt " ") [::] _ _ [::] _ _ _ _ h1 h2) => //; first by right; left.
by rewrite /separate orbT.
Qed.
Lemma seqT q s1 s2 : ~~ has (Ascii.eqb """"%char) (pb_name q) ->
  srels_text (pb_ante q) s1 -> srels_text (pb_succ q) s2 ->
  problem_text q (txt "(sequent """ ++ pb_name q ++ txt """ (antecedent" ++ s1 ++ txt ") (succedent" ++ s2 ++ txt "))").
Proof.
move=> hn h1 h2.
have := @StProblem q [::] [::] (txt " ") _ _ [::] isT isT isT isT hn
  (@StSide "antecedent" _ (txt " ") [::] s1 [::] isT isT isT h1)
  (@StSide "succedent" _ (txt " ") [::] s2 [::] isT isT isT h2).
by rewrite /= -?catA.
Qed.
Lemma a_ok : problem_text a_seq a_txt.
Proof.
have F1 := gtT (s1 := txt "x") xT (@nT "2" isT).
have F2 := ltT (s1 := txt "x") xT (@dT "5" isT).
have F3 := gtT (s1 := txt "x") xT (@nT "3" isT).
exact: (@seqT a_seq _ _ isT (StCons F1 (StCons F2 StNil)) (StCons F3 StNil)).
Qed.
Lemma b_ok : problem_text b_seq b_txt.
Proof.
have F1 := gtT (s1 := txt "x") xT (@dT "2" isT).
have F2 := ltT (s1 := txt "x") xT (@nT "2" isT).
have F3 := gtT (s1 := txt "x") xT (@dT "0" isT).
exact: (@seqT b_seq _ _ isT (StCons F1 (StCons F2 StNil)) (StCons F3 StNil)).
Qed.
Lemma c_ok : problem_text c_seq c_txt.
Proof.
have F1 := gtT (s1 := txt "x") xT (@dT "1" isT).
have F2 := gtT (s1 := txt "y") yT (@dT "1" isT).
have F3 := ltT (s1 := txt "y") yT (@dT "9" isT).
have F4 := gtT (s1 := txt "y") yT (@dT "0" isT).
exact: (@seqT c_seq _ _ isT (StCons F1 (StCons F2 (StCons F3 StNil))) (StCons F4 StNil)).
Qed.
Lemma d_ok : problem_text d_seq d_txt.
Proof.
have F1 := gtT (s1 := txt "y") yT (@dT "1" isT).
have F2 := gtT (s1 := txt "x") xT (@dT "1" isT).
have F3 := ltT (s1 := txt "x") xT (@dT "9" isT).
have F4 := gtT (s1 := txt "x") xT (@dT "0" isT).
exact: (@seqT d_seq _ _ isT (StCons F1 (StCons F2 (StCons F3 StNil))) (StCons F4 StNil)).
Qed.
Lemma e_ok : problem_text e_seq e_txt.
Proof.
have F1 := gtT (s1 := txt "y") yT (@dT "2" isT).
have F2 := ltT (s1 := txt "y") yT (@dT "5" isT).
have F3 := gtT (s1 := txt "y") yT (@dT "0" isT).
exact: (@seqT e_seq _ _ isT (StCons F1 (StCons F2 StNil)) (StCons F3 StNil)).
Qed.

Lemma one_text q s : problem_text q s -> problems_text [:: q] s.
Proof. by move=> h; rewrite -[s]cats0; apply: StMore h (StEnd (w := [::]) isT). Qed.
Lemma two_text q s q' s' : problem_text q s -> problem_text q' s' -> problems_text [:: q; q'] (s ++ s').
Proof. by move=> h h'; apply: StMore h (one_text h'). Qed.

Lemma a_run : nfile a_txt = Ok (Some (txt "a", ([:: 1%N], [::]))). Proof. by vm_compute. Qed.
Lemma b_run : exists e, nfile b_txt = Err e. Proof. by exists (Exc "ParseException"); vm_compute. Qed.
Lemma ab_run : nfile (a_txt ++ b_txt) = Ok (Some (txt "b", ([:: 1%N], [::]))). Proof. by vm_compute. Qed.
Lemma e_run : nfile e_txt = Ok (Some (txt "e", ([:: 1%N], [::]))). Proof. by vm_compute. Qed.
Lemma ae_run : nfile (a_txt ++ e_txt) = Err TypeError. Proof. by vm_compute. Qed.
Lemma cd_run : nfile (c_txt ++ d_txt) = Ok (Some (txt "d", ([:: 0%N; 2%N], [::]))). Proof. by vm_compute. Qed.
Lemma cd_class : all (fun x => all (fun a => linear (L := nlib) x.1 (apoly a)) (hp_ante x.2 ++ hp_succ x.2))
  (file_sequents narith (c_txt ++ d_txt)).
Proof. by vm_compute. Qed.
Lemma cd_fits n h : List.In (n, h) (file_sequents narith (c_txt ++ d_txt)) ->
  all (fun a => linear (L := nlib) n (apoly a)) (hp_ante h ++ hp_succ h).
Proof.
move: cd_class; elim: (file_sequents _ _) => [|x l IH] //= /andP[hx hl] [Ex|/(IH hl)//].
by move: hx; rewrite Ex.
Qed.
Lemma cd_ops p : List.In p [:: c_seq; d_seq] -> ~~ has is_equation (pb_ante p) && ~~ has is_disequation (pb_succ p).
Proof. by case=> [<-|[<-|[]]]. Qed.

Lemma earlier_matters : exists p q s1 s2, [/\ problem_text p s1, problem_text q s2,
  exists r, nfile (s1 ++ s2) = Ok (Some (pb_name q, r)) & exists e, nfile s2 = Err e].
Proof. exact (ex_intro _ a_seq (ex_intro _ b_seq (ex_intro _ a_txt (ex_intro _ b_txt (And4 a_ok b_ok (ex_intro _ _ ab_run) b_run))))). Qed.
Lemma order_matters : exists p q s1 s2, [/\ problem_text p s1, problem_text q s2,
  exists r, nfile s1 = Ok (Some (pb_name p, r)), exists r, nfile s2 = Ok (Some (pb_name q, r)) &
  exists e, nfile (s1 ++ s2) = Err e].
Proof.
exact (ex_intro _ a_seq (ex_intro _ e_seq (ex_intro _ a_txt (ex_intro _ e_txt
  (And5 a_ok e_ok (ex_intro _ _ a_run) (ex_intro _ _ e_run) (ex_intro _ _ ae_run)))))).
Qed.

Lemma file_case : exists q qs s r, [/\ problems_text (q :: qs) s, ~~ has problem_divides (q :: qs),
  forall n h, List.In (n, h) (file_sequents narith s) -> all (fun a => linear (L := nlib) n (apoly a)) (hp_ante h ++ hp_succ h),
  forall p, List.In p (q :: qs) -> ~~ has is_equation (pb_ante p) && ~~ has is_disequation (pb_succ p) &
  nfile s = Ok (Some (txt "d", r))].
Proof. exact (ex_intro _ c_seq (ex_intro _ [:: d_seq] (ex_intro _ (c_txt ++ d_txt) (ex_intro _ _ (And5 (two_text c_ok d_ok) isT cd_fits cd_ops cd_run))))). Qed.

Lemma file_contracts (K : rcfType) : [/\ @lib_ok [realDomainType of rat] nlib K ratr (@nval K),
  @cad_ok [realDomainType of rat] nlib K (@nval K) (@uval K),
  @line_ok [realDomainType of rat] nlib noracle K ratr (@uval K),
  @lin_ok [realDomainType of rat] nlib K ratr (@nval K) (@uval K) &
  (forall n, solvable_class (L := nlib) ratr (uval K) (linear n) n) /\ arith_ok (L := nlib) (@nval K) narith].
Proof. exact (And5 (nlib_ok K) (ncad_ok K) (nline_ok K) (nlin_ok K) (conj (@ex104_class K) (@narith_ok K))). Qed.

(** An action with an order that is already set. *)
Definition a_atoms : hiding_problem nlib :=
  head (HidingProblem (L := nlib) [::] [::] [::]) [seq x.2 | x <- file_sequents narith a_txt].
Definition a_state := FState (L := nlib) 1 [::] [:: 0%N].
Lemma a_state_set : f_order a_state <> [::]. Proof. by []. Qed.
Lemma a_again_ok : (if naction a_state 1 (hp_ante a_atoms) (hp_succ a_atoms) is Ok _ then true else false).
Proof. by vm_compute. Qed.
Lemma ok_case (f : fstate nlib -> nat -> seq (atom nlib) -> seq (atom nlib) -> res (fstate nlib * (seq nat * seq nat))) w n a s :
  f_order w <> [::] -> (if f w n a s is Ok _ then true else false) ->
  exists w n a s w' r, f_order w <> [::] /\ f w n a s = Ok (w', r).
Proof. by move=> N; case E: (f w n a s) => [[w' r]|//] _; exists w, n, a, s, w', r. Qed.
Lemma order_case : exists (w : fstate nlib) n a s w' r, f_order w <> [::] /\ naction w n a s = Ok (w', r).
Proof. exact (@ok_case naction a_state 1 (hp_ante a_atoms) (hp_succ a_atoms) a_state_set a_again_ok). Qed.
