(** Sessions that go on after an exception. *)
From mathcomp Require Import all_ssreflect all_algebra.
From mathcomp.real_closed Require Import polyrcf.
From Coq Require Import String.
From Verif Require Import Py GrfModel GrfCad GrfSpec GrfFacts GrfCheck GrfLoop GrfRun GrfLine GrfCadFacts
  GrfInst GrfEx GrfEx2 GrfLin GrfLinInst GrfLinEx GrfOut GrfOutEx GrfAgain GrfAgainFacts GrfAgainEx GrfRepl GrfReplFacts.

Set Implicit Arguments.
Unset Strict Implicit.
Unset Printing Implicit Defensive.
Import GRing.Theory Num.Theory Order.Theory.
Local Open Scope ring_scope.

Notation nsample := (sample_pt_dicts noracle 1 1).
Definition nsteps_q (l : seq (call nlib)) : option (object nlib) := steps_q noracle brute nsample l.
Definition nsteps (l : seq (call nlib)) (o : object nlib) : Prop := steps noracle brute nsample l o.
Definition ncheck_obj (o : object nlib) := check_obj noracle brute nsample 4 true 1 1 None o.

(** The user promotes x0 < 5 by hand and leaves with end-of-file. *)
Definition quit : seq (call nlib) := [:: AssertHyps hyp1 [:: hyp2]; AssertGoal goal1;
  Check nlib 4 true 1 1 (Some [:: Promote 1])].
(** x0 < 6 *)
Definition goal3 : atom nlib := lat 5 (l3 1 0 (-6%:R)) RLt.
(** The rejected check of C108, after which x0 > 2 is asserted again. *)
Definition repair : seq (call nlib) := once ++ [:: AssertGoal goal1; chk; AssertHyps hyp1 [::]].

Definition ids (oo : option (object nlib)) : option (seq nat * seq nat) :=
  if oo is Some o then Some (map (fun a => aid a) (ohyps o),
    if ogoal o is Some g then map (fun a => aid a) (goal_hyps g) else [::]) else None.
Definition after (oo : option (object nlib)) : option (option exn) :=
  if oo is Some o then Some (if ncheck_obj o is Err x then Some x else None) else None.

Definition start (g : atom nlib) : seq (call nlib) := [:: AssertHyps hyp1 [:: hyp2]; AssertGoal g; chk].
Lemma ex_quit : ids (nsteps_q quit) = Some ([:: 1%N], [:: 2%N]). Proof. by vm_compute. Qed.
Lemma ex_eof : stops (nserve quit) = Some EOFError. Proof. by vm_compute. Qed.
Lemma ex_then : after (nsteps_q (rcons quit (AssertGoal goal3))) = Some (Some counterexample). Proof. by vm_compute. Qed.
Lemma ex_start : left (nserve (start goal3)) = Some [:: 1%N]. Proof. by vm_compute. Qed.
Lemma ex_repair : after (nsteps_q repair) = Some None. Proof. by vm_compute. Qed.

Lemma after_err (q : option (object nlib)) x : after q = Some (Some x) ->
  exists o, q = Some o /\ ncheck_obj o = Err x.
Proof. by case: q => //= o; case E : (ncheck_obj o) => [a|y] // [<-]; exists o. Qed.
Lemma after_ok (q : option (object nlib)) : after q = Some None -> exists o r, q = Some o /\ ncheck_obj o = Ok r.
Proof. by case: q => //= o; case E : (ncheck_obj o) => [a|y] // _; exists o, a. Qed.
Lemma nsteps_qP l o : nsteps_q l = Some o -> nsteps l o.
Proof. exact: steps_qP. Qed.

Lemma goal3_valid (K : rcfType) e : all_true (@lval K) [:: hyp1; hyp2] e -> atom_true (@lval K) goal3 e.
Proof.
rewrite !all_cons !lat_true !lval_l3 /op_true ?rmorphN /=.
rewrite !(ratr_nat _ 0) !(ratr_nat _ 1) !(ratr_nat _ 2) !(ratr_nat _ 5) !(ratr_nat _ 6) !mul0r !mul1r !addr0.
case/and3P=> _; rewrite !subr_lt0 => H _; by rewrite (lt_trans H) // ltr_nat.
Qed.

Lemma quit_refuted_gen (h : atom nlib) hs g g' c :
  stops (nserve [:: AssertHyps h hs; AssertGoal g; c]) = Some EOFError ->
  left (nserve [:: AssertHyps h hs; AssertGoal g'; chk]) <> None ->
  after (nsteps_q (rcons [:: AssertHyps h hs; AssertGoal g; c] (AssertGoal g'))) = Some (Some counterexample) ->
  (forall (K : rcfType) e, all_true (@lval K) (h :: hs) e -> atom_true (@lval K) g' e) ->
  exists (h : atom nlib) hs g g' c, [/\
    nserve [:: AssertHyps h hs; AssertGoal g; c] = Err EOFError,
    exists o, nserve [:: AssertHyps h hs; AssertGoal g'; chk] = Ok o,
    exists2 o, nsteps [:: AssertHyps h hs; AssertGoal g; c; AssertGoal g'] o & ncheck_obj o = Err counterexample &
    forall (K : rcfType) e, all_true (@lval K) (h :: hs) e -> atom_true (@lval K) g' e].
Proof.
move=> /stops_err E1 E2 /after_err[o [/nsteps_qP E3 E4]] V; exists h, hs, g, g', c; split=> //; last by exists o.
by move: E2; case: (nserve _) => // o' _; exists o'.
Qed.
Lemma start_some : left (nserve (start goal3)) <> None.
Proof. by rewrite ex_start. Qed.
Lemma quit_refuted : exists (h : atom nlib) hs g g' c, [/\
    nserve [:: AssertHyps h hs; AssertGoal g; c] = Err EOFError,
    exists o, nserve [:: AssertHyps h hs; AssertGoal g'; chk] = Ok o,
    exists2 o, nsteps [:: AssertHyps h hs; AssertGoal g; c; AssertGoal g'] o & ncheck_obj o = Err counterexample &
    forall (K : rcfType) e, all_true (@lval K) (h :: hs) e -> atom_true (@lval K) g' e].
Proof. exact (quit_refuted_gen ex_eof start_some ex_then goal3_valid). Qed.
Lemma repaired : exists o r, nsteps repair o /\ ncheck_obj o = Ok r.
Proof. by have [o [r [/nsteps_qP E1 E2]]] := after_ok ex_repair; exists o, r. Qed.
