(** A session with two goals on one RCF_GD_Decide object. *)
From mathcomp Require Import all_ssreflect all_algebra.
From mathcomp.zify Require Import zify.
From mathcomp.real_closed Require Import polyrcf.
From Coq Require Import String.
From Verif Require Import Py GrfModel GrfCad GrfSpec GrfFacts GrfCheck GrfLoop GrfRun GrfLine GrfCadFacts
  GrfInst GrfEx GrfEx2 GrfLin GrfLinInst GrfLinEx GrfOut GrfOutEx GrfAgain GrfAgainFacts.

Set Implicit Arguments.
Unset Strict Implicit.
Unset Printing Implicit Defensive.
Import GRing.Theory Num.Theory Order.Theory.
Local Open Scope ring_scope.

Definition nserve (l : seq (call nlib)) : res (object nlib) :=
  serve noracle brute (sample_pt_dicts noracle 1 1) (new_object nlib) l.
Definition chk : call nlib := Check nlib 4 true 1 1 None.
(** x0 > 2, x0 < 5 *)
Definition hyp1 : atom nlib := lat 1 (l3 1 0 (-2%:R)) RGt.
Definition hyp2 : atom nlib := lat 2 (l3 1 0 (-5%:R)) RLt.
(** x0 > 0 and x0 > 1 *)
Definition goal1 : atom nlib := lat 3 (l3 1 0 0) RGt.
Definition goal2 : atom nlib := lat 4 (l3 1 0 (-1)) RGt.

Definition once : seq (call nlib) := [:: AssertHyps hyp1 [:: hyp2]; AssertGoal goal1; chk].
Definition other : seq (call nlib) := [:: AssertHyps hyp1 [:: hyp2]; AssertGoal goal2; chk].

Definition left (r : res (object nlib)) : option (seq nat) := if r is Ok o then Some (map (fun a => aid a) (ohyps o)) else None.
Definition stops (r : res (object nlib)) : option exn := if r is Err x then Some x else None.
Lemma ex_once : left (nserve once) = Some [:: 2%N]. Proof. by vm_compute. Qed.
Lemma ex_other : left (nserve other) = Some [:: 2%N]. Proof. by vm_compute. Qed.
Lemma ex_same : stops (nserve (once ++ [:: AssertGoal goal1; chk])) = Some counterexample. Proof. by vm_compute. Qed.
Lemma ex_next : stops (nserve (once ++ [:: AssertGoal goal2; chk])) = Some counterexample. Proof. by vm_compute. Qed.
Lemma ex_again : left (nserve (once ++ [:: chk])) = Some [:: 2%N]. Proof. by vm_compute. Qed.

Lemma left_ok r l : left r = Some l -> exists o, r = Ok o /\ map (fun a => aid a) (ohyps o) = l.
Proof. by case: r => // o [<-]; exists o. Qed.
Lemma stops_err r x : stops r = Some x -> r = Err x.
Proof. by case: r => // y [->]. Qed.

Definition acls : pred (atom nlib) := in_class (linear (L := nlib) 1).
Lemma ex_class : [/\ all acls [:: hyp1; hyp2], all (fun h => ~~ is_eqn h) [:: hyp1; hyp2],
  all acls [:: goal1; goal2] & all (ring_atom (L := nlib) 1) [:: hyp1; hyp2; goal1; goal2]].
Proof. by split; vm_compute. Qed.

Lemma ex_valid (K : rcfType) e : all_true (@lval K) [:: hyp1; hyp2] e ->
  atom_true (@lval K) goal1 e && atom_true (@lval K) goal2 e.
Proof.
rewrite !all_cons !lat_true !lval_l3 /op_true ?rmorphN /=.
rewrite !(ratr_nat _ 0) !(ratr_nat _ 1) !(ratr_nat _ 2) !mul0r !mul1r !addr0.
case/andP; rewrite subr_gt0 => H _; rewrite subr_gt0.
by rewrite (lt_trans _ H) ?ltr0n // (lt_trans _ H) ?ltr1n.
Qed.

Lemma reuse_refuted : exists (h : atom nlib) hs g, [/\
    exists o, nserve [:: AssertHyps h hs; AssertGoal g; chk] = Ok o,
    nserve [:: AssertHyps h hs; AssertGoal g; chk; AssertGoal g; chk] = Err counterexample &
    forall (K : rcfType) e, all_true (@lval K) (h :: hs) e -> atom_true (@lval K) g e].
Proof.
exists hyp1, [:: hyp2], goal1; split; last by move=> K e /ex_valid/andP[].
  by have [o [E _]] := left_ok ex_once; exists o.
exact: stops_err ex_same.
Qed.
Lemma next_refuted : exists (h : atom nlib) hs g g', [/\
    exists o, nserve [:: AssertHyps h hs; AssertGoal g; chk] = Ok o,
    exists o, nserve [:: AssertHyps h hs; AssertGoal g'; chk] = Ok o,
    nserve [:: AssertHyps h hs; AssertGoal g; chk; AssertGoal g'; chk] = Err counterexample &
    forall (K : rcfType) e, all_true (@lval K) (h :: hs) e -> atom_true (@lval K) g' e].
Proof.
exists hyp1, [:: hyp2], goal1, goal2; split; last by move=> K e /ex_valid/andP[].
- by have [o [E _]] := left_ok ex_once; exists o.
- by have [o [E _]] := left_ok ex_other; exists o.
- exact: stops_err ex_next.
Qed.
