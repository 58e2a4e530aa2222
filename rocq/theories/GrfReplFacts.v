(** Proofs about sessions that go on after exceptions. *)
From mathcomp Require Import all_ssreflect all_algebra.
From mathcomp.zify Require Import zify.
From mathcomp.real_closed Require Import polyrcf.
From Coq Require Import String Permutation.
From Verif Require Import Py GrfModel GrfCad GrfSpec GrfFacts GrfCheck GrfLoop GrfRun GrfLine GrfCadFacts
  GrfInst GrfEx GrfEx2 GrfLin GrfLinInst GrfLinEx GrfOut GrfOutEx GrfAgain GrfAgainFacts GrfRepl.

Set Implicit Arguments.
Unset Strict Implicit.
Unset Printing Implicit Defensive.
Import GRing.Theory Num.Theory Order.Theory.
Local Open Scope ring_scope.

Section Facts.
Variables (R : realDomainType) (L : lib R) (O : oracle L).
Variable solve : nat -> seq constraint -> seq nat -> res (nat -> bool).
Local Notation poly := (P L).
Local Notation asg := (dict [eqType of var] R).
Variable sample : addr -> option (goal L) -> seq poly -> seq (atom L) -> res (seq asg * seq poly).
Implicit Types (s : decide L) (o : object L) (l : seq (call L)).

Lemma bind_err (A B : Type) (x : res A) (f : A -> res B) e : (let! a := x in f a) = Err e ->
  x = Err e \/ exists2 a, x = Ok a & f a = Err e.
Proof. by case: x => [a|e'] /= H; [right; exists a|left; case: H => ->]. Qed.

(** Every exception leaves the object in some state. *)
Lemma left_by_total fuel partial k eps cs top s x :
  check_q O solve sample fuel partial k eps cs top s = Err x ->
  x = OutOfFuel \/ exists s' t, left_by O solve sample partial k eps fuel cs top s s' t.
Proof.
elim: fuel cs top s => [|fuel IH] cs top s; first by case=> <-; left.
move=> /bind_err[Es|[[ds t] Es H]].
  by right; exists s, (installed top s); refine (@LSample _ _ _ _ _ _ _ _ _ _ _ _ _ _ Es _) => p; rewrite mem_cat => ->.
case/bind_err: H => [Eb|[[o ob] Eb H]]; first by right; exists (Decide (hyps s) (dgoal s) [::]), t; exact: (@LBads _ _ _ _ _ _ _ _ _ _ _ _ _ _ _ _ Es Eb).
case: ob Eb H => [bads|//] Eb; case: cs => [l|] H.
  case/bind_err: H => [Ei|[[[s2 i] l'] Ei H]].
    by right; exists (Decide (hyps s) (dgoal s) o), t; apply: (LChoice (cs := Some l) Es Eb Ei); left.
  case/bind_err: H => [/IH[->|[s' [t' H]]]|[]] //; first by left.
  by right; exists s', t'; exact: (LUser Es Eb Ei H).
case/bind_err: H => [Ei|[s2 Ei H]].
  by right; exists (Decide (hyps s) (dgoal s) o), t; apply: (LChoice (cs := None) Es Eb Ei); left.
case/bind_err: H => [/IH[->|[s' [t' H]]]|[]] //; first by left.
by right; exists s', t'; exact: (LAuto Es Eb Ei H).
Qed.
End Facts.

Section Sound.
Variables (R : realDomainType) (L : lib R) (O : oracle L) (K : rcfType) (inj : R -> K).
Variables (val : P L -> (var -> K) -> K) (uval : U L -> {poly K}).
Hypotheses (LB : lib_ok inj val) (LC : cad_ok val uval) (LL : line_ok O inj uval) (LN : lin_ok inj val uval).
Variables (n : nat) (C : pred (P L)).
Hypothesis SC : solvable_class inj uval C n.
Variable solve : nat -> seq constraint -> seq nat -> res (nat -> bool).
Variable num : nat.
Hypothesis num0 : (0 < num)%N.
Implicit Types (s : decide L) (o : object L) (l : seq (call L)).
Local Notation sample := (sample_pt_dicts O n num).

Definition sub_of s s' : Prop := [/\ main_goal (dgoal s') = main_goal (dgoal s), gb (dgoal s') = [::] &
  Permutation (goal_hyps (dgoal s') ++ hyps s') (goal_hyps (dgoal s) ++ hyps s)].
Lemma sub_refl s order : gb (dgoal s) = [::] -> sub_of s (Decide (hyps s) (dgoal s) order).
Proof. by split. Qed.
Lemma sub_promotes s s' : promotes s s' -> in_lin C s -> sub_of s s'.
Proof.
move=> Pr /and3P[_ /eqP B0 ne].
have Rr : run_result s s'.
  apply: (promotes_run Pr); exists [::] => //; split=> //; exists (nseq (size (hyps s')) true); by rewrite mask_true.
exact: run_moves Rr B0 ne.
Qed.
Lemma sub_trans s s1 s2 : sub_of s s1 -> sub_of s1 s2 -> sub_of s s2.
Proof. by case=> M1 B1 S1 [M2 B2 S2]; split=> //; rewrite ?M2 //; exact: Permutation_trans S2 S1. Qed.

Lemma installed_class top s : all C top -> in_lin C s -> all C (installed top s).
Proof.
move=> Ct; rewrite /in_lin /= all_cat => /and3P[/and3P[/andP[Cm _] Cg _] _ _].
by rewrite all_cat Ct /= Cm /= all_map; apply: sub_all Cg => h /andP[].
Qed.
Lemma left_by_sub partial k eps fuel cs top s s' t :
  left_by O solve sample partial k eps fuel cs top s s' t -> all C top -> in_lin C s -> all C t /\ sub_of s s'.
Proof.
elim=> {fuel cs top s s' t}.
- move=> fuel cs top s x t _ S Ct Il; have Ci := installed_class Ct Il.
  have B0 : gb (dgoal s) = [::] by case/and3P: Il => _ /eqP.
  split=> //; apply/allP => p /S; rewrite mem_cat => /orP[/(allP Ci)//|].
  by apply: (allP (filter_class_lin SC Ci)).
- move=> fuel cs top s ds t x order Es _ Ct Il; have Ci := installed_class Ct Il.
  have B0 : gb (dgoal s) = [::] by case/and3P: Il => _ /eqP.
  by split; [rewrite (sample_store Es); exact: (filter_class_lin SC Ci)|exact: sub_refl].
- move=> fuel cs top s ds t o bads x s' Es _ _ Hs Ct Il; have Ci := installed_class Ct Il.
  have B0 : gb (dgoal s) = [::] by case/and3P: Il => _ /eqP.
  split; first by rewrite (sample_store Es); exact: (filter_class_lin SC Ci).
  case: Hs => [->|[i [h [y [_ Ea _]]]]]; first exact: sub_refl.
  by have [g Eg] := add_goal_hyp_ok LB (dgoal s) h; rewrite Eg in Ea.
- move=> fuel l top s ds t o bads s2 inter l' s' t' Es _ Ei _ IH Ct Il; have Ci := installed_class Ct Il.
  have Pr : promotes s s2 by have := interactP Ei.
  have [|//|Ct' S] := IH; [by rewrite (sample_store Es); exact: (filter_class_lin SC Ci)|exact: promotes_lin Pr Il|].
  by split=> //; exact: sub_trans (sub_promotes Pr Il) S.
- move=> fuel top s ds t o bads s2 s' t' Es _ Ei _ IH Ct Il; have Ci := installed_class Ct Il.
  have Pr : promotes s s2 by have := autoP Ei.
  have [|//|Ct' S] := IH; [by rewrite (sample_store Es); exact: (filter_class_lin SC Ci)|exact: promotes_lin Pr Il|].
  by split=> //; exact: sub_trans (sub_promotes Pr Il) S.
Qed.

Lemma inv_steps l o : steps O solve sample l o ->
  all (in_class C) (asserted l) -> all (fun h => ~~ is_eqn h) (asserted l) -> all (in_class C) (goals l) ->
  inv C o (asserted l) (goals l).
Proof.
elim=> {l o} [|l o c o' _ IH St] //.
rewrite asserted_rcons goals_rcons !all_cat => /andP[cA cA'] /andP[nA nA'] /andP[cg cg'].
have {IH} I := IH cA nA cg; case: St cA' nA' cg' => {c o'} [h hs|g|fu p k e cs r o' Ec|fu p k e cs _|fu p k e cs g s' t Eg Lb] /=.
- move=> _ _ _; rewrite !cats0; have [Cs S Hg] := I; split=> // x.
  rewrite /all_hyps /= catA => /(@List.in_app_or (atom L))[J|J]; apply/List.in_or_app; first by left; exact: S.
  by right.
- move=> _ _ _; rewrite !cats0; have [Cs S Hg] := I; split=> //=; last by split=> //; exists (goals l); rewrite cats1.
  by move=> x /= J; apply: S; apply/List.in_or_app; right.
- by move=> _ _ _; rewrite !cats0; have [] := inv_check LB LC LL LN SC num0 I cA nA cg Ec.
- by move=> _ _ _; rewrite !cats0.
- move=> _ _ _; rewrite !cats0; have Il := inv_lin I Eg cA nA cg; have [Cs S Hg] := I.
  have [Ct [M B Sb]] := left_by_sub Lb Cs Il; rewrite Eg in Hg; have [_ [gs' Egs]] := Hg.
  split=> //=; last by split=> //; exists gs'; rewrite M.
  by move=> h J; apply: S; rewrite /all_hyps Eg; exact: Permutation_in Sb J.
Qed.
Lemma repl_sound l o fuel partial k eps cs r o' gs g : steps O solve sample l o ->
  check_obj O solve sample fuel partial k eps cs o = Ok (r, o') ->
  all (in_class C) (asserted l) -> all (fun h => ~~ is_eqn h) (asserted l) -> all (in_class C) (goals l) ->
  goals l = rcons gs g -> forall e, all_true val (asserted l) e -> atom_true val g e.
Proof.
move=> Es Ec cA nA cg Eg; have I := inv_steps Es cA nA cg.
by have [_ X] := inv_check LB LC LL LN SC num0 I cA nA cg Ec; exact: X Eg.
Qed.
End Sound.

Section Total.
Variables (R : realDomainType) (L : lib R) (O : oracle L).
Variable solve : nat -> seq constraint -> seq nat -> res (nat -> bool).
Variable sample : addr -> option (goal L) -> seq (P L) -> seq (atom L) -> res (seq (dict [eqType of var] R) * seq (P L)).
(** Every call makes a step, if the fuel of its check suffices. *)
Lemma step_total (o : object L) (c : call L) :
  (forall fuel partial k eps cs, c = Check L fuel partial k eps cs ->
     check_obj O solve sample fuel partial k eps cs o <> Err OutOfFuel) ->
  exists o', step O solve sample o c o'.
Proof.
case: c => [h hs|g|fuel partial k eps cs] H; [by eexists; constructor|by eexists; constructor|].
have {H} := H _ _ _ _ _ erefl; case Ec : (check_obj _ _ _ _ _ _ _ _ _) => [[r o']|x] Nx.
  by exists o'; exact: SOk Ec.
case Eg : (ogoal o) => [g|]; last by exists o; exact: SNone.
move: Ec; rewrite /check_obj Eg => /bind_err[/left_by_total[E|[s' [t Lb]]]|[]] //.
  by rewrite E in Nx.
by eexists; exact: SExn Eg Lb.
Qed.
End Total.

Section Exec.
Variables (R : realDomainType) (L : lib R) (O : oracle L).
Variable solve : nat -> seq constraint -> seq nat -> res (nat -> bool).
Variable sample : addr -> option (goal L) -> seq (P L) -> seq (atom L) -> res (seq (dict [eqType of var] R) * seq (P L)).
Lemma left_qP fuel partial k eps cs top (s : decide L) s' t : left_q O solve sample fuel partial k eps cs top s = Some (s', t) ->
  left_by O solve sample partial k eps fuel cs top s s' t.
Proof.
elim: fuel cs top s => // fuel IH cs top s; rewrite /left_q -/(left_q O solve sample).
case Es : (sampled _ _ _ _ _) => [[ds t1]|x]; last first.
  by case=> <- <-; refine (@LSample _ _ _ _ _ _ _ _ _ _ _ _ _ _ Es _) => p; rewrite mem_cat => ->.
case Eb : (all_bads _ _ _ _ _ _ _) => [[o [bads|]]|x] //; last first.
  by case=> <- <-; exact: (@LBads _ _ _ _ _ _ _ _ _ _ _ _ _ _ _ _ Es Eb).
case: cs => [l|].
  case Ei : (interact _ _ _ _) => [[[s2 i] l']|x]; first by move/IH; exact: (LUser Es Eb Ei).
  by case=> <- <-; apply: (LChoice (cs := Some l) Es Eb Ei); left.
case Ei : (auto _ _ _) => [s2|x]; first by move/IH; exact: (LAuto Es Eb Ei).
by case=> <- <-; apply: (LChoice (cs := None) Es Eb Ei); left.
Qed.
Lemma step_qP (o : object L) c o' : step_q O solve sample o c = Some o' -> step O solve sample o c o'.
Proof.
case: c => [h hs|g|fuel partial k eps cs] /=; [by case=> <-; constructor|by case=> <-; constructor|].
case Ec : (check_obj _ _ _ _ _ _ _ _ _) => [[r o1]|x]; first by case=> <-; exact: SOk Ec.
case Eg : (ogoal o) => [g|]; last by case=> <-; exact: SNone.
by case El : (left_q _ _ _ _ _ _ _ _ _ _) => [[s' t]|] // [<-]; exact: SExn Eg (left_qP El).
Qed.
Lemma steps_qP l o : steps_q O solve sample l = Some o -> steps O solve sample l o.
Proof.
elim/last_ind: l o => [|l c IH] o; first by case=> <-; constructor.
rewrite /steps_q foldl_rcons -/(steps_q O solve sample l); case E : (steps_q _ _ _ l) => [o1|] // /step_qP.
exact: SStep (IH _ E).
Qed.
(** Sessions without exceptions are those of GrfAgain.v. *)
Lemma serve_steps l o : serve O solve sample (new_object L) l = Ok o -> steps O solve sample l o.
Proof.
elim/last_ind: l o => [|l c IH] o; first by case=> <-; constructor.
rewrite /serve foldM_rcons => H; case: (bind_inv H) => o1 /IH Es {H} H; apply: (SStep Es).
case: c H => [h hs|g|fuel partial k eps cs] /=; [by case=> <-; constructor|by case=> <-; constructor|].
by move=> H; case: (bind_inv H) => -[r o2] Ec [<-]; exact: SOk Ec.
Qed.
End Exec.

Section Moved.
Variables (R : realDomainType) (L : lib R) (O : oracle L) (K : rcfType) (inj : R -> K).
Variables (val : P L -> (var -> K) -> K).
Hypothesis LB : lib_ok inj val.
Variable solve : nat -> seq constraint -> seq nat -> res (nat -> bool).
Variable sample : addr -> option (goal L) -> seq (P L) -> seq (atom L) -> res (seq (dict [eqType of var] R) * seq (P L)).
Local Notation no_eqn hs := (all (fun h => ~~ is_eqn h) hs).

Lemma promotes_sub (s s' : decide L) : promotes s s' -> gb (dgoal s) = [::] -> no_eqn (hyps s) ->
  sub_of s s' /\ no_eqn (hyps s').
Proof.
move=> Pr B0 ne; split; last first.
  by have [h [_ _ [m ->]]] := Pr; apply: all_mask ne.
have Rr : run_result s s'.
  apply: (promotes_run Pr); exists [::] => //; split=> //; exists (nseq (size (hyps s')) true); by rewrite mask_true.
exact: run_moves Rr B0 ne.
Qed.
Lemma left_by_moved partial k eps fuel cs top (s s' : decide L) t :
  left_by O solve sample partial k eps fuel cs top s s' t -> gb (dgoal s) = [::] -> no_eqn (hyps s) -> sub_of s s'.
Proof.
elim=> {fuel cs top s s' t}.
- by move=> fuel cs top s x t _ _ B0 _; split.
- by move=> fuel cs top s ds t x order _ _ B0 _; split.
- move=> fuel cs top s ds t o bads x s' _ _ _ [-> B0 _|[i [h [y [_ Ea _]]]]]; first by split.
  by have [g Eg] := add_goal_hyp_ok LB (dgoal s) h; rewrite Eg in Ea.
- move=> fuel l top s ds t o bads s2 inter l' s' t' _ _ /interactP Pr _ IH B0 ne.
  have {Pr} Pr : promotes s s2 by exact: Pr.
  by have [S ne2] := promotes_sub Pr B0 ne; apply: (sub_trans S); apply: IH => //; case: S.
- move=> fuel top s ds t o bads s2 s' t' _ _ /autoP Pr _ IH B0 ne.
  have {Pr} Pr : promotes s s2 by exact: Pr.
  by have [S ne2] := promotes_sub Pr B0 ne; apply: (sub_trans S); apply: IH => //; case: S.
Qed.
(** A check, whether it returns or raises, keeps the goal and moves hypotheses. *)
Lemma step_moved (o o' : object L) fuel partial k eps cs g : step O solve sample o (Check L fuel partial k eps cs) o' ->
  ogoal o = Some g -> gb g = [::] -> no_eqn (ohyps o) ->
  exists2 g', ogoal o' = Some g' & [/\ main_goal g' = main_goal g, gb g' = [::] &
    Permutation (goal_hyps g' ++ ohyps o') (goal_hyps g ++ ohyps o)].
Proof.
move=> St Eg B0 ne; inversion St; subst.
- by apply: (check_spends _ Eg B0 ne); eassumption.
- by rewrite Eg in H5.
- match goal with H : ogoal o = Some _ |- _ => move: H; rewrite Eg => -[E]; subst end.
  match goal with H : left_by _ _ _ _ _ _ _ _ _ _ _ _ |- _ => have [M B Pm] := left_by_moved H B0 ne end.
  by exists (dgoal s').
Qed.
End Moved.
