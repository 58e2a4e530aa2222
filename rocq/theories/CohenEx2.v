(** Problems that cohenhorm.py solves. *)
From Coq Require Import ZArith.
From mathcomp Require Import all_ssreflect all_algebra all_real_closed.
From mathcomp.zify Require Import ssrZ zify.
From Verif Require Import Py VtsInst MuchModel MuchSpec MuchSeq MuchInst MuchFull MuchEx.
From Verif Require Import CohenModel CohenSpec CohenEx.

Set Implicit Arguments.
Unset Strict Implicit.
Unset Printing Implicit Defensive.
Import GRing.Theory Num.Theory Order.TTheory.
Local Open Scope ring_scope.

Lemma Cy_char : [char Cy] =i pred0.
Proof. by apply: (iffRL (charf0P _)) => n; rewrite -[n%:R](rmorph_nat (polyC_rmorphism [ringType of ZD])) polyC_eq0 pnatr_eq0. Qed.

(** x^2 = 2, x > 0. *)
Lemma sqrt2_closed p : generated algxy idx ([::] ++ [:: px_x2m2] ++ [:: px_x]) p ->
  ~~ a_has_variable algxy (a_LC algxy p).
Proof.
have E : if sequence algxy 50 ([::] ++ [:: px_x2m2] ++ [:: px_x]) is Ok s then
   all (fun p => ~~ a_has_variable algxy (a_LC algxy p)) s else false by vm_compute.
case Es: (sequence _ _ _) E => [s|//] /allP h gp; apply: h.
by have [_ _ _ _ ->] := sequence_spec idx_contract Es.
Qed.

Lemma sqrt2_nonzero : a_zero algxy \notin [::] ++ [:: px_x2m2] ++ [:: px_x].
Proof. by vm_compute. Qed.

Lemma sqrt2_run : showc (run 20 [::] [:: px_x2m2] [:: px_x]) = Some [:: ([::], [::], [::])].
Proof. by vm_compute. Qed.

Lemma sqrt2_none : showc (run 20 [:: px_x2m2] [::] [:: px_x2m2]) = Some [::].
Proof. by vm_compute. Qed.

(** x^2 + y = 0, x > 0: the polynomial of largest degree has the leading
    coefficient 1. *)
Lemma x2y_accepted : accepted algxy idx [::] ([::] ++ [:: px_x2y] ++ [:: px_x]).
Proof.
have sE : (size (idx px_x2y) <= size (idx px_x))%N = false by vm_compute.
have zE : (px_x2y == a_zero algxy) = false by vm_compute.
have zF : (a_zero algxy \in [::] ++ [:: px_x2y] ++ [:: px_x]) = false by vm_compute.
have vE : ~~ a_has_variable algxy (a_LC algxy px_x2y) by vm_compute.
right; split=> [//|p|]; last by rewrite zF.
rewrite !inE => /orP[]/eqP-> h; last by have := h px_x2y (mem_head _ _); rewrite sE.
by split; [move/eqP; rewrite zE|left].
Qed.

Local Open Scope Z_scope.
Lemma x2y_full : showc (run 20 [::] [:: px_x2y] [:: px_x]) = Some
  [:: ([:: [:: [:: 0; 4]]; [:: [:: 0; 1]]], [::], [::]);
      ([:: [:: [:: 0; 4]]], [:: [:: [:: 0; 1]]], [::]);
      ([:: [:: [:: 0; 4]]], [::], [:: [:: [:: 0; 1]]])].
Proof. by vm_compute. Qed.
Local Close Scope Z_scope.

(** y x^2 + 1 where y is positive. *)
Lemma yx2_accepted : accepted algxy idx [:: (px_y, 1)] [:: px_yx2].
Proof.
have zE : (px_yx2 == a_zero algxy) = false by vm_compute.
have zF : (a_zero algxy \in [:: px_yx2]) = false by vm_compute.
have lE : (a_LC algxy px_yx2 == px_y) by vm_compute.
right; split=> [//|p|]; last by rewrite zF.
rewrite !inE => /eqP-> _; split; first by move/eqP; rewrite zE.
by right; exists 1 => //; rewrite /= lE.
Qed.
