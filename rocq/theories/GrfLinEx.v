(** Runs in two variables. *)
From mathcomp Require Import all_ssreflect all_algebra.
From mathcomp.zify Require Import zify.
From mathcomp.real_closed Require Import polyrcf.
From Coq Require Import String.
From Verif Require Import Py GrfModel GrfCad GrfSpec GrfFacts GrfCheck GrfLoop GrfRun GrfLine GrfCadFacts GrfInst
  GrfEx GrfEx2 GrfLin GrfLinInst.

Set Implicit Arguments.
Unset Strict Implicit.
Unset Printing Implicit Defensive.
Import GRing.Theory Num.Theory Order.Theory.
Local Open Scope ring_scope.

Definition lat (i : nat) (l : seq term) (op : relop) : atom nlib := @mk_atom _ nlib i (mk l) op.
Definition nrun n fuel (s : decide nlib) :=
  check noracle brute (sample_pt_dicts noracle n 1) fuel true 1 1 None [::] s.
Definition nstart (m : atom nlib) (hs : seq (atom nlib)) : decide nlib := Decide hs (Goal m [::] [::]) [::].
(** a x0 + b x1 + c *)
Definition l3 (a b c : rat) : seq term := [:: ([:: 1%N], a); ([:: 0; 1]%N, b); ([::], c)].

Definition lval (K : rcfType) : P nlib -> (var -> K) -> K := @nval K.
Lemma lval_l3 (K : rcfType) a b c e : pval (l3 a b c) e = ratr a * e 0%N + ratr b * e 1%N + ratr c :> K.
Proof. by rewrite /= /tval /= !expr1 expr0 !mulr1 mul1r addr0 addrA. Qed.
Lemma lat_true (K : rcfType) i l op e : atom_true (@lval K) (lat i l op) e = op_true op (pval l e).
Proof. by rewrite /atom_true /lval [apoly _]/= nval_mk. Qed.
Lemma sequent_nstart (K : rcfType) m hs e : sequent_true (@lval K) (nstart m hs) e =
  (all_true (@lval K) hs e ==> atom_true (@lval K) m e).
Proof. by []. Qed.
Lemma all_cons (K : rcfType) h hs e : all_true (@lval K) (h :: hs) e =
  atom_true (@lval K) h e && all_true (@lval K) hs e.
Proof. by []. Qed.

(** x0 > 0, x1 > 0, 2 x0 + x1 > 1 |- x0 + x1 > 0 *)
Definition s104 : decide nlib := nstart (lat 0 (l3 1 1 0) RGt)
  [:: lat 1 (l3 1 0 0) RGt; lat 2 (l3 0 1 0) RGt; lat 3 (l3 2%:R 1 (-1)) RGt].
Lemma ex104 : is_ok (nrun 2 4 s104). Proof. by vm_compute. Qed.
Lemma ex104_lin : in_lin (linear (L := nlib) 2) s104. Proof. by vm_compute. Qed.

(** |- x1^4 + x1^2 - x0^6 x1^2 >= 0 *)
Definition b104 : seq term := [:: ([:: 6; 2]%N, -1); ([:: 0; 4]%N, 1); ([:: 0; 2]%N, 1)].
Definition s104b : decide nlib := nstart (lat 0 b104 RGe) [::].
Lemma ex104b : is_ok (nrun 2 3 s104b). Proof. by vm_compute. Qed.
Lemma ex104b_false (K : rcfType) : ~~ sequent_true (@lval K) s104b (fun v => if v is 0%N then 2%:R else 1).
Proof.
rewrite /s104b sequent_nstart lat_true /= /tval /= !expr0 !expr1n !mulr1 rmorphN rmorph1 addr0 mulN1r -natrX.
rewrite !(ratr_nat _ 1) -(natrD _ 1 1) -ltNge addrC subr_lt0 ltr_nat.
by [].
Qed.

(** x0 < 0, x0 = x1, x0 < 5 |- x0 > 3 *)
Definition s104c : decide nlib := nstart (lat 0 (l3 1 0 (-3%:R)) RGt)
  [:: lat 1 (l3 1 0 0) RLt; lat 2 (l3 1 (-1) 0) REq; lat 3 (l3 1 0 (-5%:R)) RLt].
Lemma ex104c : is_ok (nrun 2 4 s104c). Proof. by vm_compute. Qed.
Lemma ex104c_lin : all (fun a : atom nlib => linear (L := nlib) 2 (apoly a) && atom_wf a)
  (main_goal (dgoal s104c) :: hyps s104c).
Proof. by vm_compute. Qed.
Lemma ex104c_false (K : rcfType) : ~~ sequent_true (@lval K) s104c (fun=> -1).
Proof.
rewrite /s104c sequent_nstart !all_cons !lat_true !lval_l3 /op_true ?rmorphN /=.
rewrite !(ratr_nat _ 0) !(ratr_nat _ 1) !(ratr_nat _ 3) !(ratr_nat _ 5) !mul0r !mul1r !addr0 mulN1r opprK addNr eqxx.
by rewrite oppr_lt0 ltr01 -!opprD oppr_lt0 oppr_gt0 -!(natrD _ 1) ltr0n ltrn0.
Qed.
Lemma ex104c_linear : all (fun a : atom nlib => linear (L := nlib) 2 (apoly a) && atom_wf a)
  (main_goal (dgoal s104c) :: hyps s104c).
Proof. exact: ex104c_lin. Qed.

Lemma ok_ex (A : Type) (r : res A) : is_ok r -> exists x, r = Ok x.
Proof. by case: r => // a _; exists a. Qed.
Lemma ex104b_all : exists s : decide nlib, [/\ goal_hyps (dgoal s) = [::], hyps s = [::] /\ atom_wf (main_goal (dgoal s)),
    exists r, nrun 2 3 s = Ok r & forall K : rcfType, exists e, ~~ sequent_true (@lval K) s e].
Proof.
exists s104b; split; [by []|by split|exact: (ok_ex ex104b)|].
by move=> K; exists (fun v => if v is 0%N then 2%:R else 1); exact: ex104b_false.
Qed.
Lemma ex104c_all : exists s : decide nlib, [/\ goal_hyps (dgoal s) = [::],
    all (fun a : atom nlib => linear (L := nlib) 2 (apoly a) && atom_wf a) (main_goal (dgoal s) :: hyps s),
    exists r, nrun 2 4 s = Ok r & forall K : rcfType, exists e, ~~ sequent_true (@lval K) s e].
Proof.
exists s104c; split; [by []|exact: ex104c_lin|exact: (ok_ex ex104c)|].
by move=> K; exists (fun=> -1); exact: ex104c_false.
Qed.
Lemma ex104_class (K : rcfType) (n : nat) : solvable_class (L := nlib) ratr (uval K) (linear n) n.
Proof. exact: (linear_class (ncad_ok K) (nlin_ok K) ndegree_ok). Qed.
