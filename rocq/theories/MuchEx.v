(** Runs of the model of muchnik.py on polynomials in x with a parameter y. *)
From Coq Require Import ZArith.
From mathcomp Require Import all_ssreflect all_algebra all_real_closed.
From Verif Require Import Py VtsInst MuchModel MuchSpec MuchSeq MuchReal MuchInst MuchFull MuchHeap.

Set Implicit Arguments.
Unset Strict Implicit.
Unset Printing Implicit Defensive.
Import GRing.Theory Num.Theory Order.TTheory.
Local Open Scope ring_scope.

Definition idx (p : Pxy) : {poly Cy} := p.

Local Open Scope Z_scope.
(** x, y, -y, x^2 + y, and x^2 - 2. *)
Definition px_x : Pxy := px [:: [::]; [:: 1]].
Definition px_y : Pxy := px [:: [:: 0; 1]].
Definition px_my : Pxy := px [:: [:: 0; -1]].
Definition px_x2y : Pxy := px [:: [:: 0; 1]; [::]; [:: 1]].
Definition px_x2m2 : Pxy := px [:: [:: -2]; [::]; [:: 1]].

Local Close Scope Z_scope.

(** Reading the result of real_full. *)
Definition show (r : res (seq (seq Pxy * seq Pxy * seq Pxy) * bool)) :=
  if r is Ok (d, b) then Some ([seq (map rd c.1.1, map rd c.1.2, map rd c.2) | c <- d], b) else None.

Lemma show_verdict r b d : show r = Some (d, b) -> exists2 dnf, r = Ok (dnf, b) &
  d = [seq (map rd c.1.1, map rd c.1.2, map rd c.2) | c <- dnf].
Proof. by case: r => [[dnf b']|//] [<- <-]; exists dnf. Qed.

Section Values.
Variables (R : rcfType) (y : R).

Lemma value_px l x : value idx (evy y) (px l) x =
  horner_rec [seq horner_rec [seq zr R k | k <- c] y | c <- l] x.
Proof.
rewrite /value /idx /px mkxE map_Poly_id0 ?rmorph0 // horner_Poly -map_comp.
congr horner_rec; apply: eq_map => c.
by rewrite /= /mky mkE /horner_eval map_Poly_id0 ?rmorph0 // horner_Poly.
Qed.
End Values.

Lemma idx_contract : algebra_contract algxy idx.
Proof. exact: algxy_contract. Qed.
Lemma idx_inj : injective idx.
Proof. by []. Qed.
Lemma idx_sign_ok (R : rcfType) (y : R) : sign_ok algxy idx (evy y).
Proof. exact: evy_sign_ok. Qed.

(** x^2 + y = 0. *)
Lemma x2y_parameters : has_parameters algxy idx ([::] ++ [:: px_x2y] ++ [::]).
Proof.
exists (a_tail algxy px_x2y); split; [|by vm_compute|by vm_compute].
by apply/gen_tail/gen_input; rewrite /= mem_head.
Qed.

Local Open Scope Z_scope.
Lemma x2y_run : show (real_full algxy id 50 [::] [:: px_x2y] [::]) = Some (
  [:: ([:: [:: [:: 0; 1]]; [:: [:: 0; 4]]], [::], [::]);
      ([:: [:: [:: 0; 1]]], [:: [:: [:: 0; 4]]], [::]);
      ([:: [:: [:: 0; 4]]], [:: [:: [:: 0; 1]]], [::]);
      ([::], [:: [:: [:: 0; 1]]; [:: [:: 0; 4]]], [::]);
      ([:: [:: [:: 0; 4]]], [::], [:: [:: [:: 0; 1]]]);
      ([::], [:: [:: [:: 0; 4]]], [:: [:: [:: 0; 1]]])], true).
Proof. by vm_compute. Qed.
Local Close Scope Z_scope.

(** x^2 - 2 = 0 and x > 0. *)
Lemma x2m2_closed : ~ has_parameters algxy idx ([::] ++ [:: px_x2m2] ++ [:: px_x]).
Proof.
have E : (if sequence algxy 50 [:: px_x2m2; px_x] is Ok s then var_frag algxy s == [::] else false) by vm_compute.
case Es: (sequence algxy 50 [:: px_x2m2; px_x]) E => [s|//] /eqP E.
by move/(parameters_frag idx_contract Es); rewrite E.
Qed.

Lemma x2m2_run : show (real_full algxy id 50 [::] [:: px_x2m2] [:: px_x]) = Some ([::], true).
Proof. by vm_compute. Qed.

(** y is given a sign independent of that of -y. *)
Lemma verdict_refuted : exists lesser equalities greater dnf,
  real_full algxy id 50 lesser equalities greater = Ok (dnf, true) /\
  forall (R : rcfType) (y x : R), ~ real_sat idx (evy y) lesser equalities greater x.
Proof.
have E : (if real_full algxy id 50 [::] [:: px_x] [:: px_y; px_my] is Ok (_, b) then b else false) by vm_compute.
exists [::], [:: px_x], [:: px_y; px_my].
case Er: (real_full algxy id 50 [::] [:: px_x] [:: px_y; px_my]) E => [[dnf b]|//] E; exists dnf.
split; first by rewrite E.
move=> R y x [_ _ g]; have := g px_y (mem_head _ _).
have {g} := g px_my; rewrite inE mem_head orbT => /(_ isT); rewrite !value_px /=.
by rewrite !mul0r !add0r !addr0 mul1r mulN1r oppr_gt0 => /lt_trans h /h; rewrite ltxx.
Qed.

(** The verdict on x = 0 is right, the returned list is empty. *)
Lemma closed_result_refuted : exists lesser equalities greater,
  real_full algxy id 50 lesser equalities greater = Ok ([::], true) /\
  forall (R : rcfType) (y : R), exists x, real_sat idx (evy y) lesser equalities greater x.
Proof.
exists [::], [:: px_x], [::]; split.
  have /show_verdict[[|//] ->//] : show (real_full algxy id 50 [::] [:: px_x] [::]) = Some ([::], true) by vm_compute.
move=> R y; exists 0; split=> // p; rewrite inE => /eqP->.
by rewrite value_px /= !(mul0r, mulr0, add0r, addr0).
Qed.

(** The signs at y = -1 of the constants in the sequence of x^2 + y. *)
Lemma x2y_realizable (R : rcfType) : exists s f D,
  [/\ closed_seq algxy idx s, uniq s, sorted (fun p q => (a_degree algxy p <= a_degree algxy q)%N) s,
      assigned [seq p <- s | const idx p] f D & px_x2y \in s] /\
  forall q, q \in s -> const idx q -> f q = sgz (cvalue idx (evy (-1 : R)) q).
Proof.
have [s [N h]] := sequence_ok idx_contract [:: px_x2y].
have [us srt sub cl _] := sequence_spec idx_contract (h N (leqnn N)).
set w := signs_at algxy idx (evy (-1 : R)) s.
exists s, (sig algxy s w), (start algxy s w); split.
  split=> //; last by apply: sub; rewrite mem_head.
  by rewrite -(const_filter idx_contract); apply: start_assigned => //; rewrite size_map.
move=> q qs c; apply: (matching_signs idx_contract (idx_sign_ok (-1)) us).
by rewrite (const_filter idx_contract) mem_filter c.
Qed.

(** A heap with one diagram. *)
Definition one_row : heap [eqType of nat] [eqType of rat] :=
  [:: Outer _ [:: (7%N, 1%N)]; Row _ [:: (0, 1); (1, 1)]].
Lemma one_row_separate : separate one_row [:: (0%N, [:: (7%N, [:: (0, 1); (1, 1)])])].
Proof. by split=> //; constructor. Qed.
