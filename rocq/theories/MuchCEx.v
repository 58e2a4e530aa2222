(** Runs of the complex procedures, and of the partial ones. *)
From Coq Require Import ZArith.
From mathcomp Require Import all_ssreflect all_algebra all_real_closed.
From mathcomp.zify Require Import ssrZ zify.
From Verif Require Import Py VtsInst MuchModel MuchSpec MuchSeq MuchMult MuchReal MuchInst MuchFull MuchEx MuchCFull.

Set Implicit Arguments.
Unset Strict Implicit.
Unset Printing Implicit Defensive.
Import GRing.Theory Num.Theory Order.TTheory.
Local Open Scope ring_scope.

(** Evaluation at a value of y in a field. *)
Section Eval.
Variable F : closedFieldType.
Definition cz : {rmorphism Z -> F} := [rmorphism of (fun n : int => n%:~R : F) \o int_of_Z].
Definition cevy (y : F) : {rmorphism Cy -> F} := [rmorphism of horner_eval y \o map_poly cz].

Lemma cz_neq0 (k : Z) : [char F] =i pred0 -> k != 0 -> cz k != 0.
Proof.
move=> char0 k0; have {k0} : int_of_Z k != 0 by apply: contraNneq k0 => E; rewrite -(int_of_ZK k) E.
rewrite /=; case: (int_of_Z k) => [[//|n]|n] _; first exact: (nat_neq0 char0).
by rewrite NegzE mulrNz oppr_eq0; exact: (nat_neq0 char0).
Qed.

Lemma cevy_scalars_ok y : [char F] =i pred0 -> scalars_ok algxy idx (cevy y).
Proof.
move=> char0 p; rewrite /const -[a_has_variable _ _]/((1 < size (idx p))%N || (1 < size (cy p 0))%N).
move=> /size1_polyC E; rewrite negb_or -!leqNgt => /andP[_ /size1_polyC E'] p0.
rewrite /cvalue -(cyE (idx p) 0) E' /= /horner_eval map_polyC hornerC; apply: cz_neq0 => //.
apply: contraNneq p0 => E0; move: E'; rewrite E0 cyE => E'.
by rewrite E E' polyC0.
Qed.

Lemma cvalue_px y l x : value idx (cevy y) (px l) x =
  horner_rec [seq horner_rec [seq cz k | k <- c] y | c <- l] x.
Proof.
rewrite /value /idx /px mkxE map_Poly_id0 ?rmorph0 // horner_Poly -map_comp.
congr horner_rec; apply: eq_map => c.
by rewrite /= /mky mkE /horner_eval map_Poly_id0 ?rmorph0 // horner_Poly.
Qed.
End Eval.

Lemma field_example : exists F : closedFieldType, [char F] =i pred0.
Proof. by exists [closedFieldType of (complex realalg)]; exact: Num.Theory.char_num. Qed.

Definition cshow (r : res (seq (seq Pxy * seq Pxy) * bool)) :=
  if r is Ok (d, b) then Some ([seq (map rd c.1, map rd c.2) | c <- d], b) else None.

Lemma cshow_verdict r b d : cshow r = Some (d, b) -> exists2 dnf, r = Ok (dnf, b) &
  d = [seq (map rd c.1, map rd c.2) | c <- dnf].
Proof. by case: r => [[dnf b']|//] [<- <-]; exists dnf. Qed.

Local Open Scope Z_scope.
(** y x + 1 and x^2. *)
Definition px_yx1 : Pxy := px [:: [:: 1]; [:: 0; 1]].
Definition px_x2 : Pxy := px [:: [::]; [::]; [:: 1]].

(** x - 1. *)
Definition px_xm1 : Pxy := px [:: [:: -1]; [:: 1]].

(** x^2 + y = 0 and x != 0. *)
Lemma x2y_crun : cshow (complex_full algxy id 50 [:: px_x2y] [:: px_x]) = Some (
  [:: ([:: [:: [:: 0; 4]]], [:: [:: [:: 0; 1]]]); ([::], [:: [:: [:: 0; 1]]; [:: [:: 0; 4]]])], true).
Proof. by vm_compute. Qed.
(** y x + 1 = 0. *)
Lemma yx1_crun : cshow (complex_full algxy id 50 [:: px_yx1] [::]) = Some ([:: ([::], [:: [:: [:: 0; 1]]])], true).
Proof. by vm_compute. Qed.
(** x^2 = 0 and x != 0. *)
Lemma x2_crun : cshow (complex_full algxy id 50 [:: px_x2] [:: px_x]) = Some ([::], false).
Proof. by vm_compute. Qed.
Local Close Scope Z_scope.

Lemma x2y_cparameters : has_parameters algxy idx ([:: px_x2y] ++ [:: px_x]).
Proof.
exists (a_tail algxy px_x2y); split; [|by vm_compute|by vm_compute].
by apply/gen_tail/gen_input; rewrite /= mem_head.
Qed.

Lemma x2_cclosed : ~ has_parameters algxy idx ([:: px_x2] ++ [:: px_x]).
Proof.
have E : (if sequence algxy 50 [:: px_x2; px_x] is Ok s then var_frag algxy s == [::] else false) by vm_compute.
case Es: (sequence algxy 50 [:: px_x2; px_x]) E => [s|//] /eqP E.
by move/(parameters_frag idx_contract Es); rewrite E.
Qed.

(** x = 0, y = 0 and -y != 0. *)
Lemma cverdict_refuted : exists equalities inequalities dnf,
  complex_full algxy id 50 equalities inequalities = Ok (dnf, true) /\
  forall (F : closedFieldType) (y x : F), ~ complex_sat idx (cevy y) equalities inequalities x.
Proof.
have E : (if complex_full algxy id 50 [:: px_x; px_y] [:: px_my] is Ok (_, b) then b else false) by vm_compute.
exists [:: px_x; px_y], [:: px_my].
case Er: (complex_full algxy id 50 [:: px_x; px_y] [:: px_my]) E => [[dnf b]|//] E; exists dnf.
split; first by rewrite E.
move=> F y x [e i]; have := e px_y; rewrite inE mem_head orbT => /(_ isT).
have {i} := i px_my (mem_head _ _); rewrite !cvalue_px /= !mul0r !add0r !addr0 mul1r => n0 y0.
by case: n0; rewrite y0 mulr0.
Qed.

Lemma x2y_crealizable (F : closedFieldType) : [char F] =i pred0 -> exists s f D,
  [/\ closed_seq algxy idx s, uniq s, sorted (fun p q => (a_degree algxy p <= a_degree algxy q)%N) s,
      cassigned [seq p <- s | const idx p] f D & px_x2y \in s] /\
  forall q, q \in s -> const idx q -> f q = nz (cvalue idx (cevy (1 : F)) q).
Proof.
move=> char0; have [s [N h]] := sequence_ok idx_contract [:: px_x2y].
have [us srt sub cl _] := sequence_spec idx_contract (h N (leqnn N)).
set w := zeros_at algxy idx (cevy (1 : F)) s.
exists s, (csig algxy s w), (cstart algxy s w); split.
  split=> //; last by apply: sub; rewrite mem_head.
  by rewrite -(const_filter idx_contract); apply: cstart_assigned => //; rewrite size_map.
move=> q qs c; apply: (cmatching_zeros idx_contract (cevy_scalars_ok 1 char0) us).
by rewrite (const_filter idx_contract) mem_filter c.
Qed.

(** *** The partial procedures. *)
Section Partial.
Variables (P : eqType) (K : realDomainType) (A : algebra P K).
Variables (C : idomainType) (den : P -> {poly C}).
Hypothesis ok : algebra_contract A den.
Variable setiter : seq P -> seq P.
Hypothesis order : set_order setiter.

Lemma partial_default ps : exists N, forall n, (N <= n)%N ->
  complex_partial A setiter n ps None = Err TypeError /\ real_partial A setiter n ps None = Err TypeError.
Proof.
have [s [N h]] := sequence_ok ok ps; exists N => n /h E.
by rewrite /complex_partial /real_partial -/(sequence A n ps) E.
Qed.

Lemma complex_partial_ok ps assigner :
  assigner = c_assignment_all_one A \/ assigner = c_assignment_all_zero A ->
  exists N D, forall n, (N <= n)%N ->
    complex_partial A setiter n ps (Some (fun cf => Ok (assigner cf))) = Ok D /\ {subset ps <= rows D}.
Proof.
move=> ha; have [s [N h]] := sequence_ok ok ps.
have [us srt sub cl _] := sequence_spec ok (h N (leqnn N)).
have [f f0 as_] : exists2 f, f (a_zero A) = 0 & cassigned [seq p <- s | const den p] f (assigner [seq p <- s | const den p]).
  set l := [seq _ <- _ | _]; have {ha} [f f0 E] : exists2 f, f (a_zero A) = 0 &
      forall l, assigner l = foldl (fun D c => put D c (0%N : [eqType of nat]) (f c)) [::] l.
    case: ha => ->; [exists (fun c => if c == a_zero A then 0 else 1)
                    |exists (fun c => if c == a_zero A then 0 else if a_has_variable A c then 0 else 1)];
      rewrite ?eqxx // => {l} l; rewrite /c_assignment_all_zero.
    elim: l [::] => //= x l IH D; rewrite IH.
    by case: (x == a_zero A); case: (a_has_variable A x).
  have [h1 h2 h3] := fold_put f l [::]; exists f => //; rewrite E; split.
  - by move=> q; rewrite h2 cats0.
  - exact: h3.
  - by move=> q c hq; rewrite h1 hq; case: (c == 0%N).
have [D E rE] := cextend_any ok order cl us srt as_ f0.
exists N, D => n /h Es; split; last by move=> p /sub; rewrite rE.
by rewrite /complex_partial -/(sequence A n ps) Es bind_ok /= (const_filter ok) (nonconst_filter ok).
Qed.

Lemma real_partial_any ps v :
  exists N, (forall n, (N <= n)%N ->
     real_partial A setiter n ps (Some (fun cf => Ok (r_assignment_all A v cf))) = Err DiagramExc) \/
  exists D, forall n, (N <= n)%N ->
    real_partial A setiter n ps (Some (fun cf => Ok (r_assignment_all A v cf))) = Ok D /\ {subset ps <= rows D}.
Proof.
have [s [N h]] := sequence_ok ok ps.
have [us srt sub cl _] := sequence_spec ok (h N (leqnn N)).
pose f c : int := if a_has_variable A c then v else a_sign A c.
have as_ : assigned [seq p <- s | const den p] f (r_assignment_all A v [seq p <- s | const den p]).
  have [h1 h2] := fold_put3 f [seq p <- s | const den p] [::]; split; first by move=> q; rewrite h2 cats0.
  by move=> q c hq; rewrite h1 hq.
have f0 : f (a_zero A) = 0 by rewrite /f (negbTE (zero_scalar ok)) (zero_sign ok).
have E n : (N <= n)%N -> real_partial A setiter n ps (Some (fun cf => Ok (r_assignment_all A v cf))) =
    real_extend A setiter (r_assignment_all A v [seq p <- s | const den p]) [seq p <- s | ~~ const den p].
  by move=> /h Es; rewrite /real_partial -/(sequence A n ps) Es bind_ok /= (const_filter ok) (nonconst_filter ok).
exists N; have [Er|[D Er rE]] := extend_any ok order cl us srt as_ f0; [left|right; exists D] => n /E ->//.
by split=> // p /sub; rewrite rE.
Qed.
End Partial.

(** x, x - 1 and x^2 + y with both y and y + 1 zero. *)
Lemma real_partial_refuted : exists ps,
  real_partial algxy id 50 ps (Some (fun cf => Ok (r_assignment_all algxy 0 cf))) = Err DiagramExc.
Proof.
exists [:: px_x; px_xm1; px_x2y].
have : (if real_partial algxy id 50 [:: px_x; px_xm1; px_x2y] (Some (fun cf => Ok (r_assignment_all algxy 0 cf)))
        is Err e then is_DiagramExc e else false) by vm_compute.
case: (real_partial _ _ _ _ _) => // -[] //= m /String.eqb_eq->; by [].
Qed.
