(** An instance and concrete runs for the sampling functions of GRF. *)
From mathcomp Require Import all_ssreflect all_algebra.
From mathcomp.zify Require Import zify.
From mathcomp.real_closed Require Import polyrcf realalg.
From Coq Require Import String.
From Verif Require Import Py GrfModel GrfCad GrfSpec GrfFacts GrfCheck GrfLoop GrfInst GrfEx GrfEx2 GrfPick GrfPickEx
  GrfSample GrfSampleFacts.

Set Implicit Arguments.
Unset Strict Implicit.
Unset Printing Implicit Defensive.
Import GRing.Theory Num.Theory Order.Theory.
Local Open Scope ring_scope.
Local Notation asg := (dict [eqType of var]).

(** *** Rational points *)
Fixpoint rmval (m : seq nat) (e : var -> rat) (i : nat) : rat :=
  if m is k :: m' then e i ^+ k * rmval m' e i.+1 else 1.
Fixpoint rval (p : seq (seq nat * rat)) (e : var -> rat) : rat :=
  if p is t :: p' then t.2 * rmval t.1 e 0 + rval p' e else 0.
(** The number a substituted polynomial is converted to. *)
Definition rvalue (p : seq (seq nat * rat)) : res rat :=
  match p with
  | [::] => Ok 0
  | [:: ([::], c)] => Ok c
  | _ => Err TypeError
  end.

Section Up.
Variable K : rcfType.
Local Notation up := (@ratr K).
Lemma rmvalE m e i : up (rmval m e i) = mval m (fun v => up (e v)) i.
Proof. by elim: m i => [|k m IH] i /=; rewrite ?rmorph1 // rmorphM rmorphX /= IH. Qed.
Lemma rvalE p e : up (rval p e) = pval p (fun v => up (e v)).
Proof. by elim: p => [|t p IH] /=; rewrite ?rmorph0 // rmorphD rmorphM /= rmvalE IH. Qed.
Lemma up_inj : injective up. Proof. exact: fmorph_inj. Qed.
Lemma up_agrees (d : asg rat) (e : var -> rat) : @agrees [realDomainType of rat] _ id d e ->
  @ragrees _ d (fun v => up (e v)).
Proof. by move=> A v x /A ->. Qed.

End Up.

Definition RA : rcfType := [rcfType of realalg].
Local Notation up := (@ratr RA).

Lemma rval_ok : @lib_ok [realDomainType of rat] qlib _ id rval.
Proof.
have Q := qlib_ok RA; split.
- move=> p e e' H; apply: (@up_inj RA); rewrite !rvalE; apply: (val_vars Q) => v /H -> //.
- move=> p d e V A; rewrite (val_subst Q V (up_agrees RA A)) -rvalE ratr_cmp //.
- move=> l e H q I; apply: (@up_inj RA); rewrite rvalE rmorph0; apply: (val_gb Q _ I) => p /H E.
  by rewrite -rvalE E rmorph0.
- exact: gb_nonempty Q.
- move=> p B e H; apply: (@up_inj RA); rewrite !rvalE; apply: (val_reduce Q) => q /H E.
  by rewrite -rvalE E rmorph0.
Qed.

Lemma rvalue_ok : @value_ok [realDomainType of rat] qlib rvalue rval.
Proof.
move=> p d e V A; have Q := @qsubst_val _ p _ _ (up_agrees RA A); rewrite -[RHS]rvalE in Q.
rewrite [substitute _ _]/(qsubst p d); move: Q; rewrite /qsubst.
have [|->|[c c0 ->]] := @norm_const [seq tsub d t | t <- p].
- apply/allP => t' /mapP[t tp ->]; rewrite /tsub.
  have := @msub_all t.1 d 0; case: (msub _ _ _) => c r /= -> //.
  by apply/allP => v vt; apply: (allP V); exact: in_qvars vt.
- by move=> E; congr Ok; apply: (@up_inj RA); rewrite -E [LHS]rmorph0.
- by rewrite /= /tval /= mulr1 addr0 => /(@up_inj RA) <-.
Qed.

(** *** C97 *)
Definition slow (x : rat) : rat := if x < -9%:R then 0 else if x < 0 then (1 - x)^-1 else 1.
Lemma slow_no_negative : no_negative slow.
Proof.
move=> x; rewrite /slow; case: ifP => // _; case: ltP => // x0.
by rewrite invr_ge0 subr_ge0 (le_trans (ltW x0)).
Qed.
Lemma slow_homo : {homo slow : x y / x <= y}.
Proof.
move=> x y xy; rewrite /slow; case: ltP => x9.
  case: ifP => // _; case: ltP => // y0; rewrite invr_ge0 subr_ge0; exact: le_trans (ltW y0) _.
rewrite [y < _]ltNge (le_trans x9 xy) /=; case: ltP => x0; last by rewrite ltNge (le_trans x0 xy).
case: ltP => y0.
  by rewrite lef_pinv ?posrE ?subr_gt0 ?(lt_trans x0) ?(lt_trans y0) // ler_add2l ler_opp2.
by rewrite invf_le1 ?subr_gt0 ?(lt_trans x0) // ler_addl oppr_ge0 ltW.
Qed.
Definition F97 : seq rat := [:: 3%:R; 0; -1].
Lemma ex97 : softzero_sample slow F97 (1 / 7%:R) = Ok 0%N /\ softzero_sample slow F97 (5%:R / 7%:R) = Ok 1%N /\
  softzero_sample slow F97 (6%:R / 7%:R) = Ok 2%N /\ softzero_sample slow F97 0 = Ok 0%N.
Proof. by do !split; vm_compute. Qed.
Lemma beyond97 : softzero_sample slow F97 (8%:R / 7%:R) = Ok 2%N /\ softzero_sample slow F97 (-1) = Ok 0%N.
Proof. by split; vm_compute. Qed.
Lemma F97_weight : weight_of slow F97 = 7%:R / 4%:R.
Proof. by rewrite /weight_of !big_cons big_nil; apply/eqP; vm_compute. Qed.
Lemma F97_pos : 0 < weight_of slow F97.
Proof. by rewrite F97_weight. Qed.
Lemma soft_refuted : exists (ex : rat -> rat) (F : seq rat) (r : rat),
  no_negative ex /\ {homo ex : x y / x <= y} /\ ex 0 = 1 /\ F <> [::] /\ 0 <= r < 1 /\
  softzero_sample ex F r = Err (Exc "ZeroDivisionError"%string).
Proof.
exists slow, [:: 10%:R], 0; split; first exact: slow_no_negative.
by split; [exact: slow_homo|do !split; vm_compute].
Qed.

Definition s97 : decide qlib := start (at_ 2 (X 1) RGt) [:: at_ 0 (X 0) RGt; at_ 1 (X 1) RLt].
(** The relation of the chosen atom. *)
Definition op_of (r : res (atom qlib)) : option relop := if r is Ok a then Some (aop a) else None.
Lemma ex97_choose :
  op_of (@choose_atom_softzero [realFieldType of rat] slow qlib rvalue [:: 0%N; 1%N] s97 [:: 3%:R; 0] (1 / 10%:R)) = Some RGt /\
  op_of (@choose_atom_softzero [realFieldType of rat] slow qlib rvalue [:: 0%N; 1%N] s97 [:: 3%:R; 0] (1 / 2%:R)) = Some RLt.
Proof. by split; vm_compute. Qed.

(** *** C98 *)
Definition middle : oracle qlib :=
  @Oracle [realDomainType of rat] qlib (fun _ l u => l) (fun _ _ => 1%N) (fun _ _ _ x => Ok x) 1 1.
Lemma middle_uniform : uniform_ok middle.
Proof. by move=> w l u /= ->; rewrite lexx. Qed.

Definition at_point (f : res (seq rat -> res (seq rat))) (x : seq rat) : option (seq rat) :=
  if f is Ok g then (if g x is Ok v then Some v else None) else None.
Lemma at_pointP f x v : at_point f x = Some v -> exists2 g, f = Ok g & g x = Ok v.
Proof. by case: f => //= g; case E : (g x) => [u|] // [<-]; exists g. Qed.

Lemma ex98 :
  at_point (get_num_falsifying_func middle rvalue (Some 1) [::] [:: 0%N; 1%N] (at_ 0 (X 0) RGe) [:: 5%:R; 2%:R])
    [:: -1; 2%:R] = Some [:: 0; 0] /\
  at_point (get_num_falsifying_func middle rvalue (Some 1) [::] [:: 0%N; 1%N] (at_ 0 (X 0) REq) [:: 0; 2%:R])
    [:: 0; 2%:R] = Some [:: 0; 0] /\
  at_point (get_num_falsifying_func xoracle rvalue (Some 1) [::] [:: 0%N; 1%N] (at_ 0 (X 0) RNe) [:: 5%:R; 2%:R])
    [:: 1; 2%:R] = Some [:: 0; 0].
Proof. by do !split; vm_compute. Qed.

(** *** C99 *)
Lemma ex99 :
  at_point (get_num_flipping_func middle rvalue [::] [:: 0%N; 1%N] (at_ 0 (X 0) RGe) [:: 5%:R; 2%:R])
    [:: -1; 2%:R] = Some [:: 0; 0] /\
  at_point (get_num_flipping_func middle rvalue [::] [:: 0%N; 1%N] (at_ 0 (X 0) RGe) [:: 5%:R; 2%:R])
    [:: 5%:R; 2%:R] = Some [:: 6%:R; 0].
Proof. by do !split; vm_compute. Qed.

(** Sums and squares of polynomials. *)
Definition qplus (p : seq (seq nat * rat)) (c : rat) : seq (seq nat * rat) := norm (([::], c) :: p).
Definition qsquare (p : seq (seq nat * rat)) : seq (seq nat * rat) :=
  norm (flatten [seq [seq (madd s.1 t.1, s.2 * t.2) | t <- p] | s <- p]).

Lemma qplusE p c e : rval (qplus p c) e = rval p e + c.
Proof.
by apply: (@up_inj RA); rewrite rmorphD /= !rvalE /qplus pval_norm [LHS]/= /tval /= mulr1 addrC.
Qed.
Lemma qsquareE p e : rval (qsquare p) e = rval p e ^+ 2.
Proof.
apply: (@up_inj RA); rewrite rmorphX /= !rvalE /qsquare pval_norm expr2.
set E := (fun v : var => _); have key (q : seq (seq nat * rat)) :
  pval (flatten [seq [seq (madd s.1 t.1, s.2 * t.2) | t <- p] | s <- q]) E = pval q E * pval p E; last exact: key.
elim: q => [|s q IH]; first by rewrite [RHS]mul0r.
rewrite [flatten _]/= pval_cat IH [pval (s :: q) E]/= mulrDl; congr (_ + _).
elim: p {IH} => [|t p IH]; first by rewrite [RHS]mulr0.
by rewrite /= IH mulrDr /tval /= mval_madd rmorphM; congr (_ + _); rewrite mulrACA.
Qed.

Definition poly_of (r : res (P qlib)) : option (seq (seq nat * rat)) := if r is Ok p then Some p else None.
Lemma ex99_symb : poly_of (get_symb_flipping_func middle qplus qsquare [::] [:: 0%N] (at_ 0 (X 0) RGe) [:: 5%:R]) =
  Some [:: ([:: 2%N], 1); ([:: 1%N], 2%:R); ([::], 1)].
Proof. by vm_compute. Qed.
Lemma ex99_ball : k_sample_points_in_ball middle [::] [:: (0%N, 5%:R); (1%N, 2%:R)] 2 (1 / 2%:R) =
  nseq 2 [:: (0%N, 9%:R / 2%:R); (1%N, 3%:R / 2%:R)].
Proof. by vm_compute. Qed.

Definition d99 : asg rat := [:: (0%N, 1); (1%N, 1)].
Lemma ball_euclid : exists (O : oracle qlib) (d d' : asg rat) (epsilon : rat),
  uniform_ok O /\ 0 <= epsilon /\ List.In d' (k_sample_points_in_ball O [::] d 1 epsilon) /\
  epsilon ^+ 2 < \sum_(p <- zip d d') (p.2.2 - p.1.2) ^+ 2.
Proof.
exists middle, d99, [:: (0%N, 0); (1%N, 0)], 1; split; first exact: middle_uniform.
split=> //; split; first by left; vm_compute.
by rewrite /d99 /= !big_cons big_nil /= expr1n sub0r sqrrN expr1n addr0 -{1}[1]addr0 ltr_add2l.
Qed.
