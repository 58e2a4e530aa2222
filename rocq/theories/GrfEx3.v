(** The concrete cases gathered for the property theorems. *)
From mathcomp Require Import all_ssreflect all_algebra.
From mathcomp.real_closed Require Import polyrcf.
From Coq Require Import String Permutation.
From Verif Require Import Py GrfModel GrfCad GrfSpec GrfFacts GrfCheck GrfLoop GrfRun GrfLine GrfCadFacts GrfSem
  GrfInst GrfEx GrfEx2.

Set Implicit Arguments.
Unset Strict Implicit.
Unset Printing Implicit Defensive.
Import GRing.Theory Num.Theory Order.Theory.
Local Open Scope ring_scope.
Local Notation asg := (dict [eqType of var]).

Section General.
Variables (R : realDomainType) (L : lib R) (K : realDomainType) (inj : R -> K) (val : P L -> (var -> K) -> K).
Hypothesis LO : lib_ok inj val.

Lemma promote_all (m : atom L) ps : exists2 g, foldM (@add_goal_hyp R L) (Goal m [::] [::]) ps = Ok g &
  main_goal g = m /\ forall e, all_true val ps e -> all_true val (goal_hyps g) e.
Proof.
have [g E] := promote_ok LO m ps; exists g => //; split=> [|e].
  by have [] := promote_implied LO (fun=> 0) E.
by have [] := promote_implied LO e E.
Qed.

Lemma check_sound (O : oracle L) solve sample fuel partial k eps cs top s r s' :
  check O solve sample fuel partial k eps cs top s = Ok (r, s') ->
  goal_hyps (dgoal s) = [::] -> gb (dgoal s) = [::] ->
  forall e, goal_true val (dgoal s') e -> sequent_true val s e.
Proof. by move=> /check_result[H _] G B e; exact: (run_sound LO G B H). Qed.
End General.

(** The decomposition runs out of nothing. *)
Section SampleFuel.
Variables (R : realDomainType) (L : lib R) (O : oracle L).
Hypothesis univ_fuel : forall p, never OutOfFuel (@univariate R L p).

Lemma proj_levels_fuel ord i (ps : seq (P L)) : never OutOfFuel (proj_levels ord i ps).
Proof.
elim: i ps => //= i IH ps; apply: never_bind => [|x _]; first exact: pyget_never.
by apply: never_bind.
Qed.

Lemma iso_fuel (ps : seq (P L)) : never OutOfFuel (iso_root_intvls ps).
Proof. by apply: never_bind => // ; exact: never_mapM. Qed.

Lemma stack_fuel w ord sets l og num ambient pt :
  never OutOfFuel (stack_over_cell (L := L) O w ord sets l og num ambient pt).
Proof.
apply: never_bind => [|next _]; first exact: pyget_never.
case: og => // g; apply: never_bind => [|t _]; first exact: eval_goal_never.
case: t => //; apply: never_bind => [|ris _]; first exact: iso_fuel.
by apply: never_bind => //; exact: pyget_never.
Qed.

Lemma lift_cells_fuel w i ord sets l og num ambient cells :
  never OutOfFuel (lift_cells (L := L) O w i ord sets l og num ambient cells).
Proof.
elim: cells i => //= pt cells IH i; apply: never_bind => [|st _]; first exact: stack_fuel.
by apply: never_bind.
Qed.

Lemma lift_levels_fuel w n l ord sets og num ambient cells :
  never OutOfFuel (lift_levels (L := L) O w n l ord sets og num ambient cells).
Proof. by elim: n l cells => //= n IH l cells; apply: never_bind => [|cs _]; [exact: lift_cells_fuel|exact: IH]. Qed.

Lemma sample_fuel n num w og top hs : never OutOfFuel (sample_pt_dicts (L := L) O n num w og top hs).
Proof.
apply: never_bind => [|sets _]; first exact: proj_levels_fuel.
apply: never_bind => [|base _]; first exact: pyget_never.
apply: never_bind => [|ris _]; first exact: iso_fuel.
apply: never_bind => [|v _]; first exact: pyget_never.
by apply: never_bind => //; exact: lift_levels_fuel.
Qed.

Variable solve : nat -> seq constraint -> seq nat -> res (nat -> bool).
Hypothesis solve_exact : exact_solver solve.
Hypothesis fsolve_fuel : forall w p x y, never OutOfFuel (fsolve O w p x y).

Lemma check_terminates n num fuel partial k eps cs top s : (size (hyps s) < fuel)%N ->
  never OutOfFuel (check O solve (sample_pt_dicts O n num) fuel partial k eps cs top s).
Proof.
apply: check_fuel => // [m l w E|*]; last exact: sample_fuel.
by have [_ /(_ _ E)[]] := solve_exact m l w.
Qed.
End SampleFuel.

Lemma bad_fold_order0 (R : realDomainType) (L : lib R) (s : decide L) pts bads :
  foldM (bad_step s) [::] pts = Ok bads -> pairwise (fun b b' => ~~ subset b b') bads.
Proof. by move=> H; exact: (bad_fold_order H). Qed.

Lemma ex42 : eval_goal (Goal m43 ps43 [::]) [:: (0%N, 5%:R)] = Ok true. Proof. by vm_compute. Qed.
Lemma ex43_none : eval_atom m43 d43 = Ok None. Proof. by vm_compute. Qed.

Lemma ex43_all : exists (m : atom qlib) (ps : seq (atom qlib)) (g : goal qlib) (d : asg rat),
  [/\ goal_wf (Goal m ps [::]), foldM (@add_goal_hyp _ qlib) (Goal m [::] [::]) ps = Ok g,
      eval_goal g d = Ok true &
      forall K : rcfType, exists2 e : var -> K, agrees ratr d e & ~~ goal_true (@qval K) g e].
Proof.
exists m43, ps43, g43, d43; split; [exact: ex43_wf|exact: ex43|exact: ex43_eval|move=> K].
exists (fun=> -5%:R); last exact: ex43_false.
move=> v x; rewrite /d43 [dget _ _]/=; case: ifP => // _ [<-].
by rewrite rmorphN rmorph_nat.
Qed.

Lemma ex44_all : exists (m : atom qlib) (ps : seq (atom qlib)) (g : goal qlib),
  foldM (@add_goal_hyp _ qlib) (Goal m [::] [::]) ps = Ok g /\
  forall K : rcfType, exists e : var -> K,
    all_true (@qval K) (goal_hyps g) e && ~~ all_true (@qval K) ps e.
Proof.
exists m44, ps44, g44; split; first exact: ex44.
by move=> K; exists (@e44 K); exact: ex44_weaker.
Qed.

Lemma ex45_all : exists (p : P qlib) (u : upoly) ris, [/\ mapM (@univariate _ qlib) [:: p] = Ok [:: u],
    iso_root_intvls [:: p] = Ok ris &
    forall (K : rcfType) w, exists2 x : K, ~ root_of (L := qlib) (uval K) [:: u] x &
    forall s, s \in sector_sps qoracle w ris 1 [::] 0%N -> ~ same_signs (L := qlib) (uval K) [:: u] x (ratr s)].
Proof.
exists mixed, umixed, [:: ((0, 0), 1%N)]; split; [exact: ex45_univ|exact: ex45_iso|move=> K w].
by rewrite ex45_sps; have [N H] := ex45_missed K; exists (ratr 2%:R).
Qed.

Lemma ex45b_all : exists (ps : seq (P qlib)) (us : seq upoly) ris, [/\ mapM (@univariate _ qlib) ps = Ok us,
    iso_root_intvls ps = Ok ris &
    forall (K : rcfType), [/\ isolated (L := qlib) ratr (uval K) (no_rational (L := qlib) us),
      forall u, List.In u us -> unmixed (L := qlib) ratr (uval K) u &
      forall w, exists2 x : K, ~ root_of (L := qlib) (uval K) us x &
      forall s, s \in sector_sps qoracle w ris 1 [::] 0%N -> ~ same_signs (L := qlib) (uval K) us x (ratr s)]].
Proof.
exists ps45, us45, ris45; split; [exact: ex45b_univ|exact: ex45b_iso|move=> K; split].
- by rewrite ex45b_hard; exact: isolated_x2m2.
- exact: ex45b_unmixed.
- by move=> w; rewrite ex45b_sps; have [N H] := ex45b_missed K; exists (ratr x45).
Qed.

Lemma ex45c_isolated (K : rcfType) : isolated (L := qlib) ratr (uval K) (no_rational (L := qlib) us45c).
Proof. by rewrite ex45c_hard; exact: isolated_x2m2. Qed.

Lemma ex46_all : exists (m h : atom qlib) (ps : seq (atom qlib)) (g : goal qlib) (d : asg rat),
  [/\ foldM (@add_goal_hyp _ qlib) (Goal m [::] [::]) ps = Ok g,
      bad_subsets_on_dict qoracle [::] (Decide [:: h] g [::]) d 1 1 = Err counterexample &
      forall (K : rcfType) e, sequent_true (@qval K) (Decide (rcons ps h) (Goal m [::] [::]) [::]) e].
Proof. by exists m44, h46, ps44, g44, d46; split; [exact: ex44|exact: ex46|move=> K; exact: ex46_valid]. Qed.
Lemma ex46_covers : covers_all d46 s46. Proof. by vm_compute. Qed.

Lemma ex48_all : exists (s : decide qlib) (pts : seq (asg rat)) b b',
  [/\ foldM (bad_step s) [::] pts = Ok [:: b; b'], b != b' & subset b' b].
Proof. by exists s48, pts48, [:: 0; 1]%N, [:: 0%N]; split; [exact: ex48| |]. Qed.
Lemma ex48_covers d : List.In d pts48 -> covers_all d s48.
Proof. by case=> [<-|[<-|//]]; vm_compute. Qed.

Lemma ex50_univ p : never OutOfFuel (@univariate _ qlib p).
Proof. by rewrite /never /= /quniv; case: (qvars p) => [|v [|]]. Qed.

Lemma ex51_all : exists s t : decide qlib,
  [/\ forall (K : rcfType) e, sequent_true (@qval K) s e, run 1 3 s = Err IndexError, hyps t = [::] &
      run 1 3 t = Err IndexError].
Proof. by exists s51, s51b; split; [exact: ex51_valid|exact: ex51| |exact: ex51b]. Qed.

Lemma ex56_all : exists d : asg rat, [/\ uniq (map fst d), dict2vect [:: 2%N] d = Err KeyError &
  exists v d' k, [/\ dict2vect [:: 0%N] d = Ok v, vect2dict (var_order [:: 0%N] d) v = Ok d' & dget d' k <> dget d k]].
Proof.
exists d56; split; [by []|exact: ex56a|exists [:: 1], [:: (0%N, 1)], 1%N].
by have [A B] := ex56b; split; [exact: A|exact: B|].
Qed.

Lemma bind_head (A B : Type) (r0 : res (A * seq (seq B))) a x :
  (let! r := r0 in Ok (r.1, head [::] (behead r.2))) = Ok (a, x) -> x <> [::] ->
  exists2 r, r0 = Ok r & List.In x r.2.
Proof.
by case: r0 => //= -[a' [|y [|z l]]] [_ <-] // _; eexists; first by []; right; left.
Qed.

Lemma ex57_all : exists (hs : seq (atom qlib)) (m : atom qlib) (d d' : asg rat) r,
  [/\ local_search_sampling qoracle [::] [::] hs m d = Ok r, List.In d' r.2,
      eval_atom m d = Ok (Some false) & eval_atom m d' = Ok (Some true)].
Proof.
have [r Er Ir] : exists2 r, local_search_sampling qoracle [::] [::] [:: h57] m57 d57 = Ok r & List.In n57 r.2.
  by apply: bind_head; [exact: ex57|].
exists [:: h57], m57, d57, n57, r; split; [exact: Er|exact: Ir|exact: (proj2 ex57_near)|exact: (proj1 ex57_near)].
Qed.

Lemma ex67_all : exists s : decide qlib,
  [/\ goal_hyps (dgoal s) = [::], gb (dgoal s) = [::], exists r, run 1 3 s = Ok r &
    forall K : rcfType, exists e, ~~ sequent_true (@qval K) s e].
Proof.
exists s67; split=> //; first exact: (is_okP ex67).
by move=> K; exists (fun=> 2%:R); exact: ex67_false.
Qed.
Lemma ex67b_closed : closed (L := qlib) (mem class67) (dgoal s67b) (hyps s67b).
Proof. by right. Qed.

Definition nonempty (T : Type) (r : res (seq T * seq qpoly)) : bool := if r is Ok (_ :: _, _) then true else false.
Lemma ex69 : exists r, sample_pt_dicts qoracle 2 1 [::] (Some (dgoal s71)) [:: lx 1; xmy] [::] = Ok r /\
  r.1 <> [::].
Proof.
have H : nonempty (sample_pt_dicts qoracle 2 1 [::] (Some (dgoal s71)) [:: lx 1; xmy] [::]) by vm_compute.
by case: (sample_pt_dicts _ _ _ _ _ _ _) H => // -[[|d ds] t] // _; eexists; split.
Qed.

Lemma ex70 : filter_proj_set (L := qlib) [:: [:: ([:: 2%N], 3%:R)]; [:: ([::], 5%:R)]; xmy] = [:: X 0; xmy].
Proof. by vm_compute. Qed.
