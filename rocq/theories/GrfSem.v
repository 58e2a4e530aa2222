(** Evaluation at assignments of all the variables, in terms of truth. *)
From mathcomp Require Import all_ssreflect all_algebra.
From mathcomp.zify Require Import zify.
From Coq Require Import String.
From Verif Require Import Py GrfModel GrfSpec GrfFacts GrfCheck GrfLoop.

Set Implicit Arguments.
Unset Strict Implicit.
Unset Printing Implicit Defensive.
Import GRing.Theory Num.Theory Order.Theory.
Local Open Scope ring_scope.

(** ** Specification *)
Section SemSpec.
Variables (R : realDomainType) (L : lib R) (K : realDomainType) (inj : R -> K).
Local Notation asg := (dict [eqType of var] R).
Variable val : P L -> (var -> K) -> K.

(** The point of an assignment. *)
Definition point_of (d : asg) (v : var) : K := if dget d v is Ok x then inj x else 0.
(** The assignment has the variables of the atom, both the recorded and the actual ones. *)
Definition covers (d : asg) (a : atom L) : bool :=
  all (fun v => dmem d v) (avars a) && all (fun v => dmem d v) (variables (apoly a)).
Definition covers_all (d : asg) (s : decide L) : bool :=
  (d != [::]) && all (covers d) (main_goal (dgoal s) :: goal_hyps (dgoal s) ++ hyps s).
(** The positions of the atoms that are true at a point. *)
Definition indices_true (hs : seq (atom L)) (e : var -> K) : seq nat :=
  [seq i <- iota 0 (size hs) | nth false [seq atom_true val h e | h <- hs] i].
End SemSpec.

Section Sem.
Variables (R : realDomainType) (L : lib R) (K : realDomainType) (inj : R -> K).
Local Notation asg := (dict [eqType of var] R).
Implicit Types (a h : atom L) (d : asg) (g : goal L) (s : decide L).
Variable val : P L -> (var -> K) -> K.
Hypothesis LO : lib_ok inj val.

Lemma point_agrees d : agrees inj d (point_of inj d).
Proof. by move=> v x E; rewrite /point_of E. Qed.

(** An atom with a variable that is not assigned has no value. *)
Lemma eval_atom_missing a d : atom_wf a -> ~~ all (fun v => dmem d v) (variables (apoly a)) ->
  eval_atom a d = Ok None.
Proof.
move=> W N; rewrite /eval_atom; case: ifP => // M; case/negP: N.
by apply/allP => v /(allP W) /(allP M).
Qed.

Lemma mk_atom_wf i p op : atom_wf (L := L) (mk_atom i p op).
Proof. exact/allP. Qed.

Lemma eval_atom_covers a d : d != [::] -> covers d a ->
  eval_atom a d = Ok (Some (atom_true val a (point_of inj d))).
Proof.
move=> ne /andP[M V]; rewrite /eval_atom M; case E : d ne => [//|kv d'] _; rewrite -E.
by rewrite (val_subst LO V (@point_agrees d)) holds_cmp.
Qed.

Lemma some_hyp_false_covers (hs : seq (atom L)) d : d != [::] -> all (covers d) hs ->
  some_hyp_false hs d = Ok (~~ all_true val hs (point_of inj d)).
Proof.
move=> ne; elim: hs => //= h hs IH /andP[Ch Chs]; rewrite (eval_atom_covers ne Ch) bind_ok /all_true /=.
by case: (atom_true val h _) => //=; exact: IH.
Qed.

Lemma eval_goal_covers g d : d != [::] -> all (covers d) (main_goal g :: goal_hyps g) ->
  eval_goal g d = Ok (goal_true val g (point_of inj d)).
Proof.
move=> ne /andP[Cm Ch]; rewrite /eval_goal (eval_atom_covers ne Cm) bind_ok /goal_true.
case: (atom_true val _ _); rewrite ?implybT // implybF.
exact: some_hyp_false_covers.
Qed.

Lemma indices_true_cons h (hs : seq (atom L)) e i :
  [seq j <- iota i (size (h :: hs)) | nth false [seq atom_true val h e | h <- h :: hs] (j - i)] =
  (if atom_true val h e then [:: i] else [::]) ++
  [seq j <- iota i.+1 (size hs) | nth false [seq atom_true val h e | h <- hs] (j - i.+1)].
Proof.
rewrite /= subnn /=; set l := [seq _ <- _ | _]; set l' := [seq _ <- _ | _].
have -> : l = l' by apply: eq_in_filter => j; rewrite mem_iota => /andP[lt _];
  have -> : (j - i = (j - i.+1).+1)%N by lia.
by case: (atom_true val h e).
Qed.

Lemma true_indices_covers (hs : seq (atom L)) d : d != [::] -> all (covers d) hs ->
  true_indices 0 hs d = Ok (indices_true val hs (point_of inj d)).
Proof.
move=> ne C; have -> : indices_true val hs (point_of inj d) =
    [seq j <- iota 0 (size hs) | nth false [seq atom_true val h (point_of inj d) | h <- hs] (j - 0)].
  by apply: eq_filter => j; rewrite subn0.
move: 0%N C => i; elim: hs i => //= h hs IH i /andP[Ch Chs].
rewrite (eval_atom_covers ne Ch) bind_ok (IH _ Chs) bind_ok.
rewrite -[if nth _ _ _ then _ else _]/([seq j <- iota i (size (h :: hs)) | nth false [seq atom_true val h (point_of inj d) | h <- h :: hs] (j - i)]).
by rewrite indices_true_cons; case: (atom_true val h _).
Qed.

Lemma indices_true_all (hs : seq (atom L)) e :
  (size (indices_true val hs e) == size hs) = all_true val hs e.
Proof.
rewrite size_filter -[X in iota 0 X](size_map (fun h => atom_true val h e)); set l := map _ hs.
rewrite -(count_map (nth false l) id) -/(mkseq (nth false l) (size l)) mkseq_nth.
by rewrite -(size_map (fun h => atom_true val h e) hs) -/l -all_count /all_true /l all_map.
Qed.

(** One sample point. *)
Lemma bad_step_covers s bads d : covers_all d s -> let e := point_of inj d in
  let b := indices_true val (hyps s) e in
  bad_step s bads d =
    if goal_true val (dgoal s) e then Ok bads else
    if all_true val (hyps s) e then Err counterexample else
    if (b \notin bads) && (b != [::]) then Ok ([seq b' <- undup bads | ~~ subset b' b] ++ [:: b]) else Ok bads.
Proof.
case/andP=> ne; rewrite -cat_cons all_cat => /andP[Cg Ch] /=.
rewrite /bad_step (eval_goal_covers ne Cg) bind_ok; case: (goal_true _ _ _) => //.
by rewrite (true_indices_covers ne Ch) bind_ok indices_true_all.
Qed.

(** The counterexample is reported exactly when some sample falsifies the sequent. *)
Lemma bad_fold_verdict s (pts : seq asg) : (forall d, List.In d pts -> covers_all d s) ->
  if all (fun d => sequent_true val s (point_of inj d)) pts
  then exists bads, foldM (bad_step s) [::] pts = Ok bads
  else foldM (bad_step s) [::] pts = Err counterexample.
Proof.
move: [::] => bads; elim: pts bads => [|d pts IH] bads C /=; first by exists bads.
have {}IH b := IH b (fun d' I => C d' (or_intror I)).
rewrite (bad_step_covers bads (C d (or_introl erefl))) {1}/sequent_true.
case: (goal_true _ _ _); rewrite ?implybT ?implybF; first exact: IH.
by case: (all_true _ _ _) => //=; case: (_ && _); exact: IH.
Qed.

(** What is recorded. *)
Lemma bad_fold_sem s (pts : seq asg) bads : (forall d, List.In d pts -> covers_all d s) ->
  foldM (bad_step s) [::] pts = Ok bads ->
  let true_at d := indices_true val (hyps s) (point_of inj d) in
  (forall b, b \in bads -> b <> [::] /\
     exists2 d, List.In d pts & ~~ goal_true val (dgoal s) (point_of inj d) /\ b = true_at d) /\
  (forall d, List.In d pts -> ~~ goal_true val (dgoal s) (point_of inj d) -> true_at d <> [::] ->
     exists2 b, b \in bads & {subset true_at d <= b}).
Proof.
move=> C E; have [I1 _ I3] := bad_fold_inv E.
have F d b : List.In d pts -> falsified s d b <-> ~~ goal_true val (dgoal s) (point_of inj d) /\
    b = indices_true val (hyps s) (point_of inj d).
  move=> /C /andP[ne]; rewrite -cat_cons all_cat => /andP[Cg Ch].
  rewrite /falsified (eval_goal_covers ne Cg) (true_indices_covers ne Ch).
  by split=> [[[->] [->]]|[/negPf -> ->]].
split=> [b /I1[//|[nb [d Id /(F _ _ Id) X]]]|d Id G T].
  by split=> //; exists d.
have [_ /(_ T)[b bI /allP S]] := I3 d _ Id (iffRL (F d _ Id) (conj G erefl)).
by exists b.
Qed.

Section Cex.
Variable O : oracle L.
Hypothesis fsolve_cex : forall w p x y, never counterexample (fsolve O w p x y).

Lemma covers_perm d d' a : perm_eq (map fst d') (map fst d) -> covers d a -> covers d' a.
Proof.
move=> Pd /andP[/allP A /allP B]; apply/andP; split; apply/allP => v.
  by move=> /A; rewrite /dmem (perm_mem Pd).
by move=> /B; rewrite /dmem (perm_mem Pd).
Qed.

Lemma bad_subsets_cex_covers w s d k eps : bad_subsets_on_dict O w s d k eps = Err counterexample ->
  covers_all d s -> uniq (map fst d) -> vorder s = [::] \/ perm_eq (vorder s) (map fst d) ->
  exists d', perm_eq (map fst d') (map fst d) /\ ~~ sequent_true val s (point_of inj d').
Proof.
move=> /(bad_subsets_cex fsolve_cex)[o [pts [d' [El I' G H]]]] /andP[ne C] U Ho.
have Pd : perm_eq (map fst d') (map fst d).
  have [_ HP] := local_search_keys El U Ho.
  by case: I' => [<-|/HP]; [exact: perm_refl|].
have ne' : d' != [::] by apply: contra ne => /eqP E; move: Pd; rewrite E perm_sym => /perm_nilP; case: (d).
have {}C : all (covers d') (main_goal (dgoal s) :: goal_hyps (dgoal s) ++ hyps s).
  by apply: sub_all C => a; exact: covers_perm.
exists d'; split=> //; move: C; rewrite -cat_cons all_cat => /andP[Cg Ch].
move: G; rewrite (eval_goal_covers ne' Cg) => -[Eg].
rewrite /sequent_true Eg implybF negbK; apply: all_In => h Ih.
by move: (H _ Ih); rewrite (eval_atom_covers ne' (In_all Ch Ih)) => -[].
Qed.
End Cex.
End Sem.
