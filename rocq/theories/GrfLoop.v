(** Counterexamples, the choice of hypotheses, and the main loop. *)
From mathcomp Require Import all_ssreflect all_algebra.
From mathcomp.zify Require Import zify.
From Coq Require Import String Permutation.
From Verif Require Import Py GrfModel GrfSpec GrfFacts GrfCheck.

Set Implicit Arguments.
Unset Strict Implicit.
Unset Printing Implicit Defensive.
Import GRing.Theory Num.Theory Order.Theory.
Local Open Scope ring_scope.

(** ** Which exceptions can be raised *)
Definition never (e : exn) (T : Type) (m : res T) : Prop := m <> Err e.

Lemma never_bind e (A B : Type) (m : res A) (k : A -> res B) :
  never e m -> (forall x, m = Ok x -> never e (k x)) -> never e (bind m k).
Proof. by case: m => [x _|e'] /=; [exact|move=> H _ [E]; apply: H; rewrite E]. Qed.

Lemma never_mapM e (A B : Type) (f : A -> res B) (l : seq A) :
  (forall x, never e (f x)) -> never e (mapM f l).
Proof.
move=> H; elim: l => //= a l IH; apply: never_bind => // b _; exact: never_bind.
Qed.

Lemma all_In (T : Type) (p : pred T) (l : seq T) : (forall x, List.In x l -> p x) -> all p l.
Proof.
elim: l => //= x l IH H; rewrite H /=; last by left.
by apply: IH => y Iy; apply: H; right.
Qed.
Lemma In_all (T : Type) (p : pred T) (l : seq T) x : all p l -> List.In x l -> p x.
Proof. by elim: l => //= y l IH /andP[py /IH pl] [<-|/pl]. Qed.

Section Loop.
Variables (R : realDomainType) (L : lib R).
Local Notation poly := (P L).
Local Notation asg := (dict [eqType of var] R).
Implicit Types (a h : atom L) (d : asg) (g : goal L) (s : decide L).
Variable O : oracle L.

Section Never.
Variable e : exn.
Hypotheses (e1 : e <> IndexError) (e2 : e <> KeyError) (e3 : e <> AssertionError) (e4 : e <> TypeError).
Hypothesis fsolve_never : forall w p x y, never e (fsolve O w p x y).

Lemma pyget_never (T : Type) (l : seq T) i : never e (pyget l i).
Proof. by rewrite /pyget; case: drop => // -[E]; apply: e1. Qed.
Lemma pychoice_never (T : Type) w (l : seq T) : never e (pychoice O w l).
Proof. by case: l => [[E]|x l]; [apply: e1|exact: pyget_never]. Qed.
Lemma dget_never d k : never e (dget d k).
Proof. by elim: d => [[E]|[k' v] d IH] /=; [apply: e2|case: ifP]. Qed.
Lemma eval_atom_never a d : never e (eval_atom a d).
Proof. by rewrite /eval_atom; case: ifP => // _; case: d => // -[E]; apply: e1. Qed.
Lemma some_hyp_false_never (hs : seq (atom L)) d : never e (some_hyp_false hs d).
Proof.
elim: hs => //= h hs IH; apply: never_bind => [|r _]; first exact: eval_atom_never.
by case: r => [[]|].
Qed.
Lemma eval_goal_never g d : never e (eval_goal g d).
Proof.
apply: never_bind => [|r _]; first exact: eval_atom_never.
by case: r => [[]|] //; exact: some_hyp_false_never.
Qed.
Lemma true_indices_never i (hs : seq (atom L)) d : never e (true_indices i hs d).
Proof.
elim: hs i => //= h hs IH i; apply: never_bind => [|r _]; first exact: eval_atom_never.
exact: never_bind.
Qed.
Lemma true_atoms_never (hs : seq (atom L)) d : never e (true_atoms hs d).
Proof.
elim: hs => //= h hs IH; apply: never_bind => [|r _]; first exact: eval_atom_never.
exact: never_bind.
Qed.
Lemma vect2dict_never o (v : seq R) : never e (vect2dict o v).
Proof.
by rewrite /vect2dict; case: o => [[E]|x o]; [apply: e3|case: ifP => // _ [E]; apply: e3].
Qed.
Lemma good_on_goal_never (m : atom L) pts : never e (good_on_goal m pts).
Proof.
elim: pts => //= d pts IH; apply: never_bind => [|r _]; first exact: eval_atom_never.
exact: never_bind.
Qed.
Lemma chain_step_never w o (hs : seq (atom L)) m x : never e (chain_step O w o hs m x).
Proof.
apply: never_bind => [|ta _].
  apply: never_bind => [|d _]; first exact: vect2dict_never.
  apply: never_bind => [|l _]; first exact: true_atoms_never.
  by case: l => // a l; apply: never_bind => //; exact: pychoice_never.
apply: never_bind => [|a _]; first by case: ta => // ; exact: pychoice_never.
apply: never_bind => [|f _].
  apply: never_bind => [|d _]; first exact: vect2dict_never.
  cbv zeta; move: (substitute (apoly a) d) => p; case: (cmp0 p); last first.
  - by case: (is_constant p) => // -[E]; apply: e4.
  - by case: (is_constant p) => // -[E]; apply: e4.
  by apply: never_bind => //; exact: pychoice_never.
apply: never_bind => [|x' _]; first exact: fsolve_never.
apply: never_bind => [|pts _]; first by apply: never_mapM => v; exact: vect2dict_never.
by apply: never_bind => //; exact: good_on_goal_never.
Qed.
Lemma chain_never w o (hs : seq (atom L)) m n x : never e (chain O w o hs m n x).
Proof.
elim: n x => //= n IH x; apply: never_bind => [|st _]; first exact: chain_step_never.
exact: never_bind.
Qed.
Lemma local_search_never w o (hs : seq (atom L)) m d : never e (local_search_sampling O w o hs m d).
Proof.
apply: never_bind => [|x _]; first by apply: never_mapM => v; exact: dget_never.
by apply: never_bind => //; exact: chain_never.
Qed.
Lemma bad_step_never s bads d : e <> counterexample -> never e (bad_step s bads d).
Proof.
move=> ne; apply: never_bind => [|t _]; first exact: eval_goal_never.
case: t => //; apply: never_bind => [|b _]; first exact: true_indices_never.
by case: eqP => [_ [E]|_]; [apply: ne|case: ifP].
Qed.
Lemma bad_subsets_never w s d k eps : e <> counterexample ->
  never e (bad_subsets_on_dict O w s d k eps).
Proof.
move=> ne; apply: never_bind => [|t _]; first exact: eval_goal_never.
case: t => //; apply: never_bind => [|op _]; first exact: local_search_never.
apply: never_bind => //; elim: (d :: op.2) [::] => //= d' l IH bads.
by apply: never_bind => //; exact: bad_step_never.
Qed.
Lemma all_bads_never w i s ds k eps : e <> counterexample -> never e (all_bads O w i s ds k eps).
Proof.
move=> ne; elim: ds i s => //= d ds IH i s; apply: never_bind => [|r _]; first exact: bad_subsets_never.
exact: never_bind.
Qed.
End Never.

(** ** C46 *)
Hypothesis fsolve_cex : forall w p x y, never counterexample (fsolve O w p x y).

Lemma bad_fold_cex s bads pts : foldM (bad_step s) bads pts = Err counterexample ->
  exists2 d, List.In d pts & eval_goal (dgoal s) d = Ok false /\
    forall h, List.In h (hyps s) -> eval_atom h d = Ok (Some true).
Proof.
elim: pts bads => //= d pts IH bads.
case E : (bad_step s bads d) => [b|e]; rewrite /=; first by move=> /IH[d' I' X]; exists d' => //; right.
move=> [Ee]; move: E; rewrite Ee {Ee} /bad_step.
case Et : (eval_goal _ _) => [t|e']; last by move=> [E']; case: (@eval_goal_never counterexample _ (dgoal s) d) => //; rewrite Et E'.
rewrite bind_ok; case: t Et => // Et.
case Eb : (true_indices _ _ _) => [b|e']; last by move=> [E']; case: (@true_indices_never counterexample _ 0%N (hyps s) d) => //; rewrite Eb E'.
rewrite bind_ok; case: eqP => [Sz _|_]; last by case: ifP.
by exists d; [left|split=> //; exact: (true_indices_all Eb Sz)].
Qed.

Lemma bad_subsets_cex w s d k eps : bad_subsets_on_dict O w s d k eps = Err counterexample ->
  exists o pts d', [/\ local_search_sampling O w (vorder s) (hyps s) (main_goal (dgoal s)) d = Ok (o, pts),
    List.In d' (d :: pts), eval_goal (dgoal s) d' = Ok false &
    forall h, List.In h (hyps s) -> eval_atom h d' = Ok (Some true)].
Proof.
rewrite /bad_subsets_on_dict.
case Et : (eval_goal _ _) => [t|e']; last by move=> [E']; case: (@eval_goal_never counterexample _ (dgoal s) d) => //; rewrite Et E'.
rewrite bind_ok; case: t Et => // Et.
case El : (local_search_sampling _ _ _ _ _ _) => [[o pts]|e']; last first.
  by move=> [E']; case: (@local_search_never counterexample _ _ _ _ fsolve_cex w (vorder s) (hyps s) (main_goal (dgoal s)) d) => //; rewrite El E'.
rewrite bind_ok; case Ef : (foldM _ _ _) => [//|e'] [E'].
have [d' I' [G H]] := bad_fold_cex (etrans Ef (congr1 (fun e => Err e) E')).
by exists o, pts, d'.
Qed.

Section Sem.
Variables (K : realDomainType) (inj : R -> K) (val : poly -> (var -> K) -> K).
Hypothesis LO : lib_ok inj val.

(** The point of an assignment. *)
Lemma agrees_exists d : exists e, agrees inj d e.
Proof.
exists (fun v => if dget d v is Ok x then inj x else 0) => v x E.
by rewrite E.
Qed.

Definition assigned d a := all (fun v => dmem d v) (avars a).

Lemma bad_subsets_cex_sem w s d k eps : bad_subsets_on_dict O w s d k eps = Err counterexample ->
  goal_wf (dgoal s) -> all (@atom_wf R L) (hyps s) ->
  all (assigned d) (main_goal (dgoal s) :: goal_hyps (dgoal s)) ->
  uniq (map fst d) -> vorder s = [::] \/ perm_eq (vorder s) (map fst d) ->
  exists e, ~~ sequent_true val s e.
Proof.
move=> /bad_subsets_cex[o [pts [d' [El I' G H]]]] Wg Wh Td U Ho.
have Pd : perm_eq (map fst d') (map fst d).
  have [_ HP] := local_search_keys El U Ho.
  by case: I' => [<-|/HP]; [exact: perm_refl|].
have [e A] := agrees_exists d'; exists e.
have ne : d' != [::].
  apply/eqP => E0; move: G Pd; rewrite E0 perm_sym => G /perm_nilP Ed.
  case/andP: Td => Tm _; move: G; rewrite /eval_goal /eval_atom.
  have -> : avars (main_goal (dgoal s)) = [::].
    by move: Tm; rewrite /assigned /dmem Ed; case: (avars _).
  by [].
have Td' : all (fun h => all (fun v => dmem d' v) (avars h)) (main_goal (dgoal s) :: goal_hyps (dgoal s)).
  apply: sub_all Td => h /allP Th; apply/allP => v /Th.
  by rewrite /dmem (perm_mem Pd).
move: (eval_goal_total LO ne Td' Wg A); rewrite G => -[Eg].
rewrite /sequent_true -Eg implybF negbK; apply: all_In => h Ih.
exact: (eval_atom_true LO (In_all Wh Ih) A (H _ Ih)).
Qed.

End Sem.

(** ** C49 *)
Variable solve : nat -> seq constraint -> seq nat -> res (nat -> bool).
Hypothesis exact : exact_solver solve.

Lemma constraints_meet n (b : seq nat) x :
  all (meets x) (constraints_of n b) = has (fun i => x i && (i \notin b)) (iota 0 n).
Proof.
rewrite /constraints_of; case E : [seq h <- iota 0 n | h \notin b] => [|i l].
  rewrite /= andbT; have -> : has (fun i => x i && (i \notin b)) (iota 0 n) = false.
    apply/negP => /hasP[i Ii /andP[_ Ni]].
    have : i \in [seq h <- iota 0 n | h \notin b] by rewrite mem_filter Ni.
    by rewrite E.
  by case: (x 0%N).
rewrite /= andbT -[x i || has x l]/(has x (i :: l)) -E.
apply/hasP/hasP => -[j]; first by rewrite mem_filter => /andP[Nj Ij] xj; exists j => //; rewrite xj.
by move=> Ij /andP[xj Nj]; exists j => //; rewrite mem_filter Nj.
Qed.

(** [x] meets the constraints when its set is contained in no bad subset. *)
Lemma meets_bads n (bads : seq (seq nat)) x :
  all (meets x) (flatten [seq constraints_of n b | b <- bads]) =
  all (fun b => ~~ subset (ones n x) b) bads.
Proof.
elim: bads => //= b bads IH; rewrite all_cat IH constraints_meet; congr (_ && _).
rewrite /subset /ones -has_predC; apply/hasP/hasP => -[i].
  by move=> Ii /andP[xi Ni]; exists i => //=; rewrite mem_filter xi.
by rewrite mem_filter => /andP[xi Ii] Ni; exists i => //; rewrite xi.
Qed.

Lemma cost_perm w l l' : perm_eq l l' -> cost w l = cost w l'.
Proof. by move=> P; rewrite /cost; apply/perm_sumn/perm_map. Qed.

Lemma ones_mem n (l : seq nat) : uniq l -> all (fun i => i < n)%N l ->
  perm_eq (ones n (fun i => i \in l)) l.
Proof.
move=> U /allP B; apply: uniq_perm; rewrite ?filter_uniq ?iota_uniq // => i.
rewrite mem_filter mem_iota /= add0n; case Il : (i \in l) => //=.
exact: (B _ Il).
Qed.

Lemma good_hyps_ok s bads H : good_hyps solve s bads = Ok H ->
  [/\ subseq H (iota 0 (size (hyps s))),
      forall b, b \in bads -> ~~ subset H b &
      forall H', uniq H' -> all (fun i => i < size (hyps s))%N H' ->
        (forall b, b \in bads -> ~~ subset H' b) ->
        (cost (weight_hyps s) H <= cost (weight_hyps s) H')%N].
Proof.
rewrite /good_hyps => E; case: (bind_inv E) => x Ex [<-] {E}.
have [/(_ _ Ex)[M Opt] _] := exact (size (hyps s)) (flatten [seq constraints_of (size (hyps s)) b | b <- bads]) (weight_hyps s).
rewrite meets_bads in M; split.
- exact: filter_subseq.
- by move=> b /(allP M).
move=> H' U B N; have P := ones_mem U B.
rewrite -(cost_perm _ P); apply: Opt; rewrite meets_bads; apply/allP => b /N.
by apply: contra => /allP S; apply/allP => i Ii; apply: S; rewrite (perm_mem P).
Qed.

Lemma good_hyps_err s bads e : good_hyps solve s bads = Err e ->
  e = Exc "MIPSolverException"%string /\
  forall H', uniq H' -> all (fun i => i < size (hyps s))%N H' -> ~~ all (fun b => ~~ subset H' b) bads.
Proof.
rewrite /good_hyps; case Ex : (solve _ _ _) => [//|e'] [<-].
have [_ /(_ _ Ex)[-> N]] := exact (size (hyps s)) (flatten [seq constraints_of (size (hyps s)) b | b <- bads]) (weight_hyps s).
split=> // H' U B; have := N (fun i => i \in H'); rewrite meets_bads; apply: contra => /allP A.
apply/allP => b /A; apply: contra => /allP S; apply/allP => i.
by rewrite -(perm_mem (ones_mem U B)) => /S.
Qed.

(** ** C51 *)
Lemma weight_pos s : all (fun w => 0 < w)%N (weight_hyps s).
Proof.
rewrite /weight_hyps all_map; apply: all_In => h _; rewrite /= /weight; case: ifP => // _.
by rewrite (leq_trans _ (leq_maxr _ _)).
Qed.

Lemma good_hyps_none s : good_hyps solve s [::] = Ok [::].
Proof.
case E : (good_hyps solve s [::]) => [H|e]; last first.
  by have [_ /(_ [::] isT isT)] := good_hyps_err E.
have [/mem_subseq S _ /(_ [::] isT isT)] := good_hyps_ok E; case: H S {E} => // i H S.
have Bi : (i < size (hyps s))%N by have := S i; rewrite mem_iota inE eqxx => /(_ isT).
move=> C; exfalso; have : (cost (weight_hyps s) (i :: H) <= 0)%N by apply: C.
rewrite /cost /= leqNgt addn_gt0; have -> // : (0 < nth 0 (weight_hyps s) i)%N.
by apply: (allP (weight_pos s)); rewrite mem_nth // size_map.
Qed.

Lemma auto_none s : auto solve s [::] = Err IndexError.
Proof. by rewrite /auto good_hyps_none. Qed.

(** Every recorded bad subset leaves out some hypothesis. *)
Definition proper s (b : seq nat) : bool := subseq b (iota 0 (size (hyps s))) && (size b < size (hyps s))%N.

Lemma pyget_nth (T : Type) (l : seq T) i : (i < size l)%N -> exists x, pyget l i = Ok x.
Proof. by move=> B; rewrite /pyget; case: l B => // y l B; rewrite (drop_nth y B); eexists. Qed.

Section Sem2.
Variables (K : realDomainType) (inj : R -> K) (val : poly -> (var -> K) -> K).
Hypothesis LO : lib_ok inj val.

Lemma promote_right_ok s i : (i < size (hyps s))%N -> exists s', promote_right s i = Ok s'.
Proof.
move=> B; rewrite /promote_right; have [h ->] := pyget_nth B; rewrite bind_ok.
by have [g ->] := add_goal_hyp_ok LO (dgoal s) h; rewrite bind_ok; eexists.
Qed.

Lemma auto_ok s bads : bads != [::] -> all (proper s) bads -> exists s', auto solve s bads = Ok s'.
Proof.
move=> Ne Pr; rewrite /auto; case E : (good_hyps solve s bads) => [H|e]; rewrite /=; last first.
  have [_ /(_ (iota 0 (size (hyps s))) (iota_uniq _ _))] := good_hyps_err E.
  have -> : all (fun i => i < size (hyps s))%N (iota 0 (size (hyps s))).
    by apply/allP => i; rewrite mem_iota.
  move=> /(_ isT) /negP []; apply/allP => b /(allP Pr)/andP[S Lt].
  apply/negP => /allP A; move: Lt; rewrite ltnNge => /negP[].
  by have := uniq_leq_size (iota_uniq 0 (size (hyps s))) A; rewrite size_iota.
have [/mem_subseq S N _] := good_hyps_ok E.
have : H != [::].
  by apply/eqP => E0; case: bads Ne {Pr E} N => // b bads _ /(_ b (mem_head _ _)); rewrite E0.
set C := (if _ then _ else _); move=> NeH.
have [i Ei Ii] : exists2 i, pyget C 0 = Ok i & i \in H.
  have : C =i H by rewrite /C; case: ifP => // _ i; rewrite mem_sort.
  case: C => [|i l] EC; first by case: H NeH EC {S N E} => // i l _ /(_ i); rewrite mem_head.
  by exists i => //; rewrite -EC mem_head.
rewrite Ei bind_ok; apply: promote_right_ok; have := S _ Ii; by rewrite mem_iota.
Qed.
End Sem2.
End Loop.
