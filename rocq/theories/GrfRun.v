(** The recursion of [check]. *)
From mathcomp Require Import all_ssreflect all_algebra.
From mathcomp.zify Require Import zify.
From Coq Require Import String Permutation.
From Verif Require Import Py GrfModel GrfSpec GrfFacts GrfCheck GrfLoop.

Set Implicit Arguments.
Unset Strict Implicit.
Unset Printing Implicit Defensive.
Import GRing.Theory Num.Theory Order.Theory.
Local Open Scope ring_scope.

Section Run.
Variables (R : realDomainType) (L : lib R) (O : oracle L).
Local Notation poly := (P L).
Local Notation asg := (dict [eqType of var] R).
Implicit Types (a h : atom L) (d : asg) (g : goal L) (s : decide L).
Variable solve : nat -> seq constraint -> seq nat -> res (nat -> bool).
Variable sample : addr -> option (goal L) -> seq poly -> seq (atom L) -> res (seq asg * seq poly).

(** ** One promotion *)
Lemma pyget_split (T : Type) (l : seq T) i x : pyget l i = Ok x ->
  l = take i l ++ x :: drop i.+1 l.
Proof.
rewrite /pyget; case E : (drop i l) => [//|y l'] [<-].
have -> : drop i.+1 l = l' by rewrite -add1n -drop_drop E /= drop0.
by rewrite -E cat_take_drop.
Qed.

Lemma mask_take_drop (T : Type) (l : seq T) i : exists m, take i l ++ drop i.+1 l = mask m l.
Proof.
exists (mkseq (fun j => j != i) (size l)); elim: l i => [|x l IH] i; first by [].
case: i => [|i] /=; rewrite /mkseq /= ?drop0.
  have A : forall n k, [seq j != 0%N | j <- iota k.+1 n] = nseq n true by elim=> // n IHn k /=; rewrite IHn.
  by rewrite A mask_true.
congr (_ :: _); rewrite IH /mkseq (iotaDl 1 0) -map_comp; congr (mask _ _).
Qed.

Definition promotes s s' : Prop :=
  exists h, [/\ add_goal_hyp (dgoal s) h = Ok (dgoal s'), Permutation (h :: hyps s') (hyps s) &
    exists m, hyps s' = mask m (hyps s)].

Lemma promote_rightP s i s' : promote_right s i = Ok s' -> promotes s s'.
Proof.
move=> H; case: (bind_inv H) => h Eh {H} H; case: (bind_inv H) => g Eg {H} [<-].
exists h; split=> //=; last exact: mask_take_drop.
rewrite [X in Permutation _ X](pyget_split Eh); exact: Permutation_middle.
Qed.

Lemma autoP s bads s' : auto solve s bads = Ok s' -> promotes s s'.
Proof.
move=> H; case: (bind_inv H) => cand _ {H} H; case: (bind_inv H) => i _ {H}; exact: promote_rightP.
Qed.

Lemma interactP s bads cs s' b l : interact solve s bads cs = Ok (s', b, l) -> promotes s s'.
Proof.
elim: cs => //= c cs IH; case: c => [||||i|] //.
- by move=> H; case: (bind_inv H).
- move=> H; case: (bind_inv H) => cand _ {H} H; case: (bind_inv H) => i _ {H} H.
  by case: (bind_inv H) => s2 /promote_rightP P [<- _ _].
- case: ifP => // _ H; by case: (bind_inv H) => s2 /promote_rightP P [<- _ _].
Qed.

(** ** The loop over the sample points *)
Lemma all_bads_none w i s ds k eps o : all_bads O w i s ds k eps = Ok (o, None) ->
  forall d, List.In d ds -> eval_goal (dgoal s) d = Ok true.
Proof.
elim: ds i s o => //= d ds IH i s o H; case: (bind_inv H) => r Er {H} H.
case: (bind_inv H) => r' Er' {H} [_ E2] d'.
have [r1 r2] : r.2 = None /\ r'.2 = None by case: (r.2) (r'.2) E2 => [b|] [b'|].
case: r' Er' E2 r2 => o' x /= + _ Ex; rewrite Ex => /IH Hd.
case=> [<-|/Hd //]; move: Er; rewrite /bad_subsets_on_dict => H.
case: (bind_inv H) => t Et {H}; case: t Et => // _ H.
case: (bind_inv H) => op _ {H} H; case: (bind_inv H) => bads _ {H} [E].
by move: r1; rewrite -E.
Qed.

Lemma all_bads_some w i s ds k eps o bads : all_bads O w i s ds k eps = Ok (o, Some bads) ->
  all (proper s) bads.
Proof.
elim: ds i s o bads => //= d ds IH i s o bads H; case: (bind_inv H) => r Er {H} H.
case: (bind_inv H) => r' Er' {H} [_ E2].
have Hr : forall b, r.2 = Some b -> all (proper s) b.
  move=> bs E; move: Er; rewrite /bad_subsets_on_dict => H.
  case: (bind_inv H) => t Et {H}; case: t Et => // _; first by case=> E'; move: E; rewrite -E'.
  move=> H; case: (bind_inv H) => op _ {H} H; case: (bind_inv H) => bads0 Eb {H} [E'].
  move: E; rewrite -E' /= => -[<-]; have [I1 _ I3] := bad_fold_inv Eb.
  apply/allP => b /I1[//|[Ne [d' Id' F]]]; apply/andP; split.
    by case: F => _ /true_indices_sub.
  by have [] := I3 _ _ Id' F.
have Hr' : forall b, r'.2 = Some b -> all (proper s) b.
  by case: r' Er' {E2} => o' x /= Er' b E; move: Er'; rewrite E => /IH.
case E : (r.2) E2 => [b|]; case E' : (r'.2) => [b'|] // [<-]; rewrite ?all_cat.
- by rewrite (Hr _ E) (Hr' _ E').
- exact: Hr.
- exact: Hr'.
Qed.

(** ** C50: what a finished run has done *)
Definition run_result s s' : Prop :=
  exists2 ps, foldM (@add_goal_hyp R L) (dgoal s) ps = Ok (dgoal s') &
    Permutation (ps ++ hyps s') (hyps s) /\ exists m, hyps s' = mask m (hyps s).

Lemma mask_mask (T : Type) (l : seq T) m m' : exists m2, mask m' (mask m l) = mask m2 l.
Proof.
elim: l m m' => [|x l IH] m m'; first by exists [::]; rewrite !mask0 .
case: m => [|b m]; first by exists [::]; rewrite /= mask0.
case: b => /=; last by have [m2 ->] := IH m m'; exists (false :: m2).
case: m' => [|b' m']; first by exists [::].
have [m2 E] := IH m m'; exists (b' :: m2); by case: b' => /=; rewrite E.
Qed.

Lemma promotes_run s s1 s2 : promotes s s1 -> run_result s1 s2 -> run_result s s2.
Proof.
case=> h [Eg P1 [m1 M1]] [ps Ef [P2 [m2 M2]]]; exists (h :: ps).
  by rewrite /= Eg.
split; last by rewrite M2 M1; exact: mask_mask.
rewrite /=; apply: Permutation_trans P1; exact: Permutation_cons.
Qed.

Lemma promotes_size s s' : promotes s s' -> (size (hyps s')).+1 = size (hyps s).
Proof. by case=> h [_ /Permutation_length]. Qed.

Lemma check_result fuel partial k eps cs top s r s' :
  check O solve sample fuel partial k eps cs top s = Ok (r, s') ->
  run_result s s' /\
  exists w top' ds, [/\ (exists t, sample w (if partial then Some (dgoal s') else None) top' (hyps s') = Ok (ds, t)) &
    forall d, List.In d ds -> eval_goal (dgoal s') d = Ok true].
Proof.
elim: fuel cs top s r s' => [|fuel IH] cs top s r s' //=.
set top' := top ++ _; move=> H; case: (bind_inv H) => -[ds t] Es {H} H.
case: (bind_inv H) => -[o ob] Eb {H} /=; case: ob Eb => [bads|] Eb; last first.
  case=> _ <-; split=> /=.
    by exists [::] => //=; split=> //; exists (nseq (size (hyps s)) true); rewrite mask_true.
  by exists [:: fuel.+1; 0%N], top', ds; split; [exists t|exact: (all_bads_none Eb)].
have run1 : forall s2, promotes (Decide (hyps s) (dgoal s) o) s2 -> promotes s s2.
  by move=> s2 [h [P1 P2 P3]]; exists h.
case: cs => [l|] H.
  case: (bind_inv H) => -[[s2 inter] l'] /interactP/run1 P {H} H.
  by case: (bind_inv H) => -[r2 s3] /IH[Q X] {H} [_ <-]; split=> //; exact: (promotes_run P).
case: (bind_inv H) => s2 /autoP/run1 P {H} H.
by case: (bind_inv H) => -[r2 s3] /IH[Q X] {H} [_ <-]; split=> //; exact: (promotes_run P).
Qed.

(** ** C50: one recursive call per hypothesis at most *)
Hypothesis fsolve_fuel : forall w p x y, never OutOfFuel (fsolve O w p x y).
Hypothesis solve_fuel : forall n cs w, never OutOfFuel (solve n cs w).
Hypothesis sample_fuel : forall w og top hs, never OutOfFuel (sample w og top hs).

Lemma good_hyps_fuel s bads : never OutOfFuel (good_hyps solve s bads).
Proof. by apply: never_bind => //; exact: solve_fuel. Qed.

Lemma inject_fuel B a : never OutOfFuel (inject B a).
Proof. by case: B. Qed.

Lemma promote_right_fuel s i : never OutOfFuel (promote_right s i).
Proof.
apply: never_bind => [|h _]; first exact: pyget_never.
apply: never_bind => // ; apply: never_bind => [|hB _].
  case: (aop h) => //; apply: never_bind => //; apply: never_mapM => a; exact: inject_fuel.
by apply: never_bind => //; case: (gb _) => // *; exact: inject_fuel.
Qed.

Lemma auto_fuel s bads : never OutOfFuel (auto solve s bads).
Proof.
apply: never_bind => [|c _]; first exact: good_hyps_fuel.
apply: never_bind => [|i _]; [exact: pyget_never|exact: promote_right_fuel].
Qed.

Lemma interact_fuel s bads cs : never OutOfFuel (interact solve s bads cs).
Proof.
elim: cs => //= c cs IH; case: c => [||||i|] //.
- by apply: never_bind => //; exact: good_hyps_fuel.
- apply: never_bind => [|cand _]; first exact: good_hyps_fuel.
  apply: never_bind => [|i _]; first exact: pyget_never.
  by apply: never_bind => //; exact: promote_right_fuel.
- by case: ifP => // _; apply: never_bind => //; exact: promote_right_fuel.
Qed.

Lemma check_fuel fuel partial k eps cs top s : (size (hyps s) < fuel)%N ->
  never OutOfFuel (check O solve sample fuel partial k eps cs top s).
Proof.
elim: fuel cs top s => [|fuel IH] cs top s //= Sz.
apply: never_bind => [|sp _]; first exact: sample_fuel.
apply: never_bind => [|ob _]; first exact: all_bads_never.
case: (ob.2) => [bads|] //; case: cs => [l|].
  apply: never_bind => [|[[s2 inter] l'] /interactP/promotes_size/= E]; first exact: interact_fuel.
  by apply: never_bind => //; apply: IH; slia.
apply: never_bind => [|s2 /autoP/promotes_size/= E]; first exact: auto_fuel.
by apply: never_bind => //; apply: IH; slia.
Qed.
End Run.

(** The sampling parameters are not used. *)
Section Params.
Variables (R : realDomainType) (L : lib R) (O : oracle L).
Local Notation asg := (dict [eqType of var] R).
Variable solve : nat -> seq constraint -> seq nat -> res (nat -> bool).
Variable sample : addr -> option (goal L) -> seq (P L) -> seq (atom L) -> res (seq asg * seq (P L)).

Lemma all_bads_params w i s ds k eps k' eps' : all_bads O w i s ds k eps = all_bads O w i s ds k' eps'.
Proof.
elim: ds i s => //= d ds IH i s; rewrite {1}/bad_subsets_on_dict -/(bad_subsets_on_dict O (i :: w) s d k' eps').
by case: (bad_subsets_on_dict _ _ _ _ _ _) => //= r; rewrite IH.
Qed.

Lemma check_params fuel partial k eps k' eps' cs top s :
  check O solve sample fuel partial k eps cs top s = check O solve sample fuel partial k' eps' cs top s.
Proof.
elim: fuel cs top s => //= fuel IH cs top s; case: (sample _ _ _ _) => //= sp.
rewrite (all_bads_params _ _ _ _ _ _ k' eps'); case: (all_bads _ _ _ _ _ _ _) => //= ob.
case: (ob.2) => // bads; case: cs => [l|].
  by case: (interact _ _ _ _) => //= -[[s2 inter] l']; rewrite IH.
by case: (auto _ _ _) => //= s2; rewrite IH.
Qed.
End Params.

(** The final goal is enough. *)
Section Sound.
Variables (R : realDomainType) (L : lib R) (K : realDomainType) (inj : R -> K) (val : P L -> (var -> K) -> K).
Hypothesis LO : lib_ok inj val.

Lemma all_true_perm (l l' : seq (atom L)) e : Permutation l l' -> all_true val l e = all_true val l' e.
Proof.
elim=> [|x l1 l2 _|x y l1|l1 l2 l3 _ + _] //; rewrite /all_true /=.
- by move=> ->.
- by rewrite andbCA.
- by move=> ->.
Qed.

Lemma run_sound s s' e : goal_hyps (dgoal s) = [::] -> gb (dgoal s) = [::] -> run_result s s' ->
  goal_true val (dgoal s') e -> sequent_true val s e.
Proof.
move=> G0 B0 [ps Ef [P _]] T; apply/implyP; rewrite -(all_true_perm e P) /all_true all_cat => /andP[Tp _].
rewrite /goal_true G0 /=; case: s G0 B0 Ef {P} => hs [m gh b] o /= G0 B0; rewrite G0 B0 => Ef.
have [M I] := promote_implied LO e Ef; move: T; rewrite /goal_true I // M.
exact.
Qed.
End Sound.

(** ** C71: the last hypothesis is never promoted *)
Section Last.
Variables (R : realDomainType) (L : lib R) (O : oracle L).
Local Notation asg := (dict [eqType of var] R).
Variable solve : nat -> seq constraint -> seq nat -> res (nat -> bool).
Hypothesis exact : exact_solver solve.
Variable sample : addr -> option (goal L) -> seq (P L) -> seq (atom L) -> res (seq asg * seq (P L)).
Implicit Type s : decide L.

Lemma all_bads_nonempty w i s ds k eps o bads : all_bads O w i s ds k eps = Ok (o, Some bads) ->
  [::] \notin bads.
Proof.
elim: ds i s o bads => //= d ds IH i s o bads H; case: (bind_inv H) => r Er {H} H.
case: (bind_inv H) => r' Er' {H} [_ E2].
have Hr : forall b, r.2 = Some b -> [::] \notin b.
  move=> bs E; move: Er; rewrite /bad_subsets_on_dict => H.
  case: (bind_inv H) => t Et {H}; case: t Et => // _; first by case=> E'; move: E; rewrite -E'.
  move=> H; case: (bind_inv H) => op _ {H} H; case: (bind_inv H) => bads0 Eb {H} [E'].
  move: E; rewrite -E' /= => -[<-]; have [I1 _ _] := bad_fold_inv Eb.
  by apply/negP => /I1[//|[]].
have Hr' : forall b, r'.2 = Some b -> [::] \notin b.
  by case: r' Er' {E2} => o' x /= Er' b E; move: Er'; rewrite E => /IH.
case E : (r.2) E2 => [b|]; case E' : (r'.2) => [b'|] // [<-]; rewrite ?mem_cat ?negb_or.
- by rewrite (Hr _ E) (Hr' _ E').
- exact: Hr.
- exact: Hr'.
Qed.

(** With one hypothesis left there is nothing to record. *)
Lemma one_hyp_bads w i s ds k eps o bads : (size (hyps s) <= 1)%N ->
  all_bads O w i s ds k eps = Ok (o, Some bads) -> bads = [::].
Proof.
move=> S1 E; have /allP Pr := all_bads_some E; have := all_bads_nonempty E.
case: bads {E} Pr => // b bads Pr; rewrite inE negb_or => /andP[Nb _].
have /andP[_] := Pr b (mem_head _ _); case: b {Pr} Nb => // x b _.
by move=> B; have := leq_trans B S1.
Qed.

Lemma check_last fuel partial k eps top s r s' :
  check O solve sample fuel partial k eps None top s = Ok (r, s') -> hyps s <> [::] -> hyps s' <> [::].
Proof.
elim: fuel top s r s' => [|fuel IH] top s r s' //=.
set top' := top ++ _; move=> H; case: (bind_inv H) => -[ds t] Es {H} H.
case: (bind_inv H) => -[o ob] Eb {H} /=; case: ob Eb => [bads|] Eb; last by case=> _ <-.
move=> H Ne; case: (bind_inv H) => s2 Ea {H} H; case: (bind_inv H) => -[r2 s3] Ec {H} [_ <-] /=.
apply: (IH _ _ _ _ Ec) => E2; have := promotes_size (autoP Ea); rewrite E2 /= => S1.
have B0 : bads = [::] by apply: (one_hyp_bads _ Eb); rewrite -S1.
by move: Ea; rewrite B0 auto_none.
Qed.

(** ... so a falsified goal with one hypothesis left ends in an error. *)
Lemma check_one fuel partial k eps top s : (size (hyps s) <= 1)%N ->
  forall r s', check O solve sample fuel partial k eps None top s = Ok (r, s') ->
  r = [::] /\ exists w top' ds t, sample w (if partial then Some (dgoal s) else None) top' (hyps s) = Ok (ds, t) /\
    forall d, List.In d ds -> eval_goal (dgoal s) d = Ok true.
Proof.
case: fuel => [//|fuel] S1 r s' /=; set top' := top ++ _; move=> H; case: (bind_inv H) => -[ds t] Es {H} H.
case: (bind_inv H) => -[o ob] Eb {H} /=; case: ob Eb => [bads|] Eb; last first.
  by case=> <- _; split=> //; exists [:: fuel.+1; 0%N], top', ds, t; split=> //; exact: (all_bads_none Eb).
by rewrite (one_hyp_bads S1 Eb) auto_none.
Qed.
End Last.
