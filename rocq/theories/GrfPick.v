(** The choices made by GRF: which hypothesis is flipped by the local search
    and in which direction, weights, which hypothesis is promoted, what the
    user's input does, the default sample point, the projection set, and the
    history of the variable order. *)
From mathcomp Require Import all_ssreflect all_algebra.
From mathcomp.zify Require Import zify.
From Coq Require Import String.
From Verif Require Import Py GrfModel GrfCad GrfSpec GrfFacts GrfCheck GrfLoop GrfRun.

Set Implicit Arguments.
Unset Strict Implicit.
Unset Printing Implicit Defensive.
Import GRing.Theory Num.Theory Order.Theory.
Local Open Scope ring_scope.

Lemma pyget0 (T : Type) (l : seq T) x : pyget l 0 = Ok x -> exists l', l = x :: l'.
Proof. by rewrite /pyget drop0; case: l => // y l [->]; exists l. Qed.

Lemma pyget_In (T : Type) (l : seq T) i x : pyget l i = Ok x -> List.In x l.
Proof.
rewrite /pyget; elim: l i => //= y l IH [[->]|i /IH]; by [left|right].
Qed.

Lemma filter_none (T : Type) (p : pred T) (l : seq T) : ~~ has p l -> filter p l = [::].
Proof. by elim: l => //= x l IH; rewrite negb_or => /andP[/negbTE -> /IH]. Qed.

(** ** The atom that is flipped *)
Section Flip.
Variables (R : realDomainType) (L : lib R) (O : oracle L).
Local Notation asg := (dict [eqType of var] R).

Lemma true_atomsP (hs : seq (atom L)) d l : true_atoms hs d = Ok l ->
  (forall a, List.In a l -> List.In a hs /\ eval_atom a d = Ok (Some true)) /\
  (forall a, List.In a hs -> eval_atom a d = Ok (Some true) -> List.In a l).
Proof.
elim: hs l => [|h hs IH] l /=; first by case=> <-.
move=> H; case: (bind_inv H) => r Er {H} H; case: (bind_inv H) => l' El [<-] {H}.
have [I1 I2] := IH _ El; case: r Er => [[]|] Er; split=> a /=.
- by case=> [<-|/I1[]]; auto.
- by case=> [<-|/I2 h' /h']; auto.
- by move=> /I1[]; auto.
- by case=> [<-|/I2 h' /h'] //; rewrite Er.
- by move=> /I1[]; auto.
- by case=> [<-|/I2 h' /h'] //; rewrite Er.
Qed.

Lemma chosen_true w order (hs : seq (atom L)) x o d :
  choose_atom_true O w order hs x = Ok o -> vect2dict order x = Ok d ->
  if o is Some a then List.In a hs /\ eval_atom a d = Ok (Some true)
  else forall a, List.In a hs -> eval_atom a d <> Ok (Some true).
Proof.
rewrite /choose_atom_true => H; case: (bind_inv H) => d0 -> {H} H [E]; subst d0.
case: (bind_inv H) => l El {H}; have [I1 I2] := true_atomsP El.
case: l {El} I1 I2 => [_ I2 [<-] a Ia Ea|a0 l I1 _]; first by have := I2 _ Ia Ea.
move=> H; case: (bind_inv H) => a Ea [<-]; apply: I1; exact: pyget_In Ea.
Qed.

Section Val.
Variables (K : realDomainType) (inj : {rmorphism R -> K}) (val : P L -> (var -> K) -> K).
Hypothesis LO : lib_ok inj val.

Lemma flip_epsP w order (a : atom L) x d e eps :
  flip_eps O w order a x = Ok eps -> vect2dict order x = Ok d ->
  all (fun v => dmem d v) (variables (apoly a)) -> agrees inj d e ->
  let p := val (apoly a) e in
  if p == 0 then eps = margin O \/ eps = - margin O
  else inj eps = Num.sg p * inj (margin O).
Proof.
rewrite /flip_eps => H; case: (bind_inv H) => d0 -> {H} H [E] C A; subst d0; move: H.
rewrite (val_subst LO C A) /cmp_of; set p := val _ _ => /=.
case: (ltrgt0P p) => [p0|p0|p0] /=.
- case: ifP => // _ [<-]; by rewrite (gtr0_sg p0) mul1r.
- case: ifP => // _ [<-]; by rewrite (ltr0_sg p0) rmorphN mulN1r.
- move=> H; case: (bind_inv H) => i Ei [<-] {H}.
  have := pyget_In Ei => /= -[<-|[<-|//]]; by rewrite ?mulrN1 ?mulr1; auto.
Qed.

(** Where the solver finds an exact zero, the sign of the polynomial is the
    opposite one. *)
Lemma flip_sign w order (a : atom L) x d e e' eps :
  flip_eps O w order a x = Ok eps -> vect2dict order x = Ok d ->
  all (fun v => dmem d v) (variables (apoly a)) -> agrees inj d e ->
  0 < inj (margin O) -> val (apoly a) e' + inj eps = 0 ->
  (val (apoly a) e != 0 -> Num.sg (val (apoly a) e') = - Num.sg (val (apoly a) e)) /\
  (val (apoly a) e = 0 -> val (apoly a) e' != 0).
Proof.
move=> F V C A m0 /(canRL (addrK _)); rewrite sub0r => ->.
have := flip_epsP F V C A => /=; case: (eqVneq (val (apoly a) e) 0) => [p0 E|p0 E]; split=> //.
- move=> _; case: E => ->; by rewrite ?rmorphN oppr_eq0 ?oppr_eq0 (gt_eqF m0).
- by move=> _; rewrite E sgrN sgrM (gtr0_sg m0) mulr1 sgr_id.
- by move=> E0; rewrite E0 eqxx in p0.
Qed.

Lemma flip_falsifies w order (a : atom L) x d e e' eps :
  flip_eps O w order a x = Ok eps -> vect2dict order x = Ok d ->
  all (fun v => dmem d v) (variables (apoly a)) -> agrees inj d e ->
  0 < inj (margin O) -> val (apoly a) e' + inj eps = 0 ->
  (match aop a with RNe => false | RLe | RGe => val (apoly a) e != 0 | _ => true end) ->
  atom_true val a e -> ~~ atom_true val a e'.
Proof.
move=> F V C A m0 E; have [] := flip_sign F V C A m0 E; rewrite /atom_true.
set p := val _ e; set p' := val _ e'; case: (aop a) => /= S Z // c t.
- have s := S (lt0r_neq0 t); rewrite -leNgt -sgr_le0 s (gtr0_sg t); by rewrite oppr_le0 ler01.
- have s := S (ltr0_neq0 t); rewrite -leNgt -sgr_ge0 s (ltr0_sg t); by rewrite opprK ler01.
- have lt : p < 0 by rewrite lt_neqAle c t.
  by rewrite -ltNge -sgr_gt0 (S c) (ltr0_sg lt) opprK ltr01.
- have gt : 0 < p by rewrite lt_def c t.
  by rewrite -ltNge -sgr_lt0 (S c) (gtr0_sg gt) oppr_lt0 ltr01.
- by apply: Z; apply/eqP.
Qed.

(** A disequation stays true. *)
Lemma flip_neq w order (a : atom L) x d e e' eps :
  flip_eps O w order a x = Ok eps -> vect2dict order x = Ok d ->
  all (fun v => dmem d v) (variables (apoly a)) -> agrees inj d e ->
  0 < inj (margin O) -> val (apoly a) e' + inj eps = 0 -> aop a = RNe -> atom_true val a e'.
Proof.
move=> F V C A m0 E; have [] := flip_sign F V C A m0 E; rewrite /atom_true => S Z -> /=.
case: (eqVneq (val (apoly a) e) 0) => [/Z //|p0].
by rewrite -sgr_eq0 (S p0) oppr_eq0 sgr_eq0.
Qed.
End Val.
End Flip.

(** ** Weights and candidates *)
Section Pick.
Variables (R : realDomainType) (L : lib R).
Variable solve : nat -> seq constraint -> seq nat -> res (nat -> bool).
Implicit Types (s : decide L) (h : atom L).

(** The hypothesis has a variable of the goal. *)
Definition related (g : goal L) h : Prop :=
  exists2 v, v \in variables (apoly h) &
  exists2 a, List.In a (main_goal g :: goal_hyps g) & v \in variables (apoly a).

Lemma relatedP s h : reflect (related (dgoal s) h)
  (has (fun v => v \in flatten [seq variables (apoly a) | a <- goal_hyps (dgoal s) ++ [:: main_goal (dgoal s)]])
       (variables (apoly h))).
Proof.
have flat (l : seq (atom L)) (v : var) :
    v \in flatten [seq variables (apoly a) | a <- l] <-> exists2 a, List.In a l & v \in variables (apoly a).
  elim: l => [|a l IH] /=; first by split=> // -[].
  rewrite mem_cat; split=> [/orP[I|/IH[b Ib I]]|[b [<- ->//|Ib I]]].
  - by exists a; [left|].
  - by exists b; [right|].
  - by apply/orP; right; apply/IH; exists b.
apply: (iffP hasP) => -[v I J]; exists v => //.
  have [a Ia va] := (flat _ _).1 J; exists a => //.
  by have [Ib|[<-|//]] := List.in_app_or _ _ _ Ia; [right|left].
have [a Ia va] := J; apply/flat; exists a => //; apply: List.in_or_app.
by case: Ia => [<-|]; [right; left|left].
Qed.

Lemma weightP s i h : pyget (hyps s) i = Ok h ->
  (related (dgoal s) h ->
     nth 0%N (weight_hyps s) i =
     maxn (10 * (total_degree (apoly h) - 1) + 100 * (size (variables (apoly h)) - 1)) 1) /\
  (~ related (dgoal s) h -> nth 0%N (weight_hyps s) i = 10000%N).
Proof.
move=> E; have lt : (i < size (hyps s))%N.
  by rewrite ltnNge; apply/negP => le; move: E; rewrite /pyget drop_oversize.
have -> : nth 0%N (weight_hyps s) i = weight s h.
  rewrite (nth_map h) //; congr weight; move: E; rewrite /pyget (drop_nth h lt); by case.
rewrite /weight; case: relatedP => H; by split.
Qed.

(** Small related hypotheses are cheaper than unrelated ones. *)
Lemma weight_bias s i j h h' : pyget (hyps s) i = Ok h -> pyget (hyps s) j = Ok h' ->
  related (dgoal s) h -> ~ related (dgoal s) h' ->
  (total_degree (apoly h) <= 100)%N -> (size (variables (apoly h)) <= 90)%N ->
  (nth 0 (weight_hyps s) i < nth 0 (weight_hyps s) j)%N.
Proof.
move=> E E' r r' d n; rewrite ((weightP E).1 r) ((weightP E').2 r').
move: d n; move: (total_degree _) (size _) => d n dl nl; have -> : 10000%N = (100 * 100)%N by [].
rewrite gtn_max; apply/andP; split; lia.
Qed.

(** The first hypothesis of least total degree among the candidates. *)
Definition first_least s (H : seq nat) i h : Prop :=
  [/\ i \in H, pyget (hyps s) i = Ok h &
   forall j h', j \in H -> pyget (hyps s) j = Ok h' ->
     (total_degree (apoly h) < total_degree (apoly h'))%N \/
     total_degree (apoly h) = total_degree (apoly h') /\ (i <= j)%N].

Lemma sort_cand_head s H i l : sorted ltn H -> sort_cand s H = i :: l ->
  i \in H /\ forall j, j \in H -> (hyp_degree s i < hyp_degree s j)%N \/
    hyp_degree s i = hyp_degree s j /\ (i <= j)%N.
Proof.
move=> SH E; have I : i \in H by rewrite -(mem_sort (fun i j => (hyp_degree s i <= hyp_degree s j)%N)) -/(sort_cand s H) E mem_head.
split=> // j; rewrite -(mem_sort (fun i j => (hyp_degree s i <= hyp_degree s j)%N)) -/(sort_cand s H) E.
have := sort_stable (leT := fun i j => (hyp_degree s i <= hyp_degree s j)%N) (leT' := ltn) _ ltn_trans SH.
rewrite -/(sort_cand s H) E => /(_ (fun x y => leq_total _ _)) /= P.
have tr : transitive (fun x y => (hyp_degree s x <= hyp_degree s y)%N
    && ((hyp_degree s y <= hyp_degree s x)%N ==> (x < y)%N)).
  move=> y x z /andP[h1 h2] /andP[h3 h4]; rewrite (leq_trans h1 h3); apply/implyP => h5.
  move: h2 h4; rewrite (leq_trans h3 h5) (leq_trans h5 h1) => /= h2 h4; exact: ltn_trans h2 h4.
have /allP A := order_path_min tr P; rewrite inE => /predU1P[->|/A /andP[h1 /implyP h2]]; first by right.
case: (ltngtP (hyp_degree s i) (hyp_degree s j)) h1 => // [|e] _; first by left.
by right; split=> //; apply: ltnW; apply: h2; rewrite e.
Qed.

Lemma good_sorted s bads H : good_hyps solve s bads = Ok H -> sorted ltn H.
Proof.
rewrite /good_hyps; case: (solve _ _ _) => //= v [<-]; apply: sorted_filter; first exact: ltn_trans.
exact: iota_ltn_sorted.
Qed.

Lemma good_in s bads H i : good_hyps solve s bads = Ok H -> i \in H -> (i < size (hyps s))%N.
Proof.
by rewrite /good_hyps; case: (solve _ _ _) => //= v [<-]; rewrite mem_filter mem_iota => /andP[_].
Qed.

Lemma promote_rightP s i s' : promote_right s i = Ok s' ->
  exists2 h, pyget (hyps s) i = Ok h &
  [/\ add_goal_hyp (dgoal s) h = Ok (dgoal s'), hyps s' = take i (hyps s) ++ drop i.+1 (hyps s) & vorder s' = vorder s].
Proof.
rewrite /promote_right => H; case: (bind_inv H) => h Eh {H} H; case: (bind_inv H) => g Eg [<-] {H}.
by exists h.
Qed.

Lemma auto_sort s bads : auto solve s bads =
  let! cand := good_hyps solve s bads in let! i := pyget (sort_cand s cand) 0 in promote_right s i.
Proof.
rewrite /auto; case: (good_hyps solve s bads) => //= -[|i [|j H]] //=.
Qed.

Lemma autoP_first s bads s' : auto solve s bads = Ok s' ->
  exists H i h, [/\ good_hyps solve s bads = Ok H, first_least s H i h,
    add_goal_hyp (dgoal s) h = Ok (dgoal s'), hyps s' = take i (hyps s) ++ drop i.+1 (hyps s) & vorder s' = vorder s].
Proof.
rewrite auto_sort => E; case: (bind_inv E) => H EH {E} E; case: (bind_inv E) => i Ei {E}.
have {Ei} [l Ei] := pyget0 Ei.
move/promote_rightP=> [h Eh [E1 E2 E3]]; exists H, i, h; split=> //.
have [I M] := sort_cand_head (good_sorted EH) Ei; split=> // j h' J Ej.
by have := M _ J; rewrite /hyp_degree Eh Ej.
Qed.

(** ** The user's input *)
Definition skipped s (c : command) : bool :=
  match c with
  | Suggest | ShowBads | ShowSequent | Other => true
  | Go => false
  | Promote i => ~~ ((0 <= i) && (i < (size (hyps s))%:Z))
  end.

Lemma interact_go s bads cs : interact solve s bads (Go :: cs) =
  let! s' := auto solve s bads in Ok (s', false, cs).
Proof.
rewrite auto_sort /=; case: (good_hyps solve s bads) => //= H; by case: (pyget _ _) => //= i.
Qed.

Lemma interactP s bads cs s' b cs' : interact solve s bads cs = Ok (s', b, cs') ->
  exists pre c, [/\ cs = pre ++ c :: cs', all (skipped s) pre &
    (c = Go /\ b = false /\ auto solve s bads = Ok s') \/
    (exists i, [/\ c = Promote (Posz i), (i < size (hyps s))%N, b = true & promote_right s i = Ok s'])].
Proof.
elim: cs => // c cs IH.
have skip : skipped s c -> interact solve s bads cs = Ok (s', b, cs') ->
    exists pre c0, [/\ c :: cs = pre ++ c0 :: cs', all (skipped s) pre &
    (c0 = Go /\ b = false /\ auto solve s bads = Ok s') \/
    (exists i, [/\ c0 = Promote (Posz i), (i < size (hyps s))%N, b = true & promote_right s i = Ok s'])].
  move=> sc /IH[pre [c0 [-> A D]]]; exists (c :: pre), c0; split=> //; by rewrite /= sc A.
case: c skip => [skip|skip|skip|_|i|skip].
- by rewrite /=; case: (good_hyps _ _ _) => //= _; apply: skip.
- exact: skip.
- exact: skip.
- rewrite interact_go => H; case: (bind_inv H) => s2 E [<- <- <-].
  by exists [::], Go; split=> //; left.
- move=> skip; rewrite /=; case: ifP => [/andP[i0 lt]|nr]; last by apply: skip; rewrite /skipped nr.
  move=> H; case: (bind_inv H) => s2 E [<- <- <-].
  exists [::], (Promote i); split=> //; right.
  by case: i {skip H} i0 lt E => // i _; rewrite ltz_nat => lt E; exists i.
- exact: skip.
Qed.

(** All the errors: no more input, or those of a suggestion, of the automatic
    choice, of a promotion. *)
Lemma interact_skipped s bads cs : all (skipped s) cs ->
  (forall c, List.In c cs -> c = Suggest -> exists H, good_hyps solve s bads = Ok H) ->
  interact solve s bads cs = Err EOFError.
Proof.
elim: cs => // c cs IH /= /andP[sc A] G.
have {}IH : interact solve s bads cs = Err EOFError by apply: IH => // c' I; apply: G; right.
case: c sc G => //= [_ G|i /negbTE ->] //.
by have [H ->] := G _ (or_introl erefl) erefl.
Qed.

Lemma interact_prefix s bads pre cs : all (skipped s) pre ->
  (exists H, good_hyps solve s bads = Ok H) -> interact solve s bads (pre ++ cs) = interact solve s bads cs.
Proof.
move=> + [H G]; elim: pre => //= c pre IH /andP[sc /IH {IH}].
by case: c sc => //= [_|i /negbTE ->] //; rewrite G.
Qed.

Section Check.
Variable O : oracle L.
Variable sample : addr -> option (goal L) -> seq (P L) -> seq (atom L) ->
  res (seq (dict [eqType of var] R) * seq (P L)).

(** A session that starts with GO is the automatic run. *)
Lemma check_go fuel partial k eps cs top s :
  check O solve sample fuel partial k eps (Some (Go :: cs)) top s =
  check O solve sample fuel partial k eps None top s.
Proof.
case: fuel => // fuel; rewrite /check -/check.
case: (sample _ _ _ _) => // sp; rewrite !bind_ok; case: (all_bads _ _ _ _ _ _ _) => // ob; rewrite !bind_ok.
by case: (ob.2) => // bads; rewrite interact_go; case: (auto solve _ bads).
Qed.

(** ** The variable order *)
Lemma all_bads_order w i s ds k eps o ob : all_bads O w i s ds k eps = Ok (o, ob) ->
  (ob = None -> o = vorder s) /\ (vorder s <> [::] -> o = vorder s) /\
  (o = vorder s \/ exists2 d, List.In d ds & o = map fst d).
Proof.
elim: ds i s o ob => [|d ds IH] i s o ob /=; first by case=> <- _; auto.
move=> H; case: (bind_inv H) => -[o1 b1] E1 {H} H; case: (bind_inv H) => -[o2 b2] E2 [<- <-] {H}.
have [I1 [I2 I3]] := IH _ _ _ _ E2.
move: E1; rewrite /bad_subsets_on_dict => H; case: (bind_inv H) => t _ {H}.
case: t => [[h1 h2]|H].
  subst o1 b1; split=> //; split=> //; case: I3 => [->|[d' I ->]]; first by left.
  by right; exists d'; [right|].
case: (bind_inv H) => -[o3 pts] E3 {H} H; case: (bind_inv H) => bads _ [h1 h2] {H}; subst o1 b1.
rewrite /= in I1 I2 I3 *; split; first by case: (b2).
have E4 : o3 = var_order (vorder s) d.
  move: E3; rewrite /local_search_sampling => H; case: (bind_inv H) => x _ {H} H.
  by case: (bind_inv H) => l _ [<- _].
split=> [ne|].
  have E : o3 = vorder s by rewrite E4 /var_order; case: (vorder s) ne.
  by rewrite I2 ?E.
case: I3 => [->|[d' I ->]]; last by right; exists d'; [right|].
by rewrite E4 /var_order; case: (vorder s) => [|v l]; [right; exists d; [left|]|left].
Qed.

Lemma promote_vorder s i s' : promote_right s i = Ok s' -> vorder s' = vorder s.
Proof. by move/promote_rightP=> [h _ []]. Qed.

Lemma promote_size s i s' : promote_right s i = Ok s' -> (size (hyps s')).+1 = size (hyps s).
Proof.
move/promote_rightP=> [h Eh [_ -> _]]; rewrite size_cat size_drop size_take.
have lt : (i < size (hyps s))%N.
  by rewrite ltnNge; apply/negP => le; move: Eh; rewrite /pyget drop_oversize.
by rewrite lt; lia.
Qed.

Lemma auto_promote s bads s' : auto solve s bads = Ok s' -> exists i, promote_right s i = Ok s'.
Proof.
rewrite auto_sort => E; case: (bind_inv E) => H _ {E} E; case: (bind_inv E) => i _ {}E; by exists i.
Qed.

Lemma step_promote s bads cs s' b cs' : interact solve s bads cs = Ok (s', b, cs') ->
  exists i, promote_right s i = Ok s'.
Proof. by case/interactP=> pre [c [_ _ [[_ [_ /auto_promote]]|[i [_ _ _]]]]] //; exists i. Qed.

Lemma check_order fuel partial k eps cs top s r s' :
  check O solve sample fuel partial k eps cs top s = Ok (r, s') ->
  [/\ vorder s <> [::] -> vorder s' = vorder s,
      (size (hyps s') <= size (hyps s))%N &
      size (hyps s') = size (hyps s) -> r = [::] /\ vorder s' = vorder s].
Proof.
elim: fuel cs top s r s' => [//|fuel IH] cs top s r s'; rewrite /check -/check.
set top' := top ++ _; move=> H; case: (bind_inv H) => -[ds t] Es {H} H.
case: (bind_inv H) => -[o ob] Eb {H}; have [B1 [B2 _]] := all_bads_order Eb.
rewrite /=; case: ob Eb B1 => [bads|] Eb B1; last first.
  by case=> <- <-; rewrite /= B1 //; split.
set s1 := Decide _ _ o; move=> H.
have [s2 [cs2 [i Ep [r2 Ec]]]] : exists s2 cs2, exists2 i, promote_right s1 i = Ok s2 &
    exists r2, check O solve sample fuel partial k eps cs2 t s2 = Ok (r2, s').
  case: cs H => [l|] H.
    case: (bind_inv H) => -[[s2 b] l'] /step_promote[i Ep] {}H; case: (bind_inv H) => -[r2 s3] Ec [_ <-].
    by exists s2; eexists; exists i => //; exists r2; exact: Ec.
  case: (bind_inv H) => s2 /auto_promote[i Ep] {}H; case: (bind_inv H) => -[r2 s3] Ec [_ <-].
  by exists s2; eexists; exists i => //; exists r2; exact: Ec.
have [I1 I2 _] := IH _ _ _ _ _ Ec; have Ev := promote_vorder Ep; have Sz := promote_size Ep.
rewrite /s1 /= in Ev Sz; split=> [ne||]; last 2 first.
- by apply: leq_trans I2 _; rewrite -Sz.
- by move=> E; move: I2; rewrite E -Sz ltnn.
by rewrite I1 Ev ?B2.
Qed.
End Check.
End Pick.

(** ** The default sample point and the projection *)
Section Cad.
Variables (R : realDomainType) (L : lib R) (O : oracle L).
Variables (K : realDomainType) (inj : {rmorphism R -> K}) (val : P L -> (var -> K) -> K).

(** Without roots there is one sample point; it satisfies the first hypothesis
    on the bare variable, unless this is a disequation. *)
Lemma default_sample w num (ambient : seq (atom L)) v :
  exists2 c, sector_sps O w [::] num ambient v = [:: c] &
  (forall h hs1 hs2, ambient = hs1 ++ h :: hs2 -> ~~ has (fun a : atom L => apoly a == gen L v) hs1 ->
     apoly h = gen L v -> aop h <> RNe ->
     forall e, val (gen L v) e = inj c -> atom_true val h e) /\
  (~~ has (fun a : atom L => apoly a == gen L v) ambient -> c = 0).
Proof.
rewrite /sector_sps; set l := [seq h <- ambient | _]; pose op := if l is h :: _ then Some (aop h) else None.
exists (match op with Some RLt => -1 | Some RGt => 1 | _ => 0 end).
  by rewrite /op; case: (l) => // h l'; case: (aop h).
split=> [h hs1 hs2 E N Eh ne e V|].
  have El : l = h :: [seq h <- hs2 | apoly h == gen L v].
    by rewrite /l E filter_cat /= Eh eqxx (filter_none N).
  move: V; rewrite /op El /atom_true Eh => ->; case: (aop h) ne => //= _; rewrite ?rmorph0 ?rmorphN ?rmorph1 //.
  - exact: ltr01.
  - by rewrite oppr_lt0 ltr01.
by move=> N; rewrite /op /l (filter_none N).
Qed.

Definition projection (x : var) (ps : seq (P L)) (r : P L) : Prop :=
  [\/ exists p q, [/\ p \in ps, q \in ps, p <> q & r = resultant p q x],
      exists2 p, p \in ps & r = discriminant p x |
      exists2 p, p \in ps & r = coefficient p x (degree p x)].

Lemma bm_projP x (ps : seq (P L)) q :
  q \in bm_proj x ps <-> exists2 r, projection x ps r & ~~ is_constant r /\ q = pure_poly_base r.
Proof.
rewrite /bm_proj /filter_proj_set mem_undup.
have mem r : r \in undup ((if (1 < size (undup ps))%N
      then flatten [seq [seq resultant p1 p2 x | p2 <- undup ps & p1 != p2] | p1 <- undup ps] else [::])
      ++ [seq discriminant p x | p <- undup ps] ++ [seq coefficient p x (degree p x) | p <- undup ps])
    <-> projection x ps r.
  rewrite mem_undup !mem_cat; split.
    case/or3P.
    - case: ifP => // _ /flatten_mapP[p Ip /mapP[p2]]; rewrite mem_filter !mem_undup in Ip * => /andP[ne I2] ->.
      by apply: Or31; exists p, p2; split=> //; apply/eqP.
    - by move=> /mapP[p]; rewrite mem_undup => I ->; apply: Or32; exists p.
    - by move=> /mapP[p]; rewrite mem_undup => I ->; apply: Or33; exists p.
  case=> [[p [p2 [I I2 ne ->]]]|[p I ->]|[p I ->]].
  - apply/orP; left; have -> : (1 < size (undup ps))%N.
      have sub : {subset [:: p; p2] <= undup ps} by move=> y; rewrite !inE mem_undup => /orP[]/eqP ->.
      by apply: (uniq_leq_size (s1 := [:: p; p2])) sub; rewrite /= inE andbT; apply/eqP.
    by apply/flatten_mapP; exists p; rewrite ?mem_undup //; apply/mapP; exists p2; rewrite ?mem_filter ?mem_undup ?I2 ?andbT //; apply/eqP.
  - by apply/or3P; apply: Or32; apply/mapP; exists p; rewrite ?mem_undup.
  - by apply/or3P; apply: Or33; apply/mapP; exists p; rewrite ?mem_undup.
split=> [/mapP[r]|[r Pr [nc ->]]].
  by rewrite mem_filter => /andP[nc I] ->; exists r => //; apply/mem.
by apply: map_f; rewrite mem_filter nc; apply/mem.
Qed.
End Cad.
