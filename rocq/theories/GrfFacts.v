(** Atoms, goals, promotion of hypotheses. *)
From mathcomp Require Import all_ssreflect all_algebra.
From mathcomp.zify Require Import zify.
From Verif Require Import Py GrfModel GrfSpec.

Set Implicit Arguments.
Unset Strict Implicit.
Unset Printing Implicit Defensive.
Import GRing.Theory Num.Theory Order.Theory.
Local Open Scope ring_scope.

Section Facts.
Variables (R : realDomainType) (L : lib R).
Local Notation poly := (P L).
Local Notation asg := (dict [eqType of var] R).
Implicit Types (a h : atom L) (d : asg) (g : goal L).

Lemma negateK a : negate (negate a) = a.
Proof. by case: a => i p [] vs. Qed.

Lemma holds_negate op c : holds_op (negate_op op) c = ~~ holds_op op c.
Proof. by case: op; case: c. Qed.

Lemma eval_negate a d : eval_atom (negate a) d =
  let! r := eval_atom a d in Ok (if r is Some b then Some (~~ b) else None).
Proof.
rewrite /eval_atom /=; case: ifP => // _; case: d => // kv d.
by rewrite bind_ok holds_negate.
Qed.

Section Sem.
Variables (K : realDomainType) (inj : R -> K) (val : poly -> (var -> K) -> K).
Hypothesis LO : lib_ok inj val.
Local Notation point := (var -> K).
Implicit Types (e : point).

Lemma op_negate op (x : K) : op_true (negate_op op) x = ~~ op_true op x.
Proof. by case: op; rewrite /= -?leNgt -?ltNge ?negbK. Qed.

Lemma atom_negate a e : atom_true val (negate a) e = ~~ atom_true val a e.
Proof. exact: op_negate. Qed.

Lemma holds_cmp op (x : K) : holds_op op (cmp_of x) = op_true op x.
Proof.
rewrite /cmp_of; case: (ltgtP x 0) => hx; case: op => //=.
all: by rewrite ?hx ?eqxx ?(lt_eqF hx) ?(gt_eqF hx) ?(ltW hx) ?(le_gtF (ltW hx)) ?(lt_geF hx) ?ltxx ?lexx.
Qed.

Lemma eval_atom_some a d b : eval_atom a d = Ok (Some b) ->
  all (fun v => dmem d v) (avars a) /\ d != [::].
Proof. by rewrite /eval_atom; case: ifP => // h; case: d h. Qed.

(** Evaluation at a point that agrees with the assignment. *)
Lemma eval_atom_true a d e b : atom_wf a -> agrees inj d e ->
  eval_atom a d = Ok (Some b) -> atom_true val a e = b.
Proof.
move=> W A; rewrite /eval_atom; case: ifP => // M.
have V : all (fun v => dmem d v) (variables (apoly a)).
  by apply/allP => v /(allP W) /(allP M).
case E : d => [//|kv d'] [<-]; rewrite -E.
by rewrite (val_subst LO V A) holds_cmp.
Qed.

Lemma eval_atom_total a d e : all (fun v => dmem d v) (avars a) -> d != [::] ->
  atom_wf a -> agrees inj d e -> eval_atom a d = Ok (Some (atom_true val a e)).
Proof.
move=> M ne W A; have [b E] : exists b, eval_atom a d = Ok (Some b).
  rewrite /eval_atom M; case: d ne {M A} => // kv d' _; by eexists.
by rewrite E (eval_atom_true W A E).
Qed.

Lemma some_hyp_false_true (hs : seq (atom L)) d e : all (@atom_wf R L) hs -> agrees inj d e ->
  some_hyp_false hs d = Ok true -> ~~ all_true val hs e.
Proof.
move=> + A; elim: hs => //= h hs IH /andP[Wh Ws].
case E : (eval_atom h d) => [r|//]; rewrite bind_ok.
case: r E => [[]|] E H; rewrite negb_and.
- by rewrite IH // orbT.
- by rewrite (eval_atom_true Wh A E).
- by rewrite IH // orbT.
Qed.

Lemma eval_goal_sound g d e : goal_wf g -> agrees inj d e ->
  eval_goal g d = Ok true -> goal_true val g e.
Proof.
case/andP=> Wm Wh A; rewrite /eval_goal /goal_true.
case E : (eval_atom (main_goal g) d) => [r|//]; rewrite bind_ok.
case: r E => [[]|] E H; first by rewrite (eval_atom_true Wm A E) implybT.
all: by rewrite (negPf (some_hyp_false_true Wh A H)).
Qed.

Lemma some_hyp_false_total (hs : seq (atom L)) d e : d != [::] ->
  all (fun h => all (fun v => dmem d v) (avars h)) hs ->
  all (@atom_wf R L) hs -> agrees inj d e -> some_hyp_false hs d = Ok (~~ all_true val hs e).
Proof.
move=> ne + + A; elim: hs => //= h hs IH /andP[Mh Ms] /andP[Wh Ws].
rewrite (eval_atom_total Mh ne Wh A) bind_ok /all_true [all _ _]/=.
by case: (atom_true val h e) => //=; exact: IH.
Qed.

Lemma eval_goal_total g d e : d != [::] ->
  all (fun h => all (fun v => dmem d v) (avars h)) (main_goal g :: goal_hyps g) ->
  goal_wf g -> agrees inj d e -> eval_goal g d = Ok (goal_true val g e).
Proof.
move=> ne /andP[Mm Mh] /andP[Wm Wh] A; rewrite /eval_goal /goal_true.
rewrite (eval_atom_total Mm ne Wm A) bind_ok.
case: (atom_true val _ e); rewrite ?implybT ?implybF //.
exact: some_hyp_false_total.
Qed.

(** ** Promotion *)
Lemma atom_inject B a a' e : inject B a = Ok a' -> (forall q, q \in B -> val q e = 0) ->
  atom_true val a' e = atom_true val a e.
Proof. by case: B => // b B [<-] Z; rewrite /atom_true /= (val_reduce LO _ Z). Qed.

Lemma mapM_inject B (hs hs' : seq (atom L)) e : mapM (inject B) hs = Ok hs' ->
  (forall q, q \in B -> val q e = 0) -> all_true val hs' e = all_true val hs e.
Proof.
move=> + Z; elim: hs hs' => [|h hs IH] hs' /=; first by case=> <-.
case E : (inject B h) => [h'|//]; rewrite bind_ok.
case E2 : (mapM _ _) => [l|//]; rewrite bind_ok => -[<-].
by rewrite /all_true /= (atom_inject E Z) -/(all_true val l e) (IH _ E2).
Qed.

Lemma mapM_inject_ok B (hs : seq (atom L)) : B <> [::] -> exists hs', mapM (inject B) hs = Ok hs'.
Proof.
case: B => // b B _; elim: hs => [|h hs [l E]]; first by exists [::].
by rewrite /= -/(mapM _ _) E bind_ok; eexists.
Qed.

Lemma add_goal_hyp_ok g gh : exists g', add_goal_hyp g gh = Ok g'.
Proof.
rewrite /add_goal_hyp; set A := (match aop gh with REq => _ | _ => _ end).
have [hB ->] : exists hB, A = Ok hB.
  rewrite /A; case: (aop gh); try by eexists.
  have [l E] := @mapM_inject_ok (groebner_basis [:: apoly gh]) (goal_hyps g)
    (gb_nonempty LO (l := [:: apoly gh]) ltac:(by [])).
  by rewrite E bind_ok; eexists.
rewrite bind_ok; case: (gb g) => [|b B]; rewrite ?bind_ok; by eexists.
Qed.

(** Where all promoted hypotheses hold, the equations vanish. *)
Lemma add_goal_hyp_implied g gh g' e : add_goal_hyp g gh = Ok g' ->
  all_true val (goal_hyps g) e -> (forall q, q \in gb g -> val q e = 0) -> atom_true val gh e ->
  [/\ all_true val (goal_hyps g') e, (forall q, q \in gb g' -> val q e = 0)
    & main_goal g' = main_goal g].
Proof.
rewrite /add_goal_hyp; set A := (match aop gh with REq => _ | _ => _ end).
case EA : A => [hB|//]; rewrite bind_ok; set C := (match gb g with [::] => _ | _ => _ end).
case EC : C => [gh'|//]; rewrite bind_ok => -[<-] Th Zg Tgh /=.
have Tgh' : atom_true val gh' e.
  move: EC; rewrite /C; case EG : (gb g) => [|b B]; first by case=> <-.
  by rewrite -EG => H; rewrite (atom_inject H Zg).
have [TB ZB] : all_true val hB.1 e /\ (forall q, q \in hB.2 -> val q e = 0).
  move: EA; rewrite /A; case EO : (aop gh); try by case=> <-.
  case E2 : (mapM _ _) => [l|//]; rewrite bind_ok => -[<-] /=.
  have Z : val (apoly gh) e = 0 by move: Tgh; rewrite /atom_true EO => /eqP.
  split.
    by rewrite (mapM_inject E2) //; apply: (val_gb LO) => p; rewrite inE => /eqP ->.
  by apply: (val_gb LO) => p; rewrite mem_cat inE => /orP[/Zg|/eqP ->].
by split=> //; rewrite /all_true all_cat /= Tgh' !andbT; exact: TB.
Qed.

Lemma promote_implied m ps g e : foldM (@add_goal_hyp R L) (Goal m [::] [::]) ps = Ok g ->
  main_goal g = m /\ (all_true val ps e -> all_true val (goal_hyps g) e).
Proof.
have H : forall ps g0 g, foldM (@add_goal_hyp R L) g0 ps = Ok g -> main_goal g = main_goal g0 /\
  (all_true val (goal_hyps g0) e -> (forall q, q \in gb g0 -> val q e = 0) ->
   all_true val ps e -> all_true val (goal_hyps g) e).
  elim=> [|p ps' IH] g0 g' /=; first by case=> <-.
  case E : (add_goal_hyp g0 p) => [g1|//]; rewrite bind_ok => /IH[M HI]; split.
    rewrite M; move: E; rewrite /add_goal_hyp; case: (match aop p with REq => _ | _ => _ end) => // hB.
    by rewrite bind_ok; case: (match gb g0 with [::] => _ | _ => _ end) => // gh'; rewrite bind_ok => -[<-].
  move=> T0 Z0 /andP[Tp Tps]; have [T1 Z1 _] := add_goal_hyp_implied E T0 Z0 Tp.
  exact: HI.
by move=> /H[M HI]; split=> // T; exact: HI.
Qed.

Lemma promote_ok m ps : exists g, foldM (@add_goal_hyp R L) (Goal m [::] [::]) ps = Ok g.
Proof.
move: (Goal _ _ _); elim: ps => [|p ps IH] g0 /=; first by exists g0.
by have [g1 E] := add_goal_hyp_ok g0 p; rewrite E bind_ok; exact: IH.
Qed.

(** With at most one equation nothing is lost. *)
Definition is_eqn a := if aop a is REq then true else false.

Lemma promote_no_eqn ps g0 g : foldM (@add_goal_hyp R L) g0 ps = Ok g -> count is_eqn ps = 0%N ->
  gb g0 = [::] -> goal_hyps g = goal_hyps g0 ++ ps /\ gb g = [::].
Proof.
elim: ps g0 g => [|p ps IH] g0 g /=; first by case=> <-; rewrite cats0.
case E : (add_goal_hyp g0 p) => [g1|//]; rewrite bind_ok => H /eqP.
rewrite addn_eq0 eqb0 => /andP[np /eqP ns] G0.
have [E1 E2] : goal_hyps g1 = goal_hyps g0 ++ [:: p] /\ gb g1 = [::].
  move: E np; rewrite /add_goal_hyp /is_eqn; case: (aop p) => //; rewrite bind_ok G0 bind_ok => -[<-] //.
by have [-> ->] := IH _ _ H ns E2; rewrite E1 -catA.
Qed.

(** After the equation: later hypotheses are reduced by its basis. *)
Lemma promote_after_eqn ps g0 g e : foldM (@add_goal_hyp R L) g0 ps = Ok g -> count is_eqn ps = 0%N ->
  (all_true val (goal_hyps g0) e -> forall q, q \in gb g0 -> val q e = 0) ->
  all_true val (goal_hyps g) e = all_true val (goal_hyps g0) e && all_true val ps e.
Proof.
elim: ps g0 g => [|p ps IH] g0 g /=; first by case=> <-; rewrite andbT.
case E : (add_goal_hyp g0 p) => [g1|//]; rewrite bind_ok => H /eqP.
rewrite addn_eq0 eqb0 => /andP[np /eqP ns] Z0.
have [p' [E1 E2 E3]] : exists p', [/\ goal_hyps g1 = goal_hyps g0 ++ [:: p'], gb g1 = gb g0 &
  (if gb g0 is [::] then Ok p else inject (gb g0) p) = Ok p'].
  move: E np; rewrite /add_goal_hyp /is_eqn; case: (aop p) => //; rewrite bind_ok;
    match goal with |- bind ?C _ = _ -> _ => case E3 : C => [p'|//] end; rewrite bind_ok => -[<-] _;
    by exists p'.
have Tp : all_true val (goal_hyps g0) e -> atom_true val p' e = atom_true val p e.
  move=> /Z0 Z; move: E3 Z; case: (gb g0) => [|b B]; first by case=> <-.
  by move=> /atom_inject; exact.
have T1 : all_true val (goal_hyps g1) e = all_true val (goal_hyps g0) e && atom_true val p e.
  rewrite E1 /all_true all_cat /= andbT -/(all_true val _ e).
  by case T : (all_true val (goal_hyps g0) e) => //=; exact: Tp.
rewrite (IH _ _ H ns) ?T1 -?andbA //.
by move=> /andP[T0 _]; rewrite E2; exact: Z0.
Qed.

Lemma promote_one_eqn m ps g e : foldM (@add_goal_hyp R L) (Goal m [::] [::]) ps = Ok g ->
  (count is_eqn ps <= 1)%N -> all_true val (goal_hyps g) e = all_true val ps e.
Proof.
move=> H; rewrite leq_eqVlt ltnS leqn0 => /orP[/eqP C|/eqP C]; last first.
  by have [-> _] := promote_no_eqn H C erefl.
have [ps1 [q [ps2 [Eps C1 Cq C2]]]] : exists ps1 q ps2, [/\ ps = ps1 ++ q :: ps2,
    count is_eqn ps1 = 0%N, is_eqn q & count is_eqn ps2 = 0%N].
  elim: ps C {H} => //= p ps IH; case Ep : (is_eqn p) => /= C.
    by exists [::], p, ps; split=> //; lia.
  have [|ps1 [q [ps2 [-> C1 Cq C2]]]] := IH; first by lia.
  by exists (p :: ps1), q, ps2; split=> //=; rewrite Ep.
have foldM_cat : forall (l1 l2 : seq (atom L)) g0, foldM (@add_goal_hyp R L) g0 (l1 ++ l2) =
    let! g1 := foldM (@add_goal_hyp R L) g0 l1 in foldM (@add_goal_hyp R L) g1 l2.
  elim=> [|x l1 IH] l2 g0 //=.
  by case: (add_goal_hyp g0 x) => // g1; rewrite !bind_ok.
move: H; rewrite Eps foldM_cat.
case E1 : (foldM _ _ ps1) => [g1|//]; rewrite bind_ok /=.
case Eq' : (add_goal_hyp g1 q) => [g2|//]; rewrite bind_ok => H2.
have [/= Hg1 Gb1] := promote_no_eqn E1 C1 erefl.
have [l [Em Eg]] : exists l, mapM (inject (groebner_basis [:: apoly q])) ps1 = Ok l /\
    (goal_hyps g2 = l ++ [:: q] /\ gb g2 = groebner_basis [:: apoly q]).
  move: Eq' Cq; rewrite /add_goal_hyp /is_eqn Hg1 Gb1; case: (aop q) => //.
  by case Em : (mapM _ _) => [l|//]; rewrite !bind_ok => -[<-] _; exists l.
have Zq : atom_true val q e -> forall b, b \in groebner_basis [:: apoly q] -> val b e = 0.
  move: Cq; rewrite /is_eqn /atom_true; case: (aop q) => // _ /eqP Z.
  by apply: (val_gb LO) => p; rewrite inE => /eqP ->.
have T2 : all_true val (goal_hyps g2) e = all_true val ps1 e && atom_true val q e.
  rewrite Eg.1 /all_true all_cat /= andbT; case T : (atom_true val q e); rewrite ?andbF // !andbT.
  exact: (mapM_inject Em (Zq T)).
rewrite (promote_after_eqn H2 C2) ?T2; last first.
  by move=> /andP[_ T]; rewrite Eg.2; exact: Zq.
by rewrite /all_true all_cat /= andbA.
Qed.
End Sem.
End Facts.
