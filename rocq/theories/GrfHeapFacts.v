(** Proofs about atoms that are changed in place. *)
From mathcomp Require Import all_ssreflect all_algebra.
From mathcomp.zify Require Import zify.
From Coq Require Import String Permutation.
From Verif Require Import Py GrfModel GrfSpec GrfFacts GrfCheck GrfLoop GrfRun GrfHeap.

Set Implicit Arguments.
Unset Strict Implicit.
Unset Printing Implicit Defensive.
Import GRing.Theory Num.Theory Order.Theory.
Local Open Scope ring_scope.

Section Facts.
Variables (R : realDomainType) (L : lib R) (O : oracle L).
Variable solve : nat -> seq constraint -> seq nat -> res (nat -> bool).
Local Notation poly := (P L).
Local Notation asg := (dict [eqType of var] R).
Variable sample : addr -> option (goal L) -> seq poly -> seq (atom L) -> res (seq asg * seq poly).
Implicit Types (m : heap L) (s : hdecide L) (g : hgoal L).

Lemma upd_same m r a : upd m r a r = a. Proof. by rewrite /upd eqxx. Qed.
Lemma upd_other m r a r' : r' != r -> upd m r a r' = m r'. Proof. by rewrite /upd => /negbTE ->. Qed.
Lemma map_upd m r a (l : seq ref) : r \notin l -> map (upd m r a) l = map m l.
Proof. by move=> nr; apply/eq_in_map => x xl; apply: upd_other; apply: contraNneq nr => <-. Qed.

(** Injecting a list of distinct atoms. *)
Lemma inject_list B m l : uniq l ->
  (exists2 m', foldM (h_inject B) m l = Ok m' &
     mapM (inject B) (map m l) = Ok (map m' l) /\ forall r, r \notin l -> m' r = m r) \/
  exists e, foldM (h_inject B) m l = Err e /\ mapM (inject B) (map m l) = Err e.
Proof.
elim: l m => [|r l IH] m /=; first by left; exists m.
case/andP=> nr ul; rewrite /h_inject; case: (inject B (m r)) => [a|e]; last by right; exists e.
rewrite !bind_ok; case: (IH (upd m r a) ul) => [[m' -> [E H]]|[e [-> E]]]; rewrite map_upd // in E.
  left; exists m' => //; rewrite E bind_ok; split; first by rewrite (H _ nr) upd_same.
  by move=> x; rewrite inE negb_or => /andP[xr xl]; rewrite (H _ xl) upd_other.
by right; exists e; rewrite E.
Qed.

(** The heap operations show what the value operations compute. *)
Definition sim (A B : Type) (Q : A -> B -> Prop) (x : res A) (y : res B) : Prop :=
  match x, y with Ok a, Ok b => Q a b | Err e, Err e' => e = e' | _, _ => Logic.False end.
Lemma sim_bind (A B A' B' : Type) (Q : A -> B -> Prop) (Q' : A' -> B' -> Prop) x y (f : A -> res A') (h : B -> res B') :
  sim Q x y -> (forall a b, Q a b -> sim Q' (f a) (h b)) -> sim Q' (let! a := x in f a) (let! b := y in h b).
Proof. by case: x y => [a|e] [b|e'] //= H1 H2; apply: H2. Qed.
Lemma sim_eq (A : Type) (x : res A) : sim eq x x. Proof. by case: x. Qed.

Lemma add_sim m g r hs : uniq (hmain g :: hghyps g ++ r :: hs) ->
  sim (fun x y => view_goal x.1 x.2 = y /\ (hmain x.2 = hmain g /\ hghyps x.2 = hghyps g ++ [:: r]) /\
         forall r', r' \notin r :: hghyps g -> x.1 r' = m r')
    (h_add_goal_hyp m g r) (add_goal_hyp (view_goal m g) (m r)).
Proof.
rewrite /= mem_cat inE cat_uniq /= => /andP[/norP[mg /norP[mr mh]] /and3P[ug /norP[rg hg] /andP[rh uh]]].
rewrite /h_add_goal_hyp /add_goal_hyp /=.
have step2 (m1 : heap L) : (forall r', r' \notin hghyps g -> m1 r' = m r') -> forall B,
    sim (fun x y => view_goal x.1 x.2 = y /\ (hmain x.2 = hmain g /\ hghyps x.2 = hghyps g ++ [:: r]) /\
         forall r', r' \notin r :: hghyps g -> x.1 r' = m r')
      (let! m2 := (if hgb g is [::] then Ok m1 else h_inject (hgb g) m1 r) in
       Ok (m2, HGoal (hmain g) (hghyps g ++ [:: r]) B))
      (let! gh' := (if hgb g is [::] then Ok (m r) else inject (hgb g) (m r)) in
       Ok (Goal (m (hmain g)) (map m1 (hghyps g) ++ [:: gh']) B)).
  move=> H1 B; apply: (@sim_bind _ _ _ _ (fun m2 a => m2 r = a /\ forall r', r' != r -> m2 r' = m1 r')).
    case: (hgb g) => [|b gb]; first by rewrite /= H1.
    rewrite /h_inject (H1 r rg); case: (inject _ _) => [a|e] //=; rewrite upd_same; split=> // r' ne.
    exact: upd_other.
  move=> m2 a [Ea Eo] /=; split; last split=> //.
    rewrite /view_goal /= (Eo _ mr) (H1 _ mg) map_cat /= Ea; congr (Goal _ (_ ++ _) _).
    by apply/eq_in_map => x xg; apply: Eo; apply: contraNneq rg => <-.
  by move=> r'; rewrite inE negb_or => /andP[n1 n2]; rewrite Eo ?H1.
case: (aop (m r)); rewrite ?bind_ok /=; try by apply: step2.
case: (inject_list (groebner_basis [:: apoly (m r)]) m ug) => [[m1 -> [E H]]|[e [-> E]]]; rewrite E /= ?bind_ok //=.
by rewrite (H _ rg); apply: step2.
Qed.

Lemma perm_at (l : seq ref) i r : pyget l i = Ok r -> perm_eq (r :: take i l ++ drop i.+1 l) l.
Proof. by move=> E; rewrite [X in perm_eq _ X](pyget_split E) -cat1s perm_catCA. Qed.
Lemma distinct_at s i r : distinct s -> pyget (hhyps s) i = Ok r ->
  uniq (hmain (hdgoal s) :: hghyps (hdgoal s) ++ r :: (take i (hhyps s) ++ drop i.+1 (hhyps s))).
Proof.
move=> D E; rewrite (@perm_uniq _ _ (hmain (hdgoal s) :: hghyps (hdgoal s) ++ hhyps s)) //.
by rewrite perm_cons perm_cat2l perm_at.
Qed.
Lemma distinct_promote s i r g' : distinct s -> pyget (hhyps s) i = Ok r ->
  hmain g' = hmain (hdgoal s) -> hghyps g' = hghyps (hdgoal s) ++ [:: r] ->
  distinct (HDecide (take i (hhyps s) ++ drop i.+1 (hhyps s)) g' (horder s)).
Proof. by move=> D E E1 E2; rewrite /distinct [hdgoal _]/= [hhyps _]/= E1 E2 -catA; exact: distinct_at. Qed.

Lemma pyget_map (T T' : Type) (f : T -> T') (l : seq T) i : pyget (map f l) i = (let! x := pyget l i in Ok (f x)).
Proof. by rewrite /pyget -map_drop; case: (drop i l). Qed.

Definition shows (x : heap L * hdecide L) (y : decide L) : Prop := view x.1 x.2 = y /\ distinct x.2.
Lemma promote_sim m s i : distinct s -> sim shows (h_promote m s i) (promote_right (view m s) i).
Proof.
move=> D; rewrite /h_promote /promote_right [hyps _]/= pyget_map.
case E : (pyget (hhyps s) i) => [r|//]; rewrite !bind_ok.
have U := distinct_at D E.
have := add_sim m U; rewrite /sim.
case: (h_add_goal_hyp m (hdgoal s) r) => [[m' g']|e]; rewrite [dgoal _]/=;
  case: (add_goal_hyp _ _) => [g2|e2] //=.
case=> Eg [[E1 E2] Eo]; rewrite /shows /=; split; last exact: (distinct_promote D E E1 E2).
rewrite /view /= Eg -map_take -map_drop -map_cat; congr (Decide _ _ _).
apply/eq_in_map => x xI; apply: Eo; move: U => /= /andP[_]; rewrite cat_uniq => /and3P[_ N U].
rewrite inE negb_or; apply/andP; split.
  by move: U => /= /andP[nr _]; apply: contraNneq nr => <-.
by apply: contra N => xg; apply/hasP; exists x => //; rewrite inE xI orbT.
Qed.

Lemma auto_sim m s bads : distinct s -> sim shows (h_auto solve m s bads) (auto solve (view m s) bads).
Proof.
move=> D; rewrite /h_auto /auto; apply: (sim_bind (sim_eq _)) => cand _ <-.
by apply: (sim_bind (sim_eq _)) => i _ <-; exact: promote_sim.
Qed.
Lemma interact_sim m s bads cs : distinct s ->
  sim (fun x y => shows x.1.1 y.1.1 /\ x.1.2 = y.1.2 /\ x.2 = y.2)
    (h_interact solve m s bads cs) (interact solve (view m s) bads cs).
Proof.
move=> D; elim: cs => //= c cs IH; case: c => [||||i|] //.
- by apply: (sim_bind (sim_eq _)).
- apply: (sim_bind (sim_eq _)) => cand _ <-; apply: (sim_bind (sim_eq _)) => i _ <-.
  by apply: (sim_bind (promote_sim _ _ D)) => a b.
- rewrite size_map; case: ifP => // _.
  by apply: (sim_bind (promote_sim _ _ D)) => a b.
Qed.

Lemma check_sim fuel partial k eps cs top m s : distinct s ->
  sim (fun x y => x.1 = y.1 /\ shows x.2 y.2)
    (h_check O solve sample fuel partial k eps cs top m s) (check O solve sample fuel partial k eps cs top (view m s)).
Proof.
elim: fuel cs top m s => [|fuel IH] cs top m s D //=.
rewrite -map_comp; apply: (sim_bind (sim_eq _)) => sp _ <-; apply: (sim_bind (sim_eq _)) => ob _ <-.
case: (ob.2) => [bads|//].
have D1 : distinct (HDecide (hhyps s) (hdgoal s) ob.1) by exact: D.
case: cs => [l|].
  apply: (sim_bind (interact_sim m bads l D1)) => -[[[m2 s2] i] l'] [[t2 i'] l2'] /= [[<- D2] [-> ->]].
  by apply: (sim_bind (IH _ _ _ _ D2)) => -[r x] [r' y] /= [_ S].
apply: (sim_bind (auto_sim m bads D1)) => -[m2 s2] t2 /= [<- D2].
by apply: (sim_bind (IH _ _ _ _ D2)) => -[r x] [r' y] /= [_ S].
Qed.

(** ** What a check leaves alone *)
(** Atoms outside the hypotheses. *)
Lemma inject_frame B m l m' : foldM (h_inject B) m l = Ok m' -> forall r, r \notin l -> m' r = m r.
Proof.
elim: l m => [|x l IH] m /=; first by case=> ->.
move=> H; case: (bind_inv H) => m1 E {H} /IH H r; rewrite inE negb_or => /andP[rx /H ->].
by case: (bind_inv E) => a _ [<-]; exact: upd_other.
Qed.
Lemma add_frame m g r m' g' : h_add_goal_hyp m g r = Ok (m', g') ->
  hghyps g' = hghyps g ++ [:: r] /\ forall r', r' \notin hghyps g' -> m' r' = m r'.
Proof.
move=> H; case: (bind_inv H) => -[m1 B] E1 {H} H; case: (bind_inv H) => m2 E2 {H} [<- <-] /=.
split=> // r'; rewrite mem_cat inE negb_or => /andP[n1 n2].
have -> : m2 r' = m1 r'.
  by move: E2; case: (hgb g) => [|b l]; [case=> <-|move=> H; case: (bind_inv H) => a _ [<-]; exact: upd_other].
move: E1; case: (aop _); try by case=> <-.
by move=> H; case: (bind_inv H) => m3 E3 [<- _]; exact: (inject_frame E3).
Qed.
Definition used s : seq ref := hghyps (hdgoal s) ++ hhyps s.
Definition kept m s (x : heap L * hdecide L) : Prop :=
  {subset used x.2 <= used s} /\ forall r, r \notin used s -> x.1 r = m r.
Lemma promote_frame m s i x : h_promote m s i = Ok x -> kept m s x.
Proof.
move=> H; case: (bind_inv H) => r E {H} H; case: (bind_inv H) => -[m' g'] Ea {H} [<-].
have [Eg Eo] := add_frame Ea.
have Er y : (y \in hhyps s) = (y == r) || (y \in take i (hhyps s) ++ drop i.+1 (hhyps s)).
  by rewrite -(perm_mem (perm_at E)) inE.
have S : {subset hghyps g' <= used s}.
  by move=> y; rewrite Eg /used !mem_cat !inE Er; case/orP=> [->//|->]; rewrite !orbT.
split=> /= [y|y ny]; last by apply: Eo; apply: contra ny; exact: S.
by rewrite /used /= mem_cat => /orP[/S//|I]; rewrite mem_cat Er I !orbT.
Qed.
Lemma auto_frame m s bads x : h_auto solve m s bads = Ok x -> kept m s x.
Proof. by move=> H; case: (bind_inv H) => c _ {H} H; case: (bind_inv H) => i _ /promote_frame. Qed.
Lemma interact_frame m s bads cs x b l : h_interact solve m s bads cs = Ok (x, b, l) -> kept m s x.
Proof.
elim: cs => //= c cs IH; case: c => [||||i|] //.
- by move=> H; case: (bind_inv H).
- move=> H; case: (bind_inv H) => cand _ {H} H; case: (bind_inv H) => i _ {H} H.
  by case: (bind_inv H) => y /promote_frame K [<- _ _].
- case: ifP => // _ H; by case: (bind_inv H) => y /promote_frame K [<- _ _].
Qed.
Lemma kept_trans m s x y : kept m s x -> kept x.1 x.2 y -> kept m s y.
Proof.
case=> S1 E1 [S2 E2]; split=> [r /S2/S1//|r nr].
by rewrite E2 ?E1 //; apply: contra nr => /S1.
Qed.
Lemma check_frame fuel partial k eps cs top m s r x :
  h_check O solve sample fuel partial k eps cs top m s = Ok (r, x) -> forall y, y \notin used s -> x.1 y = m y.
Proof.
suff: h_check O solve sample fuel partial k eps cs top m s = Ok (r, x) -> kept m s x by move=> K /K[].
elim: fuel cs top m s r x => [|fuel IH] cs top m s r x //= H.
case: (bind_inv H) => sp _ {H} H; case: (bind_inv H) => -[o [bads|]] _ {H} /=; last by case=> _ <-; split.
have K1 y : kept m (HDecide (hhyps s) (hdgoal s) o) y -> kept m s y by [].
case: cs => [l|] H.
  case: (bind_inv H) => -[[y i] l'] /interact_frame/K1 K2 {H} H.
  by case: (bind_inv H) => -[r2 z] /IH K3 {H} [_ <-]; exact: (kept_trans K2 K3).
case: (bind_inv H) => y /auto_frame/K1 K2 {H} H.
by case: (bind_inv H) => -[r2 z] /IH K3 {H} [_ <-]; exact: (kept_trans K2 K3).
Qed.

(** Without equations nothing changes, however atoms are shared. *)
Definition still m s (x : heap L * hdecide L) : Prop :=
  [/\ x.1 =1 m, {subset hhyps x.2 <= hhyps s} & hgb (hdgoal x.2) = [::]].
Definition no_eqn m s : Prop := (forall r, r \in hhyps s -> ~~ is_eqn (m r)) /\ hgb (hdgoal s) = [::].
Lemma promote_still m s i x : no_eqn m s -> h_promote m s i = Ok x -> still m s x.
Proof.
case=> ne B0 H; case: (bind_inv H) => r E {H} H; case: (bind_inv H) => -[m' g'] Ea {H} [<-].
have Er y : (y \in hhyps s) = (y == r) || (y \in take i (hhyps s) ++ drop i.+1 (hhyps s)).
  by rewrite -(perm_mem (perm_at E)) inE.
have /ne : r \in hhyps s by rewrite Er eqxx.
move: Ea; rewrite /h_add_goal_hyp /is_eqn B0; case: (aop (m r)) => // [[<- <-]|[<- <-]|[<- <-]|[<- <-]|[<- <-]] _.
all: by split=> // y /= I; rewrite Er I orbT.
Qed.
Lemma auto_still m s bads x : no_eqn m s -> h_auto solve m s bads = Ok x -> still m s x.
Proof. by move=> N H; case: (bind_inv H) => c _ {H} H; case: (bind_inv H) => i _ /(promote_still N). Qed.
Lemma interact_still m s bads cs x b l : no_eqn m s -> h_interact solve m s bads cs = Ok (x, b, l) -> still m s x.
Proof.
move=> N; elim: cs => //= c cs IH; case: c => [||||i|] //.
- by move=> H; case: (bind_inv H).
- move=> H; case: (bind_inv H) => cand _ {H} H; case: (bind_inv H) => i _ {H} H.
  by case: (bind_inv H) => y /(promote_still N) K [<- _ _].
- case: ifP => // _ H; by case: (bind_inv H) => y /(promote_still N) K [<- _ _].
Qed.
Lemma still_no m s x : no_eqn m s -> still m s x -> no_eqn x.1 x.2.
Proof. by case=> ne _ [E S B]; split=> // r /S/ne; rewrite E. Qed.
Lemma check_still fuel partial k eps cs top m s r x :
  h_check O solve sample fuel partial k eps cs top m s = Ok (r, x) -> no_eqn m s -> x.1 =1 m.
Proof.
elim: fuel cs top m s r x => [|fuel IH] cs top m s r x //= H N.
case: (bind_inv H) => sp _ {H} H; case: (bind_inv H) => -[o [bads|]] _ {H} /=; last by case=> _ <-.
have N1 : no_eqn m (HDecide (hhyps s) (hdgoal s) o) by exact: N.
case: cs => [l|] H.
  case: (bind_inv H) => -[[y i] l'] /(interact_still N1) K {H} H; have [Ey _ _] := K.
  by case: (bind_inv H) => -[r2 z] /IH/(_ (still_no N1 K)) E {H} [_ <-] a; rewrite E.
case: (bind_inv H) => y /(auto_still N1) K {H} H; have [Ey _ _] := K.
by case: (bind_inv H) => -[r2 z] /IH/(_ (still_no N1 K)) E {H} [_ <-] a; rewrite E.
Qed.
End Facts.
