(** Bad subsets, the choice of hypotheses, and the main loop. *)
From mathcomp Require Import all_ssreflect all_algebra.
From mathcomp.zify Require Import zify.
From Coq Require Import String Permutation.
From Verif Require Import Py GrfModel GrfSpec GrfFacts.

Set Implicit Arguments.
Unset Strict Implicit.
Unset Printing Implicit Defensive.
Import GRing.Theory Num.Theory Order.Theory.
Local Open Scope ring_scope.

Lemma bind_inv (A B : Type) (m : res A) (k : A -> res B) (r : B) :
  bind m k = Ok r -> exists2 x, m = Ok x & k x = Ok r.
Proof. by case: m => //= x H; exists x. Qed.

Section Check.
Variables (R : realDomainType) (L : lib R).
Local Notation poly := (P L).
Local Notation asg := (dict [eqType of var] R).
Implicit Types (a h : atom L) (d : asg) (g : goal L) (s : decide L).

(** ** Bad subsets (C46-C48) *)

(** The hypotheses true at a sample. *)
Lemma true_indicesP i (hs : seq (atom L)) d l : true_indices i hs d = Ok l ->
  forall j, (j \in l) <-> exists2 h, pyget hs (j - i) = Ok h & (i <= j)%N /\ eval_atom h d = Ok (Some true).
Proof.
elim: hs i l => [|h hs IH] i l /=.
  by case=> <- j; split=> // -[h]; rewrite /pyget; case: (j - i)%N.
case E : (eval_atom h d) => [r|//]; rewrite bind_ok.
case E2 : (true_indices _ _ _) => [l'|//]; rewrite bind_ok => -[<-] j.
have H : (j \in l') <-> exists2 h', pyget (h :: hs) (j - i) = Ok h' &
    (i < j)%N /\ eval_atom h' d = Ok (Some true).
  rewrite (IH _ _ E2); split=> -[h' G [lt T]]; exists h' => //.
    by have -> : (j - i = (j - i.+1).+1)%N by lia.
  by move: G; have -> : (j - i = (j - i.+1).+1)%N by lia.
split.
  case: r E => [[]|] E.
  - rewrite inE => /orP[/eqP ->|/H[h' G [lt T]]]; first by exists h; rewrite ?subnn.
    by exists h' => //; split=> //; exact: ltnW.
  - by move=> /H[h' G [lt T]]; exists h' => //; split=> //; exact: ltnW.
  - by move=> /H[h' G [lt T]]; exists h' => //; split=> //; exact: ltnW.
case=> h' G [le T]; case: (ltngtP i j) le => // [lt _|eq _].
  have : j \in l' by apply/H; exists h'.
  by case: r {E} => [[]|] //; rewrite inE => ->; rewrite orbT.
move: G; rewrite eq subnn => -[Eh]; move: T; rewrite -Eh E => -[->].
by rewrite inE eqxx.
Qed.

Lemma true_indices_sub i (hs : seq (atom L)) d l : true_indices i hs d = Ok l ->
  subseq l (iota i (size hs)).
Proof.
elim: hs i l => [|h hs IH] i l /=; first by case=> <-.
case E : (eval_atom h d) => [r|//]; rewrite bind_ok.
case E2 : (true_indices _ _ _) => [l'|//]; rewrite bind_ok => -[<-].
have H := IH _ _ E2; case: r {E} => [[]|] /=; rewrite ?eqxx //.
all: case: l' H {E2} => // x l' H; case: eqP => // Ex; exact: (subseq_trans (subseq_cons _ _) H).
Qed.

Lemma true_indices_all (hs : seq (atom L)) d l : true_indices 0 hs d = Ok l ->
  size l = size hs -> forall h, List.In h hs -> eval_atom h d = Ok (Some true).
Proof.
move: 0%N => i; elim: hs i l => [|h hs IH] i l //=.
case E : (eval_atom h d) => [r|//]; rewrite bind_ok.
case E2 : (true_indices _ _ _) => [l'|//]; rewrite bind_ok => -[<-] Sz.
have S2 : (size l' <= size hs)%N by rewrite (leq_trans (size_subseq (true_indices_sub E2))) ?size_iota.
case: r E Sz => [[]|] E Sz; last 2 first.
- by exfalso; slia.
- by exfalso; slia.
by move=> h' [<- //|I]; apply: (IH _ _ E2) => //; move: Sz => /= -[].
Qed.

(** A sample that falsifies the goal, with the set of its true hypotheses. *)
Definition falsified s d (b : seq nat) : Prop :=
  eval_goal (dgoal s) d = Ok false /\ true_indices 0 (hyps s) d = Ok b.

Lemma bad_step_inv s bads d bads' : bad_step s bads d = Ok bads' ->
  (eval_goal (dgoal s) d = Ok true /\ bads' = bads) \/
  exists2 b, falsified s d b &
    [/\ (size b < size (hyps s))%N, (forall b', b' \in bads' -> b' \in bads \/ b' = b /\ b <> [::]) &
     (b <> [::] -> exists2 b', b' \in bads' & subset b b') /\
     (forall b', b' \in bads -> exists2 b'', b'' \in bads' & subset b' b'')].
Proof.
move=> H; case: (bind_inv H) => t Et {H}; case: t Et => Et; first by case=> <-; left.
move=> H; case: (bind_inv H) => b Eb {H}; case: eqP => // Sz H; right; exists b => //.
have Lt : (size b < size (hyps s))%N.
  have := size_subseq (true_indices_sub Eb); rewrite size_iota leq_eqVlt => /orP[/eqP //|//].
have Sub0 : forall b' : seq nat, subset b' b' by move=> b'; apply/allP.
move: H; case: ifP => [/andP[Nb Ne]|Nn] [<-]; split=> //.
- move=> b'; rewrite mem_cat mem_filter mem_undup inE => /orP[/andP[_ ->]|/eqP ->]; [by left|right].
  by split=> //; exact/eqP.
- split=> [_|b' Hb']; first by exists b; rewrite ?mem_cat ?inE ?eqxx ?orbT.
  case S : (subset b' b); first by exists b; rewrite ?mem_cat ?inE ?eqxx ?orbT.
  by exists b' => //; rewrite mem_cat mem_filter S mem_undup Hb'.
- by left.
- split=> [Ne|b' Hb']; last by exists b'.
  by move: Nn; case Hb : (b \in bads); [exists b|move=> /= /eqP].
Qed.

Lemma bad_fold_inv s bads (pts : seq asg) bads' : foldM (bad_step s) bads pts = Ok bads' ->
  [/\ forall b, b \in bads' -> b \in bads \/
        b <> [::] /\ exists2 d, List.In d pts & falsified s d b,
      forall b, b \in bads -> exists2 b', b' \in bads' & subset b b' &
      forall d b, List.In d pts -> falsified s d b ->
        (size b < size (hyps s))%N /\ (b <> [::] -> exists2 b', b' \in bads' & subset b b')].
Proof.
have sub_trans : forall b1 b2 b3 : seq nat, subset b1 b2 -> subset b2 b3 -> subset b1 b3.
  by move=> b1 b2 b3 /allP S1 /allP S2; apply/allP => x /S1 /S2.
have sub_refl : forall b : seq nat, subset b b by move=> b; apply/allP.
elim: pts bads => [|d pts IH] bads /=.
  by case=> <-; split=> // [b hb|b hb]; [left|exists b].
move=> H; case: (bind_inv H) => b1 E1 {H} /IH[I1 I2 I3].
have := bad_step_inv E1; case=> [[T Eb]|[b F [Sz J1 [J2 J3]]]].
  split=> [b /I1[|[Ne [d' Id' Fd']]]|b hb|d' b' [<-|Id'] F].
  - by rewrite Eb; left.
  - by right; split=> //; exists d' => //; right.
  - by apply: I2; rewrite Eb.
  - by case: F; rewrite T.
  - exact: (I3 _ _ Id' F).
split=> [b' /I1[/J1[|[-> Ne]]|[Ne [d' Id' Fd']]]|b' /J3[b2 /I2[b3 h3 s3] s2]|d' b' [<-|Id'] F'].
- by left.
- by right; split=> //; exists d => //; left.
- by right; split=> //; exists d' => //; right.
- by exists b3 => //; exact: (sub_trans _ b2).
- have -> : b' = b by case: F F' => _ E' [_]; rewrite E' => -[].
  split=> // Ne; have [b2 /I2[b3 h3 s3] s2] := J2 Ne.
  by exists b3 => //; exact: (sub_trans _ b2).
- exact: (I3 _ _ Id' F').
Qed.

(** Half of the antichain property: no set is contained in a later one. *)
Definition no_earlier_subset (bads : seq (seq nat)) : bool :=
  pairwise (fun b b' => ~~ subset b b') bads.

Lemma bad_fold_order s bads (pts : seq asg) bads' : foldM (bad_step s) bads pts = Ok bads' ->
  no_earlier_subset bads -> no_earlier_subset bads'.
Proof.
elim: pts bads => [|d pts IH] bads /=; first by case=> <-.
move=> H; case: (bind_inv H) => b1 E1 {H} F N; apply: (IH _ F).
move: E1; rewrite /bad_step => H; case: (bind_inv H) => t Et {H}; case: t Et => _; first by case=> <-.
move=> H; case: (bind_inv H) => b _ {H}; case: eqP => // _; case: ifP => // [/andP[Nb Ne]|_] [<-] //.
rewrite /no_earlier_subset pairwise_cat /= andbT; apply/andP; split.
  by rewrite allrel1r; apply/allP => b'; rewrite mem_filter => /andP[].
rewrite undup_id; first exact: pairwise_filter.
apply: (@pairwise_uniq _ (fun b b' => ~~ subset b b')) => // x.
by apply/negbTE; rewrite negbK; apply/allP.
Qed.

(** ** Local search *)
Variable O : oracle L.

Lemma foldl_dset (l acc : asg) : uniq (map fst (acc ++ l)) ->
  foldl (fun d kv => dset d kv.1 kv.2) acc l = acc ++ l.
Proof.
have dset_new : forall (acc : asg) k v, k \notin map fst acc -> dset acc k v = acc ++ [:: (k, v)].
  elim=> [|[k' v'] acc' IH] k v //=; rewrite inE negb_or => /andP[/negbTE -> /IH ->] //.
elim: l acc => [|[k v] l IH] acc; first by rewrite cats0.
move=> U; have Nk : k \notin map fst acc.
  by move: U; rewrite map_cat cat_uniq => /and3P[_]; rewrite /= negb_or => /andP[].
by rewrite [LHS]/= dset_new // IH -catA.
Qed.

Lemma vect2dict_zip (order : seq var) (v : seq R) d : uniq order -> vect2dict order v = Ok d ->
  [/\ d = zip order v, map fst d = order & size v = size order].
Proof.
move=> U; rewrite /vect2dict; case E : order => [//|x o]; rewrite -E.
case: eqP => // Sz [<-].
have F : unzip1 (zip order v) = order by rewrite unzip1_zip // Sz.
by rewrite foldl_dset //= -/unzip1 F.
Qed.

Lemma mapM_size (A B : Type) (f : A -> res B) (l : seq A) l' : mapM f l = Ok l' -> size l' = size l.
Proof.
elim: l l' => [|x l IH] l' /=; first by case=> <-.
move=> H; case: (bind_inv H) => y _ {H} H; case: (bind_inv H) => l2 /IH E {H} [<-] /=; by rewrite E.
Qed.

(** C56: there and back. *)
Lemma dget_notin d k : k \notin map fst d -> dget d k = Err KeyError.
Proof. by elim: d => //= -[k' x] d IH; rewrite inE negb_or => /andP[/negbTE /= -> /IH]. Qed.
Lemma dget_in d k : k \in map fst d -> exists x, dget d k = Ok x.
Proof.
elim: d => //= -[k' x] d IH; rewrite inE /=; case: (k == k') => /= [_|/IH //]; by exists x.
Qed.

Lemma roundtrip (order : seq var) d : d != [::] -> uniq (map fst d) ->
  order = [::] \/ perm_eq order (map fst d) ->
  exists v d', [/\ dict2vect order d = Ok v, vect2dict (var_order order d) v = Ok d' &
    forall k, dget d' k = dget d k].
Proof.
move=> ne U Ho; have Po : perm_eq (var_order order d) (map fst d).
  by rewrite /var_order; case: order Ho => // k o [].
rewrite /dict2vect; move: (var_order order d) Po => o Po.
have [v Ev] : exists v, mapM (dget d) o = Ok v.
  have : {subset o <= map fst d} by move=> k; rewrite (perm_mem Po).
  elim: o {Po} => [|k o IH] S; first by exists [::].
  have [|v Ev] := IH; first by move=> k' I; apply: S; rewrite inE I orbT.
  by have [x Ex] := dget_in (S k (mem_head _ _)); exists (x :: v); rewrite /= Ex /= Ev.
have Sz := mapM_size Ev; have Uo : uniq o by rewrite (perm_uniq Po).
have No : o != [::] by apply: contraNneq ne => E; move: (perm_size Po); rewrite E size_map; case: (d).
have [d' Ed] : exists d', vect2dict o v = Ok d'.
  by rewrite /vect2dict Sz eqxx; case: (o) No => // a l _; eexists.
exists v, d'; split=> // k; have [-> _ _] := vect2dict_zip Uo Ed.
have G : dget (zip o v) k = if k \in o then dget d k else Err KeyError.
  elim: o v Ev {Po Sz Uo No Ed} => [|a o IH] v /=; first by case=> <-.
  move=> H; case: (bind_inv H) => x Ex {H} H; case: (bind_inv H) => v' Ev' {H} [<-] /=.
  by rewrite inE; case: eqP => [->|_] //=; exact: IH.
rewrite G; case: ifP => // /negbT; rewrite (perm_mem Po) => /dget_notin -> //.
Qed.

Lemma perturb_keys w d : map fst (perturb_dict O w d) = map fst d.
Proof. by rewrite /perturb_dict; move: 0%N; elim: d => //= -[k v] d IH i /=; rewrite IH. Qed.

Lemma In_map (A B : Type) (f : A -> B) (l : seq A) y : List.In y (map f l) ->
  exists2 x, List.In x l & y = f x.
Proof. by elim: l => //= a l IH [<-|/IH[x I ->]]; [exists a; [left|]|exists x; [right|]]. Qed.

Lemma mapM_In (A B : Type) (f : A -> res B) (l : seq A) l' y : mapM f l = Ok l' ->
  List.In y l' -> exists2 x, List.In x l & f x = Ok y.
Proof.
elim: l l' => [|a l IH] l' /=; first by case=> <-.
move=> H; case: (bind_inv H) => b Eb {H} H; case: (bind_inv H) => bs Ebs {H} [<-] [<-|/(IH _ Ebs)[x I E]].
  by exists a => //; left.
by exists x => //; right.
Qed.

Lemma good_on_goalP (m : atom L) pts l d : good_on_goal m pts = Ok l -> List.In d l ->
  List.In d pts /\ exists2 r, eval_atom m d = Ok r & r <> Some true.
Proof.
elim: pts l => [|d' pts IH] l /=; first by case=> <-.
move=> H; case: (bind_inv H) => r Er {H} H; case: (bind_inv H) => l' El {H} [<-].
have H : List.In d l' -> (d' = d \/ List.In d pts) /\ exists2 r, eval_atom m d = Ok r & r <> Some true.
  by move=> /(IH _ El)[I X]; split=> //; right.
case: r Er => [[]|] Er // [<-|] //; split; try by left.
- by exists (Some false).
- by exists None.
Qed.

Lemma good_on_goal_size (m : atom L) pts l : good_on_goal m pts = Ok l -> (size l <= size pts)%N.
Proof.
elim: pts l => [|d' pts IH] l /=; first by case=> <-.
move=> H; case: (bind_inv H) => r Er {H} H; case: (bind_inv H) => l' /IH S {H} [<-].
by case: r {Er} => [[]|] //=; rewrite ?ltnS // (leq_trans S).
Qed.

Lemma chainP w order (hs : seq (atom L)) m n x l : chain O w order hs m n x = Ok l ->
  (size l <= n * 26)%N /\
  forall d, List.In d l -> (exists v, vect2dict order v = Ok d) /\
    exists2 r, eval_atom m d = Ok r & r <> Some true.
Proof.
elim: n x l => [|n IH] x l /=; first by case=> <-.
move=> H; case: (bind_inv H) => s Es {H} H; case: (bind_inv H) => l' El' {H} [<-].
have [Sz' In'] := IH _ _ El'.
move: Es; rewrite /chain_step => H; case: (bind_inv H) => ta _ {H} H; case: (bind_inv H) => a _ {H} H.
case: (bind_inv H) => e _ {H} H; case: (bind_inv H) => x' _ {H} H; case: (bind_inv H) => pts Ep {H} H.
case: (bind_inv H) => kept Ek {H} [<-] /=; split.
  rewrite size_cat mulSn leq_add //; have := good_on_goal_size Ek.
  by rewrite (mapM_size Ep).
move=> d /List.in_app_iff[/(good_on_goalP Ek)[I G]|/In'//]; split=> //.
by have [v _ Ev] := mapM_In Ep I; exists v.
Qed.

(** The points returned by the local search. *)
Lemma local_searchP w order (hs : seq (atom L)) m d o pts :
  local_search_sampling O w order hs m d = Ok (o, pts) ->
  o = var_order order d /\
  exists near far, [/\ pts = d :: near ++ far, size near = 25%N, (size far <= 52)%N,
    forall d', List.In d' near -> map fst d' = map fst d &
    forall d', List.In d' far -> (exists v, vect2dict o v = Ok d') /\
      exists2 r, eval_atom m d' = Ok r & r <> Some true].
Proof.
rewrite /local_search_sampling => H; case: (bind_inv H) => x Ex {H} H.
case: (bind_inv H) => l El {H} [<- <-]; split=> //.
exists [seq perturb_dict O (i :: 0%N :: w) d | i <- iota 0 25], l.
have [Sz In'] := chainP El; split=> //.
by move=> d' H; have [i _ ->] := In_map H; exact: perturb_keys.
Qed.

(** All of them assign the same variables. *)
Lemma local_search_keys w order (hs : seq (atom L)) m d o pts :
  local_search_sampling O w order hs m d = Ok (o, pts) ->
  uniq (map fst d) -> order = [::] \/ perm_eq order (map fst d) ->
  perm_eq o (map fst d) /\ forall d', List.In d' pts -> perm_eq (map fst d') (map fst d).
Proof.
move=> /local_searchP[Eo [near [far [-> _ _ Hn Hf]]]] U Ho.
have Po : perm_eq o (map fst d).
  by rewrite Eo /var_order; case: Ho => [->|]; [exact: perm_refl|case: (order) => //; move=> /perm_size /esym/size0nil ->].
have Uo : uniq o by rewrite (perm_uniq Po).
split=> // d' [<-|/List.in_app_iff[/Hn ->|/Hf[[v Ev] _]]]; rewrite ?perm_refl //.
by have [_ -> _] := vect2dict_zip Uo Ev.
Qed.
End Check.
