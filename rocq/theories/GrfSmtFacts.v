(** Facts about get_ring_var and perform_grf. *)
From mathcomp Require Import all_ssreflect all_algebra.
From mathcomp.zify Require Import zify.
From Coq Require Import String Permutation.
From Verif Require Import Py GrfModel GrfSpec GrfFacts GrfCheck GrfLoop GrfRun GrfSmt.

Set Implicit Arguments.
Unset Strict Implicit.
Unset Printing Implicit Defensive.
Import GRing.Theory Num.Theory Order.Theory.

(** ** C54 *)
Section Names.
Variable name : eqType.
Implicit Types (c : ctx name) (s : name).

Record good_ctx c : Prop := GoodCtx {
  good_keys : uniq (map fst (var_map c));
  good_vals : map snd (var_map c) = iota 0 (size (var_map c));
  good_nvars : nvars c = maxn 1 (size (var_map c))
}.

Lemma new_good : good_ctx (new_ctx name). Proof. by []. Qed.

Lemma dset_new (V : Type) (d : dict name V) s v : ~~ dmem d s -> dset d s v = rcons d (s, v).
Proof.
rewrite /dmem; elim: d => //= -[k w] d IH; rewrite inE negb_or /= => /andP[/negPf -> /IH ->].
by [].
Qed.

Lemma dget_rcons (V : Type) (d : dict name V) s v t : ~~ dmem d s ->
  dget (rcons d (s, v)) t = if t == s then Ok v else dget d t.
Proof.
rewrite /dmem; elim: d => //= -[k w] d IH; rewrite inE negb_or /= => /andP[ns /IH ->].
by case: eqP => // ->; rewrite eq_sym (negPf ns).
Qed.

Lemma dget_mem (V : Type) (d : dict name V) s : dmem d s -> exists v, dget d s = Ok v.
Proof.
rewrite /dmem; elim: d => //= -[k w] d IH; rewrite inE; case: eqP => [_ _|_ /=]; first by exists w.
exact: IH.
Qed.

Lemma dget_dmem (V : Type) (d : dict name V) s v : dget d s = Ok v -> dmem d s.
Proof.
by rewrite /dmem; elim: d => //= -[k w] d IH; rewrite inE; case: eqP.
Qed.

Lemma get_ring_varP c s : good_ctx c -> exists c' v, [/\ get_ring_var c s = Ok (c', v), good_ctx c',
  dget (var_map c') s = Ok v, forall t w, dget (var_map c) t = Ok w -> dget (var_map c') t = Ok w &
  map fst (var_map c') = if dmem (var_map c) s then map fst (var_map c) else rcons (map fst (var_map c)) s].
Proof.
move=> G; rewrite /get_ring_var; case: ifP => M.
  by have [v Ev] := dget_mem M; exists c, v; rewrite Ev.
have N : ~~ dmem (var_map c) s by rewrite M.
have [U V E] := G.
have keep t w d : dget (var_map c) t = Ok w -> dget (rcons (var_map c) (s, d)) t = Ok w.
  move=> Et; rewrite dget_rcons //; case: eqP => // Ets; exfalso; move/negP: N; apply.
  by rewrite -Ets; apply: dget_dmem Et.
have same : (if size (var_map c) < nvars c then nvars c else (nvars c).+1) = maxn 1 (size (var_map c)).+1 /\
    (if size (var_map c) < nvars c then size (var_map c) else nvars c) = size (var_map c).
  by rewrite E; split; case: ifP; lia.
have G' n v : n = maxn 1 (size (var_map c)).+1 -> v = size (var_map c) ->
    good_ctx (Ctx n (rcons (var_map c) (s, v))).
  move=> -> ->; split=> /=.
  - by rewrite map_rcons rcons_uniq U andbT.
  - by rewrite map_rcons V size_rcons -[in RHS]addn1 iotaD cats1 add0n.
  - by rewrite size_rcons.
case: ifP same => lt [En Ev]; rewrite dset_new //; do 2!eexists; split; try reflexivity.
- exact: G'.
- by rewrite dget_rcons // eqxx.
- by move=> t w; exact: keep.
- by rewrite map_rcons.
- exact: G'.
- by rewrite dget_rcons // eqxx.
- by move=> t w; exact: keep.
- by rewrite map_rcons.
Qed.

Lemma lookupsP c l : good_ctx c -> exists c' vs, [/\ lookups c l = Ok (c', vs), good_ctx c',
  size vs = size l, forall s v, (s, v) \in zip l vs -> dget (var_map c') s = Ok v &
  (forall t w, dget (var_map c) t = Ok w -> dget (var_map c') t = Ok w) /\
  map fst (var_map c') =i map fst (var_map c) ++ l].
Proof.
elim: l c => [|s l IH] c G /=.
  by exists c, [::]; split=> //; split=> // k; rewrite cats0.
have [c1 [v [E1 G1 D1 K1 M1]]] := get_ring_varP s G.
have [c2 [vs [E2 G2 S2 D2 [K2 M2]]]] := IH _ G1.
exists c2, (v :: vs); rewrite E1 /= E2 /=; split=> //.
- by rewrite S2.
- by move=> t w; rewrite inE => /orP[/eqP[-> ->]|/D2 //]; exact: K2.
split=> [t w /K1 /K2 //|k]; rewrite M2 M1 !mem_cat inE; case: ifP => M.
  by case: eqP => [->|//]; rewrite -/(dmem _ _) M.
by rewrite mem_rcons inE; case: (k == s); case: (k \in l); rewrite ?orbT ?orbF.
Qed.

Lemma good_inj c s t v : good_ctx c -> dget (var_map c) s = Ok v -> dget (var_map c) t = Ok v -> s = t.
Proof.
move=> [U V _]; have UV : uniq (map snd (var_map c)) by rewrite V iota_uniq.
elim: (var_map c) U UV {V} => //= -[k w] d IH /andP[_ U] /andP[nw UV].
have N x : dget d x = Ok v -> v \in map snd d.
  elim: d {IH U UV nw} => //= -[k' w'] d IHd; case: eqP => [_ [->]|_ /IHd]; rewrite inE ?eqxx // => ->.
  by rewrite orbT.
case: eqP => [-> [Ew]|_ Es]; case: eqP => [-> //|_].
- by move=> /N; rewrite -Ew (negPf nw).
- by move=> [Ew]; move/N: Es; rewrite -Ew (negPf nw).
- by move=> Et; exact: IH.
Qed.

Lemma good_lt c s v : good_ctx c -> dget (var_map c) s = Ok v -> (v < size (var_map c))%N.
Proof.
case=> _ V _ E; have : v \in map snd (var_map c).
  elim: (var_map c) E {V} => //= -[k' w'] d IHd; case: eqP => [_ [->]|_ /IHd]; rewrite inE ?eqxx // => ->.
  by rewrite orbT.
by rewrite V mem_iota add0n.
Qed.

Theorem names_injective (l : seq name) : exists c vs, [/\ lookups (new_ctx name) l = Ok (c, vs),
  size vs = size l, nvars c = maxn 1 (size (undup l)),
  all (fun v => v < nvars c)%N vs &
  forall s v t w, (s, v) \in zip l vs -> (t, w) \in zip l vs -> (v == w) = (s == t)].
Proof.
have [c [vs [E G S D [_ M]]]] := lookupsP l new_good.
have Sz : size (var_map c) = size (undup l).
  have -> : size (var_map c) = size (map fst (var_map c)) by rewrite size_map.
  apply/perm_size/uniq_perm; [exact: good_keys|exact: undup_uniq|].
  by move=> k; rewrite M mem_undup.
exists c, vs; split=> //.
- by rewrite good_nvars // Sz.
- apply/allP => v vI; have /(nthP 0)[i iB Ev] := vI.
  have [s0 Es0] : exists s0 : name, True by case: (l) S iB => [|s l' _ _]; [case: (vs)|exists s].
  have /D /(good_lt G) lt : (nth s0 l i, v) \in zip l vs.
    by rewrite -Ev -nth_zip // mem_nth // size_zip -S minnn.
  by rewrite good_nvars // leq_max lt orbT.
move=> s v t w /D Es /D Et; apply/eqP/eqP => [Evw|Est].
  by apply: (good_inj G Es); rewrite Evw.
by move: Et; rewrite -Est Es => -[].
Qed.
End Names.

(** ** C52, C53 *)
Section Perform.
Local Open Scope ring_scope.
Variables (R : realDomainType) (L : lib R) (O : oracle L).
Local Notation poly := (P L).
Local Notation asg := (dict [eqType of var] R).
Local Notation ids := (map (@aid R L)).
Variable solve : nat -> seq constraint -> seq nat -> res (nat -> bool).
Variable sample : addr -> option (goal L) -> seq poly -> seq (atom L) -> res (seq asg * seq poly).
Implicit Types (l antecedent succedent : seq (atom L)) (s : decide L).

(** The formulas of [l] whose position is not in [h]. *)
Definition unhidden (T : Type) (h : seq nat) (l : seq T) : seq T :=
  [seq x.2 | x <- [seq x <- zip (iota 0 (size l)) l | x.1 \notin h]].

Lemma hide_indicesE i l hide : hide_indices i l hide =
  [seq j <- iota i (size l) | nth 0%N (ids l) (j - i) \in ids hide].
Proof.
elim: l i => //= a l IH i; rewrite subnn IH.
have -> : [seq j <- iota i.+1 (size l) | nth 0%N (aid a :: ids l) (j - i) \in ids hide] =
    [seq j <- iota i.+1 (size l) | nth 0%N (ids l) (j - i.+1) \in ids hide].
  apply: eq_in_filter => j; rewrite mem_iota => /andP[lt _].
  by have -> : (j - i = (j - i.+1).+1)%N by lia.
by case: ifP.
Qed.

Lemma mem_hide l hide j : (j \in hide_indices 0 l hide) = (j < size l)%N && (nth 0%N (ids l) j \in ids hide).
Proof. by rewrite hide_indicesE mem_filter mem_iota subn0 andbC. Qed.

Lemma hide_sorted l hide : sorted ltn (hide_indices 0 l hide).
Proof. by rewrite hide_indicesE; apply: sorted_filter (iota_ltn_sorted _ _); exact: ltn_trans. Qed.

Lemma ids_negate l : ids [seq negate h | h <- l] = ids l.
Proof. by rewrite -map_comp. Qed.

Lemma perform_inv fuel k eps cs top order antecedent succedent ha hs s' :
  perform_grf O solve sample fuel k eps cs top order antecedent succedent = Ok (ha, hs, s') ->
  exists pre g r, let ante := antecedent ++ [seq negate h | h <- rev pre] in
  [/\ succedent = rcons pre g,
      check O solve sample fuel true k eps cs top (Decide ante (Goal g [::] [::]) order) = Ok (r, s'),
      ha = hide_indices 0 ante (hyps s') &
      hs = hide_indices 0 (rcons [seq negate h | h <- pre] g) (hyps s')].
Proof.
rewrite /perform_grf; case: (lastP succedent) => [//|pre g]; rewrite size_rcons ltnS.
have E0 : (if (0 < size pre)%N then rev (rcons pre g) else rcons pre g) = g :: rev pre.
  by case: (pre) => // a l; rewrite rev_rcons.
have E1 : (if (0 < size pre)%N then [seq negate h | h <- rev pre] else [::]) = [seq negate h | h <- rev pre].
  by case: (pre) => // a l.
rewrite E0 [behead _]/= E1 [pyget _ _]/= bind_ok => H; case: (bind_inv H) => -[r s2] Ec {H} [<- <- <-].
exists pre, g, r; split=> //; congr (hide_indices 0 _ _).
by rewrite /= take0 /= rev_cons -map_rev revK.
Qed.

Lemma add_goal_hyp_ids g h g' : add_goal_hyp g h = Ok g' ->
  main_goal g' = main_goal g /\ ids (goal_hyps g') = rcons (ids (goal_hyps g)) (aid h).
Proof.
have inj_id B a a' : inject (L := L) B a = Ok a' -> aid a' = aid a by case: B => // b B [<-].
rewrite /add_goal_hyp => H; case: (bind_inv H) => hB EB {H} H; case: (bind_inv H) => gh' Eh {H} [<-] /=.
have -> : aid h = aid gh' by case: (gb g) Eh => [[<-] //|b B /inj_id].
rewrite map_cat cats1 /=; split=> //; congr rcons.
case: (aop h) EB; try by case=> <-.
move=> H; case: (bind_inv H) => hs' Em {H} [<-] /=.
elim: (goal_hyps g) hs' Em => [|a l IH] hs' /=; first by case=> <-.
move=> H; case: (bind_inv H) => a' /inj_id Ea {H} H; case: (bind_inv H) => l' /IH El {H} [<-].
by rewrite /= Ea El.
Qed.

Lemma promote_ids ps g g' : foldM (@add_goal_hyp R L) g ps = Ok g' ->
  main_goal g' = main_goal g /\ ids (goal_hyps g') = ids (goal_hyps g) ++ ids ps.
Proof.
elim: ps g => [|p ps IH] g /=; first by case=> <-; rewrite cats0.
move=> H; case: (bind_inv H) => g1 /add_goal_hyp_ids[M1 I1] {H} /IH[-> ->].
by rewrite M1 I1 cat_rcons.
Qed.

Lemma perm_ids l l' : Permutation l l' -> perm_eq (ids l) (ids l').
Proof.
elim=> [|x l1 l2 _|x y l1|l1 l2 l3 _ + _] //=.
- by rewrite perm_cons.
- by apply/permP => p /=; rewrite addnCA.
- by move=> A B; exact: seq.perm_trans A B.
Qed.

(** The unhidden formulas are the main goal and the promoted ones. *)
Theorem perform_hides fuel k eps cs top order antecedent succedent ha hs s' :
  perform_grf O solve sample fuel k eps cs top order antecedent succedent = Ok (ha, hs, s') ->
  uniq (ids (antecedent ++ succedent)) ->
  let used := aid (main_goal (dgoal s')) :: ids (goal_hyps (dgoal s')) in
  let n := size antecedent in let m := size succedent in
  [/\ forall i, (i < n)%N -> (i \in ha) = (nth 0%N (ids antecedent) i \notin used),
      forall j, (j < m)%N -> (j \in hs) = (nth 0%N (ids succedent) j \notin used),
      forall j, (j \in hs) = (j.+1 < m)%N && (n + (m - j.+2) \in ha)%N,
      sorted ltn ha && all (fun i => i < n + m.-1)%N ha &
      sorted ltn hs && all (fun j => j < m.-1)%N hs].
Proof.
move=> /perform_inv[pre [g [r [-> /check_result[[ps Ep [Pp _]] _] -> ->]]]] U used n m.
have [Mg Ig] := promote_ids Ep; rewrite [main_goal _]/= in Mg; rewrite [goal_hyps (Goal _ _ _)]/= in Ig.
rewrite [map _ [::]]/= cat0s in Ig; rewrite [hyps (Decide _ _ _)]/= in Pp.
have Eu : used = aid g :: ids ps by rewrite /used Mg Ig.
have Em : m = (size pre).+1 by rewrite /m size_rcons.
have Pi : perm_eq (ids ps ++ ids (hyps s')) (ids antecedent ++ rev (ids pre)).
  by have := perm_ids Pp; rewrite !map_cat ids_negate map_rev.
have Ui : uniq (ids antecedent ++ rev (ids pre)) /\ aid g \notin ids antecedent ++ rev (ids pre).
  have -> : (uniq (ids antecedent ++ rev (ids pre)) /\ aid g \notin ids antecedent ++ rev (ids pre)) <->
    uniq (aid g :: ids antecedent ++ rev (ids pre)) by rewrite /=; split=> [[-> ->]|/andP[]].
  apply: etrans U; apply: perm_uniq; rewrite map_cat map_rcons -cats1 catA -cat1s perm_catC.
  by rewrite perm_cat2r perm_cat2l perm_rev.
have {Ui} [Ui Ng] := Ui.
have Up : uniq (ids ps ++ ids (hyps s')) by rewrite (perm_uniq Pi).
have key x : x \in ids antecedent ++ rev (ids pre) -> (x \in ids (hyps s')) = (x \notin used).
  move=> xI; rewrite Eu inE negb_or.
  have -> : x != aid g by apply: contraNneq Ng => <-.
  move: xI; rewrite -(perm_mem Pi) mem_cat; move: Up; rewrite cat_uniq => /and3P[_ /hasPn D _].
  by case: (boolP (x \in ids (hyps s'))) => [/D /= -> //|_]; rewrite orbF => ->.
have Ngh : aid g \notin ids (hyps s').
  by apply: contra Ng => I; rewrite -(perm_mem Pi) mem_cat I orbT.
have Sa : size (antecedent ++ [seq negate h | h <- rev pre]) = (n + size pre)%N.
  by rewrite size_cat size_map size_rev.
have ga i : (i < n)%N -> nth 0%N (ids (antecedent ++ [seq negate h | h <- rev pre])) i = nth 0%N (ids antecedent) i.
  by move=> lt; rewrite map_cat nth_cat size_map lt.
have gs j : nth 0%N (ids (rcons [seq negate h | h <- pre] g)) j = nth 0%N (ids (rcons pre g)) j.
  by rewrite !map_rcons ids_negate.
have gr j : (j < size pre)%N -> nth 0%N (ids (antecedent ++ [seq negate h | h <- rev pre])) (n + (m - j.+2)) =
    nth 0%N (ids (rcons pre g)) j.
  move=> lt; rewrite map_cat nth_cat size_map -/n ltnNge leq_addr /= addKn ids_negate map_rev.
  rewrite nth_rev size_map; last by rewrite Em; lia.
  rewrite map_rcons nth_rcons size_map lt; congr nth; rewrite Em; lia.
split.
- move=> i lt; rewrite mem_hide Sa (ltn_addr _ lt) ga //; apply: key.
  by rewrite mem_cat mem_nth // size_map.
- move=> j lt; rewrite mem_hide size_rcons size_map -Em lt gs /= map_rcons nth_rcons size_map.
  case: ltnP => lj; first by apply: key; rewrite mem_cat mem_rev mem_nth ?orbT // size_map.
  have -> : j == size pre by rewrite eqn_leq lj -ltnS -Em lt.
  by rewrite (negPf Ngh) Eu inE eqxx.
- move=> j; rewrite !mem_hide size_rcons size_map Sa gs Em !ltnS -Em.
  case: (ltnP j (size pre)) => lj.
    by rewrite (ltnW lj) gr // ltn_add2l Em /=; case: leqP => //; lia.
  case: (leqP j (size pre)) => //= le.
  have -> : j = size pre by apply/eqP; rewrite eqn_leq le lj.
  by rewrite map_rcons nth_rcons size_map ltnn eqxx (negPf Ngh).
- rewrite hide_sorted /=; apply/allP => i; rewrite mem_hide Sa => /andP[lt _].
  by rewrite Em.
rewrite hide_sorted /=; apply/allP => j; rewrite mem_hide size_rcons size_map gs Em ltnS /= => /andP[le].
rewrite map_rcons nth_rcons size_map; case: ltnP => // lj.
have -> : j == size pre by rewrite eqn_leq le lj.
by rewrite (negPf Ngh).
Qed.

Lemma In_unhidden (T : Type) h (l : seq T) x :
  List.In x (unhidden h l) <-> exists2 i, i \notin h & pyget l i = Ok x.
Proof.
rewrite /unhidden; set k := 0%N.
have -> : (exists2 i, i \notin h & pyget l i = Ok x) <-> (exists2 i, (i + k)%N \notin h & pyget l i = Ok x).
  by split=> -[i Ni Ei]; exists i => //; move: Ni; rewrite addn0.
move: k; elim: l => [|y l IH] k /=; first by split=> // -[[|i]].
have step : (exists2 i, (i + k)%N \notin h & pyget (y :: l) i = Ok x) <->
    (k \notin h /\ y = x) \/ exists2 i, (i + k.+1)%N \notin h & pyget l i = Ok x.
  split=> [[[|i] Ni Ei]|[[Nk <-]|[i Ni Ei]]].
  - by left; case: Ei.
  - by right; exists i; rewrite ?addnS.
  - by exists 0%N.
  - by exists i.+1; rewrite ?addSn -?addnS.
rewrite step -IH; case: ifP => Nk /=; split.
- by case=> [|I]; [left|right].
- by case=> [[_ ->]|I]; [left|right].
- by move=> I; right.
- by case=> [[]|].
Qed.

Lemma pyget_ids l i x : pyget l i = Ok x -> (i < size l)%N /\ nth 0%N (ids l) i = aid x.
Proof.
rewrite /pyget => H; have lt : (i < size l)%N.
  by rewrite ltnNge; apply/negP => le; move: H; rewrite drop_oversize.
split=> //; move: H; case: l lt => // y l lt; rewrite (drop_nth y lt) => -[<-].
by rewrite (nth_map y).
Qed.

Lemma In_pyget (T : Type) (l : seq T) x : List.In x l -> exists i, pyget l i = Ok x.
Proof. by elim: l => //= y l IH [->|/IH[i Ei]]; [exists 0%N|exists i.+1]. Qed.

Lemma In_ids l x : List.In x l -> aid x \in ids l.
Proof. by elim: l => //= y l IH [->|/IH I]; rewrite inE ?eqxx // I orbT. Qed.

Section Truth.
Variables (K : realDomainType) (inj : R -> K) (val : poly -> (var -> K) -> K).
Hypothesis LO : lib_ok inj val.

(** Where the final goal holds, so does the sequent that is left when the
    hidden formulas are taken out. *)
Theorem perform_sound fuel k eps cs top order antecedent succedent ha hs s' :
  perform_grf O solve sample fuel k eps cs top order antecedent succedent = Ok (ha, hs, s') ->
  uniq (ids (antecedent ++ succedent)) ->
  forall e, goal_true val (dgoal s') e ->
  all_true val (unhidden ha antecedent) e ==> has (fun a => atom_true val a e) (unhidden hs succedent).
Proof.
move=> E U e T; have [Ha Hs _ _ _] := perform_hides E U.
have [pre [g [r [Es /check_result[[ps Ep [Pp _]] _] _ _]]]] := perform_inv E.
have [Mg Ig] := promote_ids Ep; rewrite [main_goal _]/= in Mg; rewrite [goal_hyps (Goal _ _ _)]/= in Ig.
rewrite [map _ [::]]/= cat0s in Ig; rewrite [hyps (Decide _ _ _)]/= in Pp; rewrite Mg Ig in Ha Hs.
have [_ Im] := promote_implied LO e Ep.
apply/implyP => Ta; apply: contraT => Nf.
have Nf' a : List.In a (unhidden hs succedent) -> ~~ atom_true val a e.
  move: Nf => + Ia; elim: (unhidden hs succedent) Ia => //= b l IH Ib; rewrite negb_or => /andP[Nb /IH{}IH].
  by case: Ib => [<-|/IH].
have keptS i a : pyget succedent i = Ok a -> aid a \in aid g :: ids ps -> ~~ atom_true val a e.
  move=> Ei Ia; apply: Nf'; apply/In_unhidden; exists i => //.
  by have [lt Eid] := pyget_ids Ei; rewrite Hs // Eid Ia.
have Ng : ~~ atom_true val g e.
  apply: (@keptS (size pre)); last by rewrite inE eqxx.
  by rewrite Es /pyget -cats1 drop_size_cat.
have /Im Tg : all_true val ps e.
  apply: all_In => a Ia; have : List.In a (antecedent ++ [seq negate h | h <- rev pre]).
    by apply: (Permutation_in _ Pp); apply: List.in_or_app; left.
  move=> Ja; case: (List.in_app_or _ _ _ Ja) => Jb; [have [i Ei] := In_pyget Jb|have [b Ib Eb] := In_map Jb].
    apply: (In_all Ta); apply/In_unhidden; exists i => //.
    by have [lt Eid] := pyget_ids Ei; rewrite Ha // Eid inE In_ids ?orbT.
  rewrite Eb atom_negate.
  have [i Ei] : exists i, pyget succedent i = Ok b.
    apply: In_pyget; rewrite Es -cats1; apply: List.in_or_app; left.
    elim/last_ind: (pre) Ib => // l x IHl; rewrite rev_rcons -cats1 /= => -[->|/IHl I]; apply: List.in_or_app.
      by right; left.
    by left.
  apply: keptS Ei _; rewrite inE; apply/orP; right.
  by have := In_ids Ia; rewrite Eb.
by move: T; rewrite /goal_true Tg Mg (negPf Ng).
Qed.
End Truth.

Lemma size_hide (U : seq nat) n : sorted ltn U -> all (fun i => i < n)%N U ->
  size U = count (fun i => i \in U) (iota 0 n).
Proof.
move=> /sorted_uniq Su /allP A; rewrite -size_filter; apply/perm_size/uniq_perm.
- by apply: Su; [exact: ltn_trans|exact: ltnn].
- by rewrite filter_uniq ?iota_uniq.
by move=> i; rewrite mem_filter mem_iota /= add0n; case: (boolP (i \in U)) => // /A ->.
Qed.

Lemma iota_rev q : iota 0 q = [seq (q - j.+1)%N | j <- rev (iota 0 q)].
Proof.
apply: (@eq_from_nth _ 0%N) => [|i]; rewrite ?size_map ?size_rev // size_iota => lt.
rewrite (nth_map 0%N) ?size_rev ?size_iota // nth_rev ?size_iota // !nth_iota; lia.
Qed.

(** The lengths: a hidden formula of the succedent counts twice. *)
Theorem perform_counts fuel k eps cs top order antecedent succedent ha hs s' :
  perform_grf O solve sample fuel k eps cs top order antecedent succedent = Ok (ha, hs, s') ->
  uniq (ids (antecedent ++ succedent)) ->
  let hidden_antecedent := count (fun i => i \in ha) (iota 0 (size antecedent)) in
  size ha = (hidden_antecedent + size hs)%N /\
  hides (size ha, size hs) = (hidden_antecedent + 2 * size hs)%N /\
  size (hyps s') = size ha.
Proof.
move=> E U hidden; have [Ha Hs Hsa /andP[Sa Ba] /andP[Ss Bs]] := perform_hides E U.
have Eha : size ha = (hidden + size hs)%N.
  rewrite (size_hide Sa Ba) iotaD count_cat -/hidden; congr (_ + _)%N.
  rewrite (size_hide Ss Bs) add0n -[X in iota X _]addn0 iotaDl count_map.
  rewrite {1}iota_rev.
  rewrite count_map count_rev; apply: eq_in_count => j; rewrite mem_iota /= add0n => lt.
  rewrite Hsa; have -> : (j.+1 < size succedent)%N by lia.
  by have -> : ((size succedent).-1 - j.+1 = size succedent - j.+2)%N by lia.
split=> //; split; first by rewrite /hides /= Eha; lia.
have [pre [g [r [Es /check_result[[ps Ep [Pp [M EM]]] _] Eh _]]]] := perform_inv E.
rewrite Eh -(size_map (@aid R L)) hide_indicesE.
rewrite [hyps (Decide _ _ _)]/= in EM; set ante := antecedent ++ _ in EM Pp *.
have Ui : uniq (ids ante).
  move: U; rewrite Es map_cat map_rcons -cats1 catA cats1 rcons_uniq => /andP[_].
  by rewrite /ante map_cat ids_negate map_rev; apply: etrans; apply: perm_uniq; rewrite perm_cat2l perm_rev.
rewrite EM map_mask size_filter.
transitivity (count (fun x => x \in mask M (ids ante)) (ids ante)).
  rewrite -size_filter; congr size; apply: (subseq_uniqP Ui); exact: mask_subseq.
rewrite -{2}(mkseq_nth 0%N (ids ante)) /mkseq count_map size_map; apply: eq_count => i /=.
by rewrite subn0.
Qed.

(** In automatic mode some formula is hidden, unless there is only the goal. *)
Theorem perform_hides_some fuel k eps top order antecedent succedent ha hs s' :
  exact_solver solve ->
  perform_grf O solve sample fuel k eps None top order antecedent succedent = Ok (ha, hs, s') ->
  uniq (ids (antecedent ++ succedent)) -> (1 < size antecedent + size succedent)%N -> ha <> [::].
Proof.
move=> SE E U lt; have [_ [_ Sz]] := perform_counts E U.
have [pre [g [r [Es Ec _ _]]]] := perform_inv E.
have := check_last SE Ec; rewrite [hyps (Decide _ _ _)]/= => N Eh; apply: N; last first.
  by apply/nilP; rewrite /nilp Sz Eh.
move=> /(congr1 size); rewrite size_cat size_map size_rev /=; move: lt; rewrite Es size_rcons; lia.
Qed.
End Perform.

Section Props.
Local Open Scope ring_scope.
Variables (R : realDomainType) (L : lib R) (O : oracle L).
Local Notation asg := (dict [eqType of var] R).
Variable solve : nat -> seq constraint -> seq nat -> res (nat -> bool).
Variable sample : addr -> option (goal L) -> seq (P L) -> seq (atom L) -> res (seq asg * seq (P L)).
Variables (fuel k : nat) (eps : R) (cs : option (seq command)) (top : seq (P L)) (order : seq var).
Variables (antecedent succedent : seq (atom L)) (ha hs : seq nat) (s' : decide L).
Hypothesis E : perform_grf O solve sample fuel k eps cs top order antecedent succedent = Ok (ha, hs, s').
Hypothesis U : uniq (map (@aid R L) (antecedent ++ succedent)).

Lemma perform_indices : let n := size antecedent in let m := size succedent in
  [/\ sorted ltn ha, sorted ltn hs, all (fun i => i < n + m.-1)%N ha, all (fun j => j < m.-1)%N hs &
      forall j, (j \in hs) = (j.+1 < m)%N && (n + (m - j.+2) \in ha)%N].
Proof. by have [_ _ H /andP[Sa Ba] /andP[Ss Bs]] := perform_hides E U. Qed.

Lemma perform_unhidden : let used := map (@aid R L) (main_goal (dgoal s') :: goal_hyps (dgoal s')) in
  (forall i, (i < size antecedent)%N -> (i \notin ha) = (nth 0%N (map (@aid R L) antecedent) i \in used)) /\
  (forall j, (j < size succedent)%N -> (j \notin hs) = (nth 0%N (map (@aid R L) succedent) j \in used)).
Proof.
have [Ha Hs _ _ _] := perform_hides E U; split=> [i lt|j lt]; first by rewrite Ha // negbK.
by rewrite Hs // negbK.
Qed.

Lemma size_unhidden (T : Type) h (l : seq T) : (size (unhidden h l) + count (fun i => i \in h) (iota 0 (size l)) = size l)%N.
Proof.
rewrite /unhidden size_map size_filter; move: 0%N; elim: l => //= x l IH i.
by rewrite addnACA IH; case: (i \in h).
Qed.

Lemma hides_count r : grf_on_file O solve sample fuel k eps cs top order antecedent succedent = Ok r ->
  hides r = (size (antecedent ++ succedent) -
             (size (unhidden ha antecedent) + size (unhidden hs succedent)) + size hs)%N.
Proof.
rewrite /grf_on_file E bind_ok => -[<-]; have [_ [-> _]] := perform_counts E U.
have [_ Ss _ Bs _] := perform_indices.
have Bs' : all (fun j => j < size succedent)%N hs.
  by apply: sub_all Bs => j /leq_trans; apply; exact: leq_pred.
have := size_hide Ss Bs'; have := size_unhidden ha antecedent; have := size_unhidden hs succedent.
by rewrite size_cat; lia.
Qed.
End Props.

Section Props2.
Local Open Scope ring_scope.
Variables (R : realDomainType) (L : lib R) (O : oracle L).
Local Notation asg := (dict [eqType of var] R).
Variable solve : nat -> seq constraint -> seq nat -> res (nat -> bool).
Variable sample : addr -> option (goal L) -> seq (P L) -> seq (atom L) -> res (seq asg * seq (P L)).
Lemma perform_single fuel k eps cs top order (antecedent : seq (atom L)) (goal : atom L) ha hs s' :
  perform_grf O solve sample fuel k eps cs top order antecedent [:: goal] = Ok (ha, hs, s') ->
  uniq (map (@aid R L) (antecedent ++ [:: goal])) ->
  all (fun i => i < size antecedent)%N ha /\ hs = [::].
Proof.
move=> E U; have [_ _ Ba Bs _] := perform_indices E U; rewrite addn0 in Ba; split=> //.
by case: hs Bs {E}.
Qed.

Lemma perform_empty fuel k eps cs top order (antecedent : seq (atom L)) :
  perform_grf O solve sample fuel k eps cs top order antecedent [::] = Err IndexError.
Proof. by []. Qed.
End Props2.
