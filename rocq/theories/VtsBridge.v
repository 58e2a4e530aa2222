(** The facts about the uni_vts model restated in the vocabulary of VtsSpec. *)
From mathcomp Require Import all_ssreflect all_algebra.
From mathcomp.real_closed Require Import polyrcf polyorder qe_rcf_th.
From mathcomp.zify Require Import zify.
From Coq Require Import String.
From Verif Require Import Py VtsModel VtsPoly VtsRem VtsTaq VtsCount Thom VtsDiscr RealSign.
From Verif Require Import VtsMain VtsSpec.

Set Implicit Arguments.
Unset Strict Implicit.
Unset Printing Implicit Defensive.
Import GRing.Theory Num.Theory Order.POrderTheory Order.TotalTheory.
Local Open Scope ring_scope.

Lemma mulmm_mx n (M N : rmatrix) : square n M -> square n N -> mulmm N M = idm n ->
  mx_of n N *m mx_of n M = 1%:M.
Proof.
  move=> sM sN NM.
  have /andP[/eqP szM /allP rM] := sM; have /andP[/eqP szN /allP rN] := sN.
  apply/matrixP => i j; rewrite !mxE.
  have := congr1 (fun A => (nth [::] A i)`_j) NM; rewrite /mulmm /idm.
  rewrite (nth_map [::]) ?szN // (nth_map 0%N) ?size_iota ?szM // nth_iota ?add0n //.
  rewrite (nth_map 0%N) ?size_iota // (nth_map 0%N) ?size_iota // !nth_iota ?add0n // => <-.
  under eq_bigr => k _ do rewrite !mxE.
  have := rN _ (mem_nth [::] (_ : (i < size N)%N)); rewrite szN => /(_ (ltn_ord i)) /eqP sr.
  rewrite -(big_mkord xpredT (fun k => (nth [::] N i)`_k * (nth [::] M k)`_j)) /index_iota subn0.
  have {2}-> : nth [::] N i = map (nth 0 (nth [::] N i)) (iota 0 n) 
    by rewrite map_nth_iota0 ?sr // take_oversize ?sr.
  have -> : [seq r'`_j | r' <- M] = [seq (nth [::] M k)`_j | k <- iota 0 n].
    by rewrite -[in LHS](mkseq_nth [::] M) /mkseq -map_comp szM.
  by rewrite dotE.
Qed.

Lemma inv_contract_spec mx_inv : inv_contract mx_inv -> inv_spec mx_inv.
Proof.
move=> h n M N sM sN NM; have E := mulmm_mx sM sN NM.
have U : mx_of n M \in unitmx by case/mulmx1_unit: E.
have [sI EI] := h n M sM U.
have EN : mx_of n (mx_inv M) = mx_of n N by rewrite EI -[LHS]mul1mx -E -mulmxA mulmxV // mulmx1.
have /andP[/eqP szI /allP rI] := sI; have /andP[/eqP szN /allP rN] := sN.
apply: (@eq_from_nth _ [::]); rewrite ?szI ?szN // => i hi.
have s1 : size (nth [::] (mx_inv M) i) = n by apply/eqP/rI/mem_nth; rewrite szI.
have s2 : size (nth [::] N i) = n by apply/eqP/rN/mem_nth; rewrite szN.
apply: (@eq_from_nth _ 0); rewrite s1 ?s2 // => j hj.
by have := congr1 (fun A : 'M_n => A (Ordinal hi) (Ordinal hj)) EN; rewrite !mxE.
Qed.

Section Coefs.
Variable D : realDomainType.
Implicit Types p q f g : seq D.

Lemma signed_chain_rec n p q : wf q -> (size q < n)%N ->
  exists l, [/\ signed_remainder_sequence_rec n p q = Ok [:: p, q & l] &
                signed_chain [:: p, q & l]].
Proof.
elim: n p q => [|n IH] p q nq; first by rewrite ltn0.
rewrite ltnS => sq /=.
have [r [-> nr sr [m [s [m0 E]]]]] := signed_pseudo_remainderP p nq.
case: r nr sr E => [|c r] nr sr E.
  exists [::]; split=> //; split=> //; exists m, s; split=> //.
  by rewrite E subr0 addr0.
have nr' : wf [seq - c | c <- c :: r] by exact: nonzero_opp (normal_nonzero nr isT).
have [|l [E1 ch]] := IH q _ nr'; first by rewrite size_map; exact: leq_trans sr sq.
exists ([seq - c | c <- c :: r] :: l); move: E1; rewrite /= => ->; split=> //.
have Eo : Poly [seq - c | c <- c :: r] = - Poly (c :: r).
  apply/polyP => i; rewrite coefN !coef_Poly.
  case: (ltnP i (size (c :: r))) => h; first by rewrite (nth_map 0).
  by rewrite !nth_default ?size_map // oppr0.
split=> //; last by move=> _; rewrite /= size_map; exact: sr.
by exists m, s; split=> //; move: Eo; rewrite [LHS]/= => ->; rewrite opprK E.
Qed.

Lemma signed_remainder_sequence_chain p q : wf q ->
  exists l, signed_remainder_sequence p q = Ok [:: p, q & l] /\
            signed_chain [:: p, q & l].
Proof. by move=> nq; have [l [? ?]] := signed_chain_rec p nq (leqnn _); exists l. Qed.
End Coefs.

Section Bridge.
Variables (D : realDomainType) (R : rcfType) (inj : {rmorphism D -> R}).
Hypothesis inj_lt : {mono inj : x y / x < y}.
Local Notation den := (den inj).
Local Notation value := (value inj).
Implicit Types (p q : seq D) (x : R).

Lemma valueE p x : value p x = (den p).[x].
Proof.
rewrite denE horner_Poly /value.
elim: p => [|a p IH] /=; first by rewrite big_ord0.
rewrite big_ord_recl expr0 mulr1 -IH mulr_suml addrC; congr (_ + _).
by apply: eq_bigr => i _; rewrite -mulrA -exprSr.
Qed.

Lemma value_nil x : value [::] x = 0.
Proof. by rewrite /value big_ord0. Qed.

Lemma value_cons c p x : value (c :: p) x = inj c + value p x * x.
Proof. by rewrite !valueE !denE /= horner_cons addrC. Qed.

Lemma denPoly p : den p = \poly_(i < size p) inj p`_i.
Proof.
apply/polyP => i; rewrite denE coef_Poly coef_poly.
by case: ltnP => h; [rewrite (nth_map 0)|rewrite nth_default ?size_map].
Qed.

Lemma allzeroE p : allzero p = (den p == 0).
Proof.
rewrite (den_eq0 inj_lt); apply/idP/eqP => [/allP h|/Poly_eq0_nseq ->].
  apply/polyP => i; rewrite coef0 coef_Poly.
  case: (ltnP i (size p)) => hi; last by rewrite nth_default.
  exact/eqP/h/mem_nth.
by rewrite /allzero all_nseq eqxx orbT.
Qed.

Lemma okpE p : (wf p || allzero p) = okp inj p.
Proof. by rewrite allzeroE. Qed.

Lemma lists_rootsP p T : wf p -> lists_roots inj p T -> perm_eq T (rootsR (den p)).
Proof.
move=> np [uT rT]; apply: uniq_perm => // [|x]; first exact: uniq_rootsR.
rewrite mem_rootsR ?(den_neq0 inj_lt) //; apply/idP/idP.
  by move/rT; rewrite valueE => /rootP.
by move/rootP => h; apply/rT; rewrite valueE.
Qed.

Lemma rootsR_lists p : wf p -> lists_roots inj p (rootsR (den p)).
Proof.
move=> np; split; first exact: uniq_rootsR.
move=> x; rewrite mem_rootsR ?(den_neq0 inj_lt) // valueE; split; by move/rootP.
Qed.

Lemma sgz_is_sign (v : R) : is_sign (sgz v) v.
Proof. by rewrite /is_sign; case: sgzP => h; auto. Qed.

Lemma is_sign_sgz s (v : R) : is_sign s v -> s = sgz v.
Proof.
by case=> [[-> h]|[[-> h]|[-> ->]]]; [rewrite gtr0_sgz|rewrite ltr0_sgz|rewrite sgz0].
Qed.

Lemma tarski_query_counts p q T : wf p -> wf q || allzero q -> lists_roots inj p T ->
  tarski_query p q = Ok ((count (fun x => 0 < value q x) T)%:Z
                       - (count (fun x => value q x < 0) T)%:Z).
Proof.
rewrite okpE => np hq hT; rewrite (tarski_queryP inj_lt) //; congr Ok.
rewrite -(perm_big _ (lists_rootsP np hT)) /=.
elim: T {hT} => [|x T IH]; first by rewrite big_nil.
rewrite big_cons IH /= valueE; case: sgzP => h; lia.
Qed.

Lemma jumpP (Q P : {poly R}) x j : P != 0 -> is_jump Q P x j -> j = jump Q P x.
Proof.
move=> P0; rewrite /is_jump /jump; case: (eqVneq Q 0) => [//|Q0] /=.
case: ltnP => hm; last first.
  by move=> ->; have -> : (\mu_x P - \mu_x Q = 0)%N by apply/eqP; rewrite subn_eq0.
case=> d d0 [sl [sr [hl hr hj]]].
have QP0 : Q * P != 0 by rewrite mulf_neq0.
have [y yin] := @neighpr_wit _ (Q * P) x (x + d) ltac:(by rewrite ltr_addl) QP0.
have [z zin] := @neighpl_wit _ (Q * P) (x - d) x ltac:(by rewrite ltr_subl_addr ltr_addl) QP0.
have sg_div (a b : R) : sgz (a / b) = sgz (a * b) by rewrite -sgz_sgr sgrM sgrV -sgrM sgz_sgr.
have Er : sr = sgz (sgp_right (Q * P) x).
  rewrite -(sgr_neighpr yin) sgz_sgr hornerM -sg_div; apply: is_sign_sgz; apply: hr.
  move: yin; rewrite /neighpr !in_itv /= => /andP[-> /= h].
  apply: (lt_le_trans h); have := next_root_in (Q * P) x (x + d).
  by rewrite in_itv /= max_l ?ler_addl ?(ltW d0) // => /andP[].
have El : sl = sgz ((-1) ^+ (odd (\mu_x (Q * P))) * sgp_right (Q * P) x).
  rewrite -(sgr_neighpl zin) sgz_sgr hornerM -sg_div; apply: is_sign_sgz; apply: hl.
  move: zin; rewrite /neighpl !in_itv /= => /andP[h ->]; rewrite andbT.
  apply: (le_lt_trans _ h); have := prev_root_in (Q * P) (x - d) x.
  by rewrite in_itv /= min_l ?ger_addl ?oppr_le0 ?(ltW d0) // => /andP[].
have : sgp_right (Q * P) x != 0 by rewrite sgp_right_eq0.
move: hj; rewrite Er El mu_mul // oddD (oddB (ltnW hm)) addbC.
move: (sgp_right (Q * P) x) => s hj s0.
move: hj; case: (_ (+) _) => /=; rewrite ?expr1 ?expr0 ?mulN1r ?mul1r ?sgzN.
  case: (ltrgt0P s) s0 => // h _; first rewrite gtr0_sgz //; last rewrite ltr0_sgz //.
    by move=> hj; rewrite expr0; lia.
  by move=> hj; rewrite expr1; lia.
by move: (sgz s) => t; lia.
Qed.

Lemma cauchy_index_sum p q T (J : R -> int) : wf p -> wf q || allzero q ->
  lists_roots inj p T ->
  (forall x, x \in T -> is_jump (\poly_(i < size q) inj q`_i)
                                (\poly_(i < size p) inj p`_i) x (J x)) ->
  signed_remainder_cauchy_index p q = Ok (\sum_(x <- T) J x).
Proof.
rewrite okpE -!denPoly => np hq hT hJ.
rewrite (cauchy_indexP inj_lt) // /cindexR -(perm_big _ (lists_rootsP np hT)) /=.
congr Ok; rewrite big_seq [RHS]big_seq; apply: eq_bigr => x /hJ h.
by rewrite (jumpP _ h) // (den_neq0 inj_lt).
Qed.

(** ** Enumerations *)
Lemma nth_words_digits (T : Type) (x0 : T) (L : seq T) n i : size L = 3%N -> (i < 3 ^ n)%N ->
  nth [::] (words L n) i = [seq nth x0 L (digit n i k) | k <- iota 0 n].
Proof.
move=> sL; elim: n i => [|n IH] i hi; first by move: hi; rewrite expn0; case: i.
have s3 : (0 < 3 ^ n)%N by rewrite expn_gt0.
have Wn : size (words L n) = (3 ^ n)%N by elim: (n) => //= m E; rewrite size_allpairs E sL expnS.
have hq : (i %/ 3 ^ n < 3)%N by rewrite ltn_divLR // -expnS.
have hr : (i %% 3 ^ n < 3 ^ n)%N by rewrite ltn_mod.
have E0 : nth [::] (words L n.+1) i =
    nth x0 L (i %/ 3 ^ n) :: nth [::] (words L n) (i %% 3 ^ n).
  rewrite {1}(divn_eq i (3 ^ n)) /=.
  move: (i %/ 3 ^ n)%N hq (i %% 3 ^ n)%N hr => a ha b hb {hi IH}.
  move: (words L n) Wn => W Wn.
  rewrite -sL in ha; elim: (L) a ha => // c L' IHL [|a] /= ha.
    by rewrite mul0n add0n nth_cat size_map Wn hb (nth_map [::]) ?Wn.
  rewrite nth_cat size_map Wn mulSn -addnA ltnNge leq_addr /= addKn.
  exact: IHL.
rewrite E0 IH // [iota 0 n.+1]/= map_cons; congr (_ :: _).
  by rewrite /digit subn1 subn0 modn_small.
rewrite (iotaDl 1 0) -map_comp; apply/eq_in_map => k; rewrite mem_iota /= add0n => hk.
rewrite /digit; congr (nth _ _ _).
have -> : (n.+1 - 1 - (1 + k) = n - 1 - k)%N by lia.
set m := (n - 1 - k)%N; have Em : (3 ^ n = 3 ^ (n - m - 1) * 3 * 3 ^ m)%N.
  by rewrite -expnSr -expnD; congr (_ ^ _)%N; rewrite /m; lia.
rewrite {2}(divn_eq i (3 ^ n)); move: (i %/ 3 ^ n)%N (i %% 3 ^ n)%N => u v.
by rewrite Em !mulnA divnMDl ?expn_gt0 // modnMDl.
Qed.

Lemma product_list_value polies x i : (i < 3 ^ size polies)%N ->
  value (nth [::] (make_product_list polies) i) x =
  \prod_(k < size polies) value (nth [::] polies k) x ^+ digit (size polies) i k.
Proof.
move=> hi; rewrite make_product_listE (nth_map [::]); last by rewrite words_size.
rewrite (@nth_words_digits _ 0%N) //.
rewrite -(big_mkord xpredT (fun k => value (nth [::] polies k) x ^+ digit (size polies) i k)).
set n := size polies; rewrite /index_iota subn0.
have hd k : (digit n i k < 3)%N by rewrite ltn_mod.
have -> : [seq nth 0%N pows (digit n i k) | k <- iota 0 n] = [seq digit n i k | k <- iota 0 n].
  by apply: eq_map => k; have := hd k; case: (digit n i k) => [|[|[|]]].
move: (digit n i) hd => f hf.
rewrite {}/n; elim: polies f hf {i hi} => [|p ps IH] f hf.
  by rewrite big_nil valueE denE /= rmorph1 horner_cons horner0 mul0r add0r.
rewrite [iota 0 _]/= big_cons /= (iotaDl 1 0) -map_comp big_map.
have := IH (f \o addn 1%N) (fun k => hf _).
under [in X in _ -> X]eq_bigr => k _ do rewrite /= .
move=> <-; rewrite !valueE.
have := hf 0%N; case: (f 0%N) => [|[|[|//]]] _.
- by rewrite expr0 mul1r.
- by rewrite den_multiply hornerM expr1 mulrC.
- by rewrite !den_multiply !hornerM expr2 mulrC.
Qed.

Lemma size_product_list (polies : seq (seq D)) :
  size (make_product_list polies) = (3 ^ size polies)%N.
Proof. by rewrite make_product_listE size_map words_size. Qed.

Lemma matrix_counts mx_inv p polies T i : inv_contract mx_inv -> wf p ->
  all (fun q => wf q || allzero q) polies -> lists_roots inj p T ->
  (0 < size polies)%N -> (i < 3 ^ size polies)%N ->
  exists2 taqs, mapM (tarski_query p) (make_product_list polies) = Ok taqs &
  (mulmv (mx_inv (sign_matrix (size polies))) [seq t%:~R | t <- taqs])`_i =
  (count (fun x => [forall k : 'I_(size polies),
      sgz (value (nth [::] polies k) x) ==
      digit_sign (digit (size polies) i k)]) T)%:R.
Proof.
move/inv_contract_spec => inv np nps hT n0 hi.
have okA : all (okp inj) polies by rewrite -(eq_all okpE).
rewrite (taq_column inj_lt np okA); eexists; first by [].
rewrite sign_matrix_inverse // counts // (nth_map [::]); last by rewrite words_size.
rewrite (@nth_words_digits _ (0 : int)) //; congr _%:R.
rewrite -(permP (lists_rootsP np hT)); apply: eq_count => x.
apply/eqP/forallP => [E k|h].
  rewrite valueE; have := congr1 (fun s => nth 0 s k) E; rewrite (nth_map [::]) //.
  by rewrite (nth_map 0%N) ?size_iota // nth_iota //= => ->.
apply: (@eq_from_nth _ 0); first by rewrite !size_map size_iota.
move=> k; rewrite size_map => hk; rewrite (nth_map [::]) // (nth_map 0%N) ?size_iota //.
by have /eqP := h (Ordinal hk); rewrite valueE nth_iota.
Qed.

(** ** Descriptors *)
Section Descr.
Variables (H : eqType) (str : D -> H).
Hypothesis str_inj : injective str.
Variable mx_inv : rmatrix -> rmatrix.
Hypothesis inv_c : inv_contract mx_inv.
Let inv := inv_contract_spec inv_c.

Lemma discri_separates p T : wf p -> lists_roots inj p T ->
  exists ds, [/\ get_discri_der_signs inj str T p = Ok ds,
    perm_eq (map (@dds_point D R H) ds) T &
    forall d, List.In d ds ->
      [/\ forall r, r \in dds_all_polies d ->
            (exists k, Poly r = (Poly p)^`(k.+1)) /\
            (exists2 s, get_sign str d r = Ok s & is_sign s (value r (dds_point d))) &
          forall y, value p y = 0 ->
            (forall r, r \in dds_all_polies d ->
               exists2 s, get_sign str d r = Ok s & is_sign s (value r y)) ->
            y = dds_point d]].
Proof.
move=> np [uT rT].
have rT' x : x \in T -> root (den p) x by move/rT; rewrite valueE => /rootP.
have [ds [E pm Hds]] := get_discri_der_signsP inj_lt str_inj np uT rT'.
exists ds; split=> // d hd.
have [[u nz sz ss gs] un] := (List.Forall_forall _ _).1 Hds d hd.
split=> [r /gs[-> [k ->]]|y ry hs].
  split; last by exists (sgz (den (iter k.+1 (@derivative D) p)).[dds_point d]);
    rewrite ?valueE //; exact: sgz_is_sign.
  exists k; elim: (k.+1) => [|n IH]; first by [].
  by rewrite iterS derivative_Poly IH derivnS.
apply: un; first by apply/rT.
apply/eq_in_map => r hr; have [s] := hs r hr.
have [-> _] := gs r hr; case=> <- /is_sign_sgz; by rewrite valueE.
Qed.

Lemma described_point p T ds d : wf p -> lists_roots inj p T ->
  get_discri_der_signs inj str T p = Ok ds -> List.In d ds ->
  describes inj str p (set_origin_poly p d) (dds_point d).
Proof.
move=> np hT; have [uT rT] := hT.
have rT' x : x \in T -> root (den p) x by move/rT; rewrite valueE => /rootP.
have [ds' [-> pm Hds]] := get_discri_der_signsP inj_lt str_inj np uT rT'.
case=> <- hd; have [rec un] := (List.Forall_forall _ _).1 Hds d hd.
split=> //=.
  apply: rT'; rewrite -(perm_mem pm); elim: (ds') hd => //= d' l IH.
  by case=> [->|/IH]; rewrite inE ?eqxx // => ->; rewrite orbT.
split=> // y; rewrite -(perm_mem (lists_rootsP np hT)); exact: un.
Qed.

Lemma evaluate_single_sign p T ds d g : wf p -> lists_roots inj p T ->
  get_discri_der_signs inj str T p = Ok ds -> List.In d ds ->
  wf g || allzero g ->
  exists2 s, is_sign s (value g (dds_point d)) &
  let r := evaluate_single_on_sign_assignment str mx_inv (set_origin_poly p d) g in
  r = Ok s \/ r = Err exc_more_than_5 /\ (6 < size p)%N.
Proof.
rewrite okpE => np hT hds hd hg; exists (sgz (value g (dds_point d))); first exact: sgz_is_sign.
rewrite valueE ltnNge.
by case: (evaluate_single_yields inj_lt inv np hg (described_point np hT hds hd)) => [|[]]; auto.
Qed.

Lemma e_close_sign p T ds d g : wf p -> lists_roots inj p T ->
  get_discri_der_signs inj str T p = Ok ds -> List.In d ds ->
  wf g || allzero g ->
  exists2 s, is_right_sign inj s g (dds_point d) &
  let r := e_close_evaluate_single_on_sign_assignment str mx_inv (set_origin_poly p d) g in
  r = Ok s \/ r = Err exc_more_than_5 /\ (6 < size p)%N.
Proof.
rewrite okpE => np hT hds hd hg.
exists (sgz (sgp_right (den g) (dds_point d))); last first.
  rewrite ltnNge.
  by case: (e_close_yields inj_lt inv np hg (described_point np hT hds hd)) => [|[]]; auto.
case: (eqVneq (den g) 0) => [g0|g0].
  exists 1; first exact: ltr01.
  by move=> y _; rewrite valueE g0 horner0 sgp_right0; exact: sgz_is_sign.
have [|b xb Hb] := @right_interval _ [:: den g] (dds_point d); first by rewrite /= g0.
exists (b - dds_point d); first by rewrite subr_gt0.
move=> y; rewrite addrC subrK => hy; rewrite -(Hb _ (mem_head _ _) _ hy) sgz_sgr valueE.
exact: sgz_is_sign.
Qed.

Lemma lookup_conditions (le lt eq ne : seq (seq D)) :
  exists2 lk, sign_conditions_lookup str le lt eq ne = Ok lk &
  forall p, p \in le ++ lt ++ eq ++ ne ->
  exists2 S, dget lk (make_poly_hashabel str p) = Ok S &
  forall s, s \in S <-> [/\ s = -1 \/ s = 0 \/ s = 1,
     p \in le -> s <= 0, p \in lt -> s < 0, p \in eq -> s = 0 & p \in ne -> s <> 0].
Proof.
have [lk [E hlk]] := @sign_conditions_lookupP D H str str_inj le lt eq ne.
exists lk => // p /hlk[S ES mS]; exists S => // s; rewrite mS.
split=> [/andP[hs /and4P[/implyP h1 /implyP h2 /implyP h3 /implyP h4]]|[hs h1 h2 h3 h4]].
  split=> //; first by move: hs; rewrite !inE => /or3P[]/eqP->; auto.
    by move/h3 => /eqP.
  by move/h4 => /eqP.
apply/andP; split; first by case: hs => [->|[->|->]].
apply/and4P; split; apply/implyP => // h; apply/eqP; [exact: h3|exact: h4].
Qed.

(** ** The decision procedure *)
Variable MkRoots : seq D -> res (seq R).
Hypothesis mk : MkRoots_contract inj MkRoots.

Lemma contract_spec : roots_spec inj MkRoots.
Proof.
move=> p np; have [T -> hT] := mk np; exists T => //; split; first by case: hT.
by move=> x; rewrite (perm_mem (lists_rootsP np hT)) mem_rootsR // (den_neq0 inj_lt).
Qed.

Lemma satisfiesE le lt eq ne x : satisfies inj le lt eq ne x <-> sat inj le lt eq ne x.
Proof.
split=> [[h1 h2 h3 h4]|[h1 h2 h3 h4]]; split=> p hp.
- by rewrite -valueE h1.
- by rewrite -valueE h2.
- by rewrite -valueE h3.
- by apply/eqP; rewrite -valueE; exact: h4.
- by rewrite valueE h1.
- by rewrite valueE h2.
- by rewrite valueE h3.
- by apply/eqP; rewrite valueE; exact: h4.
Qed.

Lemma internal_vts_result le lt eq ne : all (@wf D) (le ++ lt ++ eq ++ ne) ->
  exists2 b : bool, b <-> (exists x, satisfies inj le lt eq ne x) &
  internal_vts inj str MkRoots mx_inv le lt eq ne = Ok b \/
  internal_vts inj str MkRoots mx_inv le lt eq ne = Err exc_more_than_5 /\
  exists2 p, p \in le ++ lt ++ eq ++ ne & (6 < size p)%N.
Proof.
move=> nz; exists (vts_value inj le lt eq ne).
  rewrite (vts_valueP inj_lt nz); split=> -[x /satisfiesE]; by exists x.
case: (internal_vts_yields inj_lt str_inj inv contract_spec nz) => [->|[h ->]]; first by left.
right; split=> //; move/allPn: h => [p hp]; rewrite -ltnNge; by exists p.
Qed.

Lemma internal_vts_decides le lt eq ne b : all (@wf D) (le ++ lt ++ eq ++ ne) ->
  internal_vts inj str MkRoots mx_inv le lt eq ne = Ok b ->
  (b = true <-> exists x, satisfies inj le lt eq ne x).
Proof.
move=> nz E; have [b' hb] := internal_vts_result nz.
by rewrite E => -[[->]|[]].
Qed.

Lemma internal_vts_only_limit le lt eq ne : all (@wf D) (le ++ lt ++ eq ++ ne) ->
  (exists b, internal_vts inj str MkRoots mx_inv le lt eq ne = Ok b) \/
  (internal_vts inj str MkRoots mx_inv le lt eq ne = Err exc_more_than_5 /\
   exists2 p, p \in le ++ lt ++ eq ++ ne & (6 < size p)%N).
Proof.
move=> nz; have [b' hb] := internal_vts_result nz.
by case=> [->|]; [left; exists b'|right].
Qed.
End Descr.

(** ** internal_ts *)
Lemma evaluate_strsE (point : R) l :
  evaluate_strs inj point l = all (fun s => if s.2 is SNe then true else false) l.
Proof. by elim: l => [|[p []] l IH] //=. Qed.

Lemma evaluateE (point : R) le lt eq ne :
  evaluate inj point le lt eq ne = [&& nilp le, nilp lt & nilp eq].
Proof.
rewrite /evaluate evaluate_strsE !all_cat !all_map.
case: le => //; case: lt => //; case: eq => //=.
by elim: ne.
Qed.

Lemma internal_ts_behaviour MkRoots (eps neg_inv_eps : R) (le lt eq ne : seq (seq D)) :
  MkRoots_contract inj MkRoots -> all (@wf D) (le ++ lt ++ eq ++ ne) ->
  internal_ts inj MkRoots eps neg_inv_eps le lt eq ne = Ok [&& nilp le, nilp lt & nilp eq].
Proof.
move=> mk; rewrite !all_cat => /and4P[wle wlt weq wne].
have tryE (sh : R -> R) ps : all (@wf D) ps ->
    exists2 b, try_roots MkRoots sh (fun x => evaluate inj x le lt eq ne) ps = Ok b &
    b -> [&& nilp le, nilp lt & nilp eq].
  elim: ps => [|p ps IH] /=; first by exists false.
  case/andP=> wp /IH[b Eb hb]; have [T -> _] := mk p wp.
  rewrite bind_ok; case: ifP => [/hasP[x _]|_]; last by exists b.
  by rewrite evaluateE; exists true.
rewrite /internal_ts.
have [|b1 -> h1] := tryE id (eq ++ le); first by rewrite all_cat weq.
rewrite bind_ok; case: b1 h1 => [/(_ isT) -> //|_].
have [|b2 -> h2] := tryE (fun r => r + eps) (lt ++ ne); first by rewrite all_cat wlt.
by rewrite bind_ok; case: b2 h2 => [/(_ isT) -> //|_]; rewrite evaluateE.
Qed.

(** ** coefficient lists *)
Lemma multiply_value p q x : value (multiply p q) x = value p x * value q x.
Proof. by rewrite !valueE den_multiply hornerM. Qed.
Lemma derivative_poly p : Poly (derivative p) = (Poly p)^`().
Proof. exact: derivative_Poly. Qed.
Lemma evaluate_poly_value p x : evaluate_poly inj p x = value p x.
Proof. by rewrite valueE den_evaluate. Qed.

Lemma chain_dvd p q l : signed_chain [:: p, q & l] -> forall d : {poly R},
  (d %| den (last q l)) = (d %| den p) && (d %| den q).
Proof.
have step (m : D) (s : {poly D}) r (a b : seq D) (d : {poly R}) : 0 < m ->
    m *: Poly a = s * Poly b - Poly r -> d %| den b -> (d %| den a) = (d %| den r).
  move=> m0 E db; have := congr1 (map_poly inj) E.
  rewrite map_polyZ rmorphB rmorphM -!/(den _) => E'.
  rewrite -(@dvdpZr _ (inj m)) ?(inj_eq0 inj_lt) ?gt_eqF // E'.
  by rewrite dvdp_addr ?dvdpNr // dvdp_mull.
elim: l p q => [|r l IH] p q /=.
  case=> wq [m [s [m0 E]]] _ _ d; case hq: (d %| den q); rewrite ?andbF // andbT.
  by rewrite (step m s [::] p q d m0 E hq) denE dvdp0.
case=> wq [m [s [m0 E]]] _ ch d; rewrite (IH q r) //.
by case hq: (d %| den q); rewrite ?andbF //= andbT (step m s r p q d m0 E hq).
Qed.

Lemma sequence_chain p q : wf q ->
  exists l, [/\ signed_remainder_sequence p q = Ok [:: p, q & l],
    signed_chain [:: p, q & l] &
    forall d : {poly R}, (d %| poly_of inj (last q l)) =
                         (d %| poly_of inj p) && (d %| poly_of inj q)].
Proof.
move=> wq; have [l [E ch]] := signed_remainder_sequence_chain p wq.
by exists l; split=> // d; rewrite /poly_of -!denPoly; exact: chain_dvd.
Qed.

Lemma arithmetic p q x :
  [/\ Poly (multiply p q) = Poly p * Poly q,
      Poly (derivative p) = (Poly p)^`(),
      value (multiply p q) x = value p x * value q x &
      evaluate_poly inj p x = value p x].
Proof.
split; first exact: multiply_Poly; first exact: derivative_Poly.
  exact: multiply_value.
exact: evaluate_poly_value.
Qed.

Lemma sgz_near_right (P : {poly R}) x : P != 0 ->
  exists2 d, 0 < d & forall y, x < y < x + d -> sgz P.[y] = sgz (sgp_right P x).
Proof.
move=> P0; have [|b xb Hb] := @right_interval _ [:: P] x; first by rewrite /= P0.
exists (b - x); first by rewrite subr_gt0.
by move=> y; rewrite addrC subrK => hy; rewrite -(Hb _ (mem_head _ _) _ hy) sgz_sgr.
Qed.

Lemma sgz_near_left (P : {poly R}) x : P != 0 ->
  exists2 d, 0 < d & forall y, x - d < y < x ->
    sgz P.[y] = sgz ((-1) ^+ (odd (\mu_x P)) * sgp_right P x).
Proof.
move=> P0; have x1 : x - 1 < x by rewrite ltr_subl_addr ltr_addl ltr01.
exists (x - prev_root P (x - 1) x).
  by rewrite subr_gt0; have [y] := neighpl_wit x1 P0; rewrite /neighpl in_itv /= => /andP[]; exact: lt_trans.
move=> y; rewrite opprB addrC subrK => hy; rewrite -sgz_sgr (@sgr_neighpl _ (x - 1) _ x) //.
Qed.

Lemma jumps_exist p q : wf p ->
  exists (T : seq R) (J : R -> int), lists_roots inj p T /\
    forall x, is_jump (poly_of inj q) (poly_of inj p) x (J x).
Proof.
move=> wp; exists (rootsR (den p)), (jump (den q) (den p)); split; first exact: rootsR_lists.
move=> x; rewrite /poly_of -!denPoly /is_jump.
case: ifP => [/andP[Q0 hm]|/negbT].
  have P0 := den_neq0 inj_lt wp; have QP0 : den q * den p != 0 by rewrite mulf_neq0.
  have sg_div (a b : R) : sgz (a / b) = sgz (a * b) by rewrite -sgz_sgr sgrM sgrV -sgrM sgz_sgr.
  have [d1 d10 H1] := sgz_near_right x QP0; have [d2 d20 H2] := sgz_near_left x QP0.
  exists (Num.min d1 d2); first by rewrite lt_minr d10.
  exists (sgz ((-1) ^+ (odd (\mu_x (den q * den p))) * sgp_right (den q * den p) x)),
    (sgz (sgp_right (den q * den p) x)); split=> [y /andP[h1 h2]|y /andP[h1 h2]|].
  - suff <- : sgz ((den q).[y] / (den p).[y]) = sgz ((-1) ^+ (odd (\mu_x (den q * den p))) * sgp_right (den q * den p) x) by exact: sgz_is_sign.
    rewrite sg_div -hornerM H2 // h2 andbT; apply: le_lt_trans h1.
    by rewrite ler_add2l ler_opp2 le_minl lexx orbT.
  - suff <- : sgz ((den q).[y] / (den p).[y]) = sgz (sgp_right (den q * den p) x) by exact: sgz_is_sign.
    rewrite sg_div -hornerM H1 // h1 /=; apply: (lt_le_trans h2).
    by rewrite ler_add2l le_minl lexx.
  have : sgp_right (den q * den p) x != 0 by rewrite sgp_right_eq0.
  rewrite /jump Q0 mu_mul // oddD (oddB (ltnW hm)) addbC.
  move: (sgp_right _ _) => s s0.
  case: (_ (+) _) => /=; rewrite ?expr1 ?expr0 ?mulN1r ?mul1r ?sgzN.
    by case: (ltrgt0P s) s0 => // h _; rewrite ?(gtr0_sgz h) ?(ltr0_sgz h).
  by rewrite mul0rn subrr.
rewrite negb_and negbK /jump => /orP[/eqP->|]; first by rewrite eqxx.
by rewrite -leqNgt -subn_eq0 => /eqP->; rewrite andbF.
Qed.

Lemma sign_matrix_entry n i j : (0 < n)%N -> (i < 3 ^ n)%N -> (j < 3 ^ n)%N ->
  (nth [::] (sign_matrix n) i)`_j =
  \prod_(k < n) (digit_sign (digit n j k))%:~R ^+ digit n i k.
Proof.
move=> n0 hi hj; rewrite sign_matrixE // (nth_map [::]) ?words_size //.
rewrite (nth_map [::]) ?words_size // (@nth_words_digits _ 0%N) // (@nth_words_digits _ (0 : int)) //.
rewrite -(big_mkord xpredT (fun k => (digit_sign (digit n j k))%:~R ^+ digit n i k : rat)).
rewrite /index_iota subn0 /centry.
have hd k : (digit n i k < 3)%N by rewrite ltn_mod.
elim: (iota 0 n) => [|k l IH] /=; first by rewrite big_nil.
rewrite big_cons intrM IH rmorphX /digit_sign; congr (_ ^+ _ * _).
by have := hd k; case: (digit n i k) => [|[|[|]]].
Qed.

End Bridge.

Lemma tarski_trailing_zero :
  exists p q : seq int, wf p /\ ~~ allzero q /\
  tarski_query p q = Ok 1 /\
  forall (R : rcfType) (inj : {rmorphism int -> R}) (T : seq R),
    {mono inj : x y / x < y} -> lists_roots inj p T ->
    (count (fun x => 0 < value inj q x) T)%:Z
    - (count (fun x => value inj q x < 0) T)%:Z = 2.
Proof.
exists [:: -1; 0; 1], [:: 1; 0]; split; first by [].
split; first by [].
split; first by vm_compute.
move=> R inj T inj_lt [uT rT].
have v1 x : value inj [:: 1; 0] x = 1.
  by rewrite !value_cons value_nil rmorph0 rmorph1 mul0r addr0 mul0r addr0.
have -> : count (fun x => 0 < value inj [:: 1; 0] x) T = size T.
  by rewrite -[RHS]count_predT; apply: eq_count => x; rewrite v1 ltr01.
have -> : count (fun x => value inj [:: 1; 0] x < 0) T = 0%N.
  by rewrite -[RHS](count_pred0 T); apply: eq_count => x; rewrite v1 ltr10.
suff /perm_size -> : perm_eq T [:: 1; -1] by [].
apply: uniq_perm => //.
  by rewrite /= andbT inE -subr_eq0 opprK -(mulr2n 1) pnatr_eq0.
move=> x; rewrite !inE -eqf_sqr expr1n; apply/idP/idP => [/rT|/eqP hx].
  rewrite !value_cons value_nil rmorph0 !rmorphN !rmorph1 mul0r addr0 mul1r add0r -expr2 => h.
  by rewrite -subr_eq0 addrC h.
apply/rT; rewrite !value_cons value_nil rmorph0 !rmorphN !rmorph1 mul0r addr0 mul1r add0r -expr2.
by rewrite hx addNr.
Qed.
