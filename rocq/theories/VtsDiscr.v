(** Root descriptors of uni_vts.py: construction (674-731) and evaluation of a
    polynomial at a described root (393-549). *)
From mathcomp Require Import all_ssreflect all_algebra.
From mathcomp.real_closed Require Import polyrcf polyorder qe_rcf_th.
From mathcomp.zify Require Import zify.
From Coq Require Import String.
From Verif Require Import Py VtsModel VtsPoly VtsRem VtsTaq VtsCount Thom.

Set Implicit Arguments.
Unset Strict Implicit.
Unset Printing Implicit Defensive.
Import GRing.Theory Num.Theory Order.POrderTheory Order.TotalTheory.
Local Open Scope ring_scope.

Section Dict.
Variables (K : eqType) (V : Type).
Implicit Types d : dict K V.
Lemma dget_dset d k v k' :
  dget (dset d k v) k' = if k' == k then Ok v else dget d k'.
Proof.
elim: d => [|[a w] d IH] //=.
case: (eqVneq k a) => [->|ka] /=; first by case: eqVneq.
rewrite IH; case: (eqVneq k' a) => // ->.
by rewrite eq_sym (negPf ka).
Qed.
End Dict.

Section Discr.
Variables (D : realDomainType) (R : rcfType) (inj : {rmorphism D -> R}).
Hypothesis inj_lt : {mono inj : x y / x < y}.
Variables (H : eqType) (str : D -> H).
Hypothesis str_inj : injective str.
Local Notation den := (den inj).
Local Notation dds := (DiscDerSigns D R H).
Implicit Types (p q : seq D) (d : dds) (T : seq R).

Lemma hash_inj : injective (make_poly_hashabel str).
Proof. exact: inj_map. Qed.

(** What a descriptor says about its point. *)
Definition recorded (q : seq D) d : Prop :=
  [/\ uniq (dds_all_polies d), all (@nonzero D) (dds_all_polies d),
   all (fun r => size r < size q)%N (dds_all_polies d),
   (size (dds_all_polies d) <= size q - 2)%N &
   forall r, r \in dds_all_polies d ->
     get_sign str d r = Ok (sgz (den r).[dds_point d]) /\
     exists k, r = iter k.+1 (@derivative D) q].

Definition described T q d : Prop :=
  recorded q d /\
  forall y, y \in T -> signs_at inj (dds_all_polies d) y =
                       signs_at inj (dds_all_polies d) (dds_point d) ->
            y = dds_point d.

Definition separable T q : Prop := {in T &, forall a b : R,
  (forall k, sgz (den q)^`(k.+1).[a] = sgz (den q)^`(k.+1).[b]) -> a = b}.

Definition good T q (r : res (seq dds)) : Prop :=
  exists ds, [/\ r = Ok ds, perm_eq (map (@dds_point D R H) ds) T &
                 List.Forall (described T q) ds].

Lemma mapM_add s q (ds : seq dds) T : nonzero (derivative q) ->
  (1 < size (derivative q))%N ->
  List.Forall (described [seq x <- T | sgz (den (derivative q)).[x] == s] (derivative q)) ds ->
  all (fun x => sgz (den (derivative q)).[x] == s) (map (@dds_point D R H) ds) ->
  exists ds', [/\ mapM (add_poly str s (derivative q)) ds = Ok ds',
    map (@dds_point D R H) ds' = map (@dds_point D R H) ds & List.Forall (described T q) ds'].
Proof.
move=> n' s1; elim: ds => [|d ds IH] Hd /=; first by exists [::]; split=> //; constructor.
case/andP=> sd /IH{IH}; case/List.Forall_cons_iff: Hd => -[[u nz sz ss gs] un] Hds /(_ Hds).
case=> ds' [-> Em Hds']; rewrite {1}/add_poly.
have nin : derivative q \notin dds_all_polies d.
  by apply/negP => /(allP sz); rewrite ltnn.
rewrite (negPf nin) /=; eexists; split; [by []|by rewrite /= Em|].
have sq : (size (derivative q) < size q)%N.
  have := nonzero_nil n'; rewrite -size_eq0 size_derivative.
  by case: (size q).
constructor=> //; split; first split=> /=.
- by rewrite rcons_uniq nin.
- by rewrite all_rcons n'.
- rewrite all_rcons sq; apply: sub_all sz => r h; exact: ltn_trans h sq.
- by move: ss; rewrite size_rcons; slia.
- move=> r; rewrite mem_rcons inE /get_sign /= dget_dset => hr.
  case: (eqVneq r (derivative q)) hr => [-> _|ne /= hr].
    by rewrite eqxx (eqP sd); split=> //; exists 0%N.
  have [<- [k Ek]] := gs _ hr.
  by rewrite (inj_eq hash_inj) (negPf ne); split=> //; exists k.+1; rewrite iterSr.
- move=> y yT /=; rewrite /signs_at !map_rcons => /rcons_inj[E Es].
  by apply: un E; rewrite mem_filter yT Es sd.
Qed.

Lemma branchP rec s q T : normal q ->
  let T' := [seq x <- T | sgz (den (derivative q)).[x] == s] in
  (T' != [::] -> good T' (derivative q) (rec T' (derivative q))) ->
  exists ds, [/\ discri_branch str rec s T' T (derivative q) = Ok ds,
    perm_eq (map (@dds_point D R H) ds) T' & List.Forall (described T q) ds].
Proof.
move=> nq T' hrec; rewrite /discri_branch.
case: eqVneq => [/size0nil E|T'0].
  by exists [::]; rewrite E.
have {}T'0 : T' != [::] by apply: contra T'0 => /eqP ->.
have [ds [-> pm Hds]] := hrec T'0.
rewrite bind_ok; case: eqVneq => [E|NE].
  have ET : T' = T.
    by apply/all_filterP; rewrite all_count -size_filter -/T' E.
  exists ds; split=> //; apply: List.Forall_impl Hds => d [[u nz sz ss gs] un].
  split; last by rewrite -ET.
  split=> //.
    apply: sub_all sz => r h; apply: leq_trans h _.
    by rewrite size_derivative leq_pred.
    by apply: leq_trans ss _; rewrite size_derivative leq_sub2r // leq_pred.
  by move=> r /gs[-> [k Ek]]; split=> //; exists k.+1; rewrite iterSr.
have s1 : (1 < size (derivative q))%N.
  rewrite ltnNge; apply/negP => E.
  have Ec x : (den (derivative q)).[x] = inj (derivative q)`_0.
    have /size1_polyC -> : (size (den (derivative q)) <= 1)%N.
      by rewrite size_den // normal_derivative.
    by rewrite hornerC coef_map coef_Poly.
  have ET : T' = if sgz (inj (derivative q)`_0) == s then T else [::].
    rewrite /T'; elim: (T) => [|x U IHU] /=; first by case: (_ == s).
    by rewrite Ec IHU; case: (_ == s).
  by move: T'0 NE; rewrite ET; case: ifP => // _ _; rewrite eqxx.
have n' : nonzero (derivative q).
  apply: normal_nonzero; first exact: normal_derivative.
  by rewrite -size_eq0; slia.
have sd : all (fun x => sgz (den (derivative q)).[x] == s) (map (@dds_point D R H) ds).
  by rewrite (perm_all _ pm) filter_all.
have [ds' [-> Em Hds']] := mapM_add n' s1 Hds sd.
by exists ds'; rewrite Em.
Qed.

Lemma evaluate_signs q T :
  [/\ [seq x <- T | evaluate_poly inj q x > 0] = [seq x <- T | sgz (den q).[x] == 1],
   [seq x <- T | ~~ (evaluate_poly inj q x > 0) && (evaluate_poly inj q x < 0)]
     = [seq x <- T | sgz (den q).[x] == -1] &
   [seq x <- T | ~~ (evaluate_poly inj q x > 0) && ~~ (evaluate_poly inj q x < 0)]
     = [seq x <- T | sgz (den q).[x] == 0]].
Proof.
split; apply: eq_filter => x; rewrite den_evaluate; case: sgzP => //.
Qed.

Lemma get_discri_der_signs_recP n q T : normal q -> (size q <= n)%N -> uniq T ->
  separable T q -> good T q (get_discri_der_signs_rec inj str n T q).
Proof.
elim: n q T => [|n IH] q T nq sq uT sep.
  case: T uT sep => [|a [|b T]] uT sep.
  - by exists [::].
  - exists [:: new_dds D H a]; split=> //; constructor=> //; split=> // y.
    by rewrite inE => /eqP.
  - have ab : a = b.
      apply: sep; rewrite ?inE ?eqxx ?orbT // => k.
      have -> : q = [::] by apply: size0nil; lia.
      by rewrite [den [::]]map_poly0 linear0 !horner0.
    by move: uT; rewrite ab /= inE eqxx.
have sep' s : separable [seq x <- T | sgz (den (derivative q)).[x] == s] (derivative q).
  move=> a b; rewrite !mem_filter => /andP[/eqP sa aT] /andP[/eqP sb bT] h.
  apply: sep => // -[|k]; rewrite derivSn -(den_derivative inj) //.
  by rewrite derivn0 sa sb.
have sq' : (size (derivative q) <= n)%N by rewrite size_derivative; lia.
have rec s := IH (derivative q) [seq x <- T | sgz (den (derivative q)).[x] == s]
  (normal_derivative nq) sq' (filter_uniq _ uT) (sep' s).
case: T uT sep {sep'} rec => [|a [|b T]] uT sep rec.
- by exists [::].
- exists [:: new_dds D H a]; split=> //; constructor=> //; split=> // y.
  by rewrite inE => /eqP.
rewrite [get_discri_der_signs_rec _ _ _ _ _]/get_discri_der_signs_rec.
rewrite -/(get_discri_der_signs_rec inj str).
move: [:: a, b & T] uT {sep} rec => {a b}T uT rec.
have [-> -> ->] := evaluate_signs (derivative q) T.
have [z [-> pz Hz]] := branchP nq (fun _ => rec 0).
have [p [-> pp Hp]] := branchP nq (fun _ => rec 1).
have [m [-> pm Hm]] := branchP nq (fun _ => rec (-1)).
exists (z ++ p ++ m); split=> //; last by rewrite !List.Forall_app.
rewrite !map_cat.
apply: perm_trans (perm_cat pz (perm_cat pp pm)) _.
apply/permP => a; rewrite !count_cat !count_filter.
elim: (T) => //= x U <-; case: sgzP => _; rewrite !(andbT, andbF) /=; lia.
Qed.

(** The descriptors built from the roots of a polynomial: one per root, with
    correct signs that no other root shares. *)
Lemma get_discri_der_signsP p T : nonzero p -> uniq T ->
  (forall x, x \in T -> root (den p) x) ->
  good T p (get_discri_der_signs inj str T p).
Proof.
move=> np uT rT; apply: get_discri_der_signs_recP => //; first exact: nonzero_normal.
move=> a b /rT ra /rT rb; apply: thom => //.
exact: (den_neq0 inj_lt).
Qed.

(** ** Evaluation at a described root *)
Definition widx : seq int -> nat :=
  fix F w := if w is a :: w' then (seq.index a sgs * 3 ^ size w' + F w')%N else 0%N.

Lemma nth_words w n : w \in words sgs n ->
  (widx w < 3 ^ n)%N /\ nth [::] (words sgs n) (widx w) = w.
Proof.
elim: n w => [|n IH] w; first by rewrite inE => /eqP->.
case/allpairsP=> -[a v] [ha hv ->]; simpl in ha, hv.
rewrite [(_, _).1]/= [(_, _).2]/=; have [lt E] := IH _ hv.
have [sS _] := size_iota_words n.
rewrite /= (size_words hv) !nth_cat !size_map sS.
move: ha; rewrite !inE => /or3P[]/eqP-> /=.
- by rewrite mul0n add0n lt (nth_map [::]) ?E ?sS // expnS; split=> //; lia.
- rewrite mul1n; have -> : (3 ^ n + widx v < 3 ^ n)%N = false by lia.
  by rewrite addKn lt (nth_map [::]) ?E ?sS // expnS; split=> //; lia.
- have -> : (2 * 3 ^ n + widx v < 3 ^ n)%N = false by lia.
  have -> : (2 * 3 ^ n + widx v - 3 ^ n < 3 ^ n)%N = false by lia.
  have -> : (2 * 3 ^ n + widx v - 3 ^ n - 3 ^ n = widx v)%N by lia.
  by rewrite lt (nth_map [::]) ?E ?sS // expnS; split=> //; lia.
Qed.

Lemma sgz_sgs (x : R) : sgz x \in sgs.
Proof. by rewrite !inE /sgz; case: ifP => // _; case: ifP. Qed.

Lemma signs_at_words ps x : signs_at inj ps x \in words sgs (size ps).
Proof.
by rewrite mem_words size_map eqxx; apply/allP => _ /mapP[r _ ->]; exact: sgz_sgs.
Qed.

Lemma widx_rcons w a : widx (rcons w a) = (widx w * 3 + seq.index a sgs)%N.
Proof.
elim: w => [|b w IH] /=; first by rewrite muln1 addn0.
by rewrite IH size_rcons expnSr mulnA mulnDl addnA.
Qed.

Lemma dget_off s : s \in sgs -> dget off_values s = Ok (seq.index s sgs).
Proof. by rewrite !inE => /or3P[]/eqP->. Qed.

Lemma shiftP d A goal q : recorded q d -> dds_all_polies d = A ->
  foldM (shift_step str (A ++ [:: goal]) d) 0%N A =
  Ok (widx (signs_at inj A (dds_point d)) * 3)%N.
Proof.
case=> uA _ _ _ gs EA; rewrite EA in uA gs.
suff Hs A1 A2 t : A = A1 ++ A2 ->
    foldM (shift_step str (A ++ [:: goal]) d) t A2 =
    Ok (t + widx (signs_at inj A2 (dds_point d)) * 3)%N by rewrite (Hs [::]).
elim: A2 A1 t => [|r A2 IH] A1 t E /=; first by rewrite addn0.
have rA : r \in A by rewrite E mem_cat inE eqxx orbT.
rewrite {1}/shift_step (gs _ rA).1 bind_ok dget_off ?sgz_sgs // !bind_ok.
rewrite (IH (rcons A1 r)) ?cat_rcons //; congr Ok.
have -> : seq.index r (A ++ [:: goal]) = size A1.
  rewrite index_cat rA E index_cat.
  have := uA; rewrite E cat_uniq => /and3P[_ /hasPn/(_ r)].
  by rewrite mem_head => /(_ isT) /= /negPf -> _; rewrite /= eqxx addn0.
have -> : (3 ^ size (A ++ [:: goal]) %/ 3 ^ (size A1 + 1) = 3 ^ (size A2 + 1))%N.
  rewrite size_cat E size_cat /=.
  have -> : (size A1 + (size A2).+1 + 1 = (size A2 + 1) + (size A1 + 1))%N by slia.
  by rewrite expnD mulnK // expn_gt0.
by rewrite /= size_map expnD expn1 [(_ * 3 * _)%N]mulnC mulnA mulnDl addnA.
Qed.

Lemma pyget_nth (A : Type) (x0 : A) l i : (i < size l)%N -> pyget l i = Ok (nth x0 l i).
Proof. by move=> h; rewrite /pyget (drop_nth x0 h). Qed.

Lemma pickP p d goal : nonzero p -> all (@nonzero D) (dds_all_polies d) ->
  described (rootsR (den p)) p d -> root (den p) (dds_point d) ->
  let polies := dds_all_polies d ++ [:: goal] in
  pick_sign_of_goal str polies d
    [seq (count (fun x => signs_at inj polies x == s) (rootsR (den p)))%:R
     | s <- words sgs (size polies)] = Ok (sgz (den goal).[dds_point d]).
Proof.
move=> np nz [rec un] rx polies; rewrite /pick_sign_of_goal.
have -> : pybutlast polies = dds_all_polies d.
  by rewrite /polies cats1 pybutlast_rcons.
rewrite (shiftP goal rec erefl) bind_ok.
set x := dds_point d in un rx *; set A := dds_all_polies d in un polies *.
set c := map _ _; set w := signs_at inj A x.
have szp : size polies = (size A).+1 by rewrite size_cat addn1.
have cE s : s \in sgs ->
    pyget c (widx w * 3 + seq.index s sgs) = Ok (sgz (den goal).[x] == s)%:R.
  move=> hs; rewrite -widx_rcons.
  have hw : rcons w s \in words sgs (size polies).
    rewrite mem_words size_rcons size_map szp eqxx all_rcons /= hs /=.
    by have := signs_at_words A x; rewrite mem_words => /andP[].
  have [lt E] := nth_words hw; have [sS _] := size_iota_words (size polies).
  rewrite (pyget_nth 0) ?size_map ?sS // (nth_map [::]) ?sS // E.
  congr (Ok _%:R); rewrite (@eq_in_count _ _ (fun y => (sgz (den goal).[x] == s) && (pred1 x y))).
    case: (sgz _ == s) => /=; last by rewrite count_pred0.
    by rewrite count_uniq_mem ?uniq_rootsR // mem_rootsR ?rx // (den_neq0 inj_lt).
  move=> y hy; rewrite /signs_at /polies map_cat cats1 eqseq_rcons.
  apply/andP/andP => [[/eqP E1 E2]|[E2 /eqP ->]].
    have := un _ hy E1 => Ey; rewrite -Ey E2; split=> //=.
  by [].
have := cE 0 isT; have := cE 1 isT; have := cE (-1) isT => /=.
rewrite /pick_step /= addn0 => -> -> ->.
have := sgz_sgs (den goal).[x]; rewrite !inE => /or3P[]/eqP-> //=.
Qed.

Lemma evaluate_singleP mx_inv p d goal : inv_spec mx_inv ->
  nonzero p -> okp inj goal -> dds_origin d = p ->
  described (rootsR (den p)) p d -> root (den p) (dds_point d) ->
  evaluate_single_on_sign_assignment str mx_inv d goal =
  if (goal == p) || (size (dds_all_polies d) < 5)%N
  then Ok (sgz (den goal).[dds_point d]) else Err exc_more_than_5.
Proof.
move=> inv np ng Eo Hd rx; rewrite /evaluate_single_on_sign_assignment Eo.
case: eqVneq => [->|ne] /=; first by rewrite (rootP rx) sgz0.
have [[_ nz _ _ _] _] := Hd.
rewrite size_cat addn1 /get_matrix_inverse ltnS ltn0 ltnS.
case: (leqP 5 (size (dds_all_polies d))) => h5 //.
have okA : all (okp inj) (dds_all_polies d ++ [:: goal]).
  by rewrite all_cat /= ng !andbT; apply: sub_all nz => r; exact: okp_nonzero.
rewrite bind_ok (taq_column inj_lt) //.
rewrite sign_matrix_inverse // bind_ok.
have -> : (size (dds_all_polies d)).+1 = size (dds_all_polies d ++ [:: goal]).
  by rewrite size_cat addn1.
rewrite counts //; exact: pickP.
Qed.

End Discr.
