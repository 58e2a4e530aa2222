(** Correctness of [internal_vts] (uni_vts.py 99-139). *)
From mathcomp Require Import all_ssreflect all_algebra.
From mathcomp.real_closed Require Import polyrcf polyorder qe_rcf_th.
From mathcomp.zify Require Import zify.
From Coq Require Import String.
From Verif Require Import Py VtsModel VtsPoly VtsRem VtsTaq VtsCount Thom VtsDiscr RealSign.

Set Implicit Arguments.
Unset Strict Implicit.
Unset Printing Implicit Defensive.
Import GRing.Theory Num.Theory Order.POrderTheory Order.TotalTheory.
Local Open Scope ring_scope.

Section Main.
Variables (D : realDomainType) (R : rcfType) (inj : {rmorphism D -> R}).
Hypothesis inj_lt : {mono inj : x y / x < y}.
Variables (H : eqType) (str : D -> H).
Hypothesis str_inj : injective str.
Variable mx_inv : rmatrix -> rmatrix.
Hypothesis inv : inv_spec mx_inv.
Variable MkRoots : seq D -> res (seq R).
Local Notation den := (den inj).
Local Notation dds := (DiscDerSigns D R H).
Implicit Types (p q : seq D) (d : dds) (T : seq R).

(** [z3rcf.MkRoots(p)] returns the distinct real roots of a non-zero [p]. *)
Definition roots_spec : Prop := forall p, nonzero p ->
  exists2 T, MkRoots p = Ok T & uniq T /\ forall x, (x \in T) = root (den p) x.
Hypothesis mk : roots_spec.

(** The result is [b], or, unless [tot], the "more than 5 polies" exception. *)
Definition yields (A : Type) (tot : bool) (r : res A) (b : A) : Prop :=
  r = Ok b \/ (~~ tot /\ r = Err exc_more_than_5).

Lemma yields_bind (A B : Type) tot (r : res A) a (k : A -> res B) b :
  yields tot r a -> yields tot (k a) b -> yields tot (bind r k) b.
Proof. by case=> [->|[nt ->]] //= _; right. Qed.

(** A descriptor of the root [x] of [p]. *)
Definition describes p d x : Prop :=
  [/\ dds_origin d = p, dds_point d = x, root (den p) x &
      described inj str (rootsR (den p)) p d].

Lemma evaluate_single_yields p d x goal : nonzero p -> okp inj goal ->
  describes p d x ->
  yields (size p <= 6)%N (evaluate_single_on_sign_assignment str mx_inv d goal)
    (sgz (den goal).[x]).
Proof.
move=> np ng [Eo Ex rx Hd].
rewrite (evaluate_singleP inj_lt inv np ng Eo Hd) Ex //.
case: ifP => h; [by left|right; split=> //].
by have [[_ _ _ ss _] _] := Hd; move: h ss; case: eqP => //= _; slia.
Qed.

Lemma e_close_yields p d x goal : nonzero p -> okp inj goal -> describes p d x ->
  yields (size p <= 6)%N (e_close_evaluate_single_on_sign_assignment str mx_inv d goal)
    (sgz (sgp_right (den goal) x)).
Proof.
move=> np + Hd; rewrite /e_close_evaluate_single_on_sign_assignment.
suff Hn n : (size goal <= n)%N -> okp inj goal ->
    yields (size p <= 6)%N (e_close_rec str mx_inv n d goal) (sgz (sgp_right (den goal) x)).
  exact: Hn.
elim: n goal => [|n IH] goal.
  rewrite leqn0 size_eq0 => /eqP-> _ /=; left.
  by rewrite [den [::]]map_poly0 sgp_right0 sgz0.
case: goal => [|c goal] sg ng.
  by left; rewrite [den [::]]map_poly0 sgp_right0 sgz0.
rewrite [e_close_rec _ _ _ _ _]/=.
apply: yields_bind (evaluate_single_yields np ng Hd) _.
have E : ~~ root (den (c :: goal)) x -> sgp_right (den (c :: goal)) x = Num.sg (den (c :: goal)).[x].
  exact: sgp_rightNroot.
rewrite sgz_eq0; case: ifP => h.
  by rewrite E ?sgz_sgr //; left.
rewrite sgp_right_deriv; last by move/negbFE: h.
rewrite -den_derivative; apply: IH; first by rewrite size_derivative; exact: sg.
exact: okp_derivative.
Qed.

(** ** The loops *)
Lemma some_droot_yields p tot (ev : dds -> res bool) (f : R -> bool) ds :
  (forall d x, describes p d x -> yields tot (ev d) (f x)) ->
  List.Forall (fun d => describes p d (dds_point d)) ds ->
  yields tot (some_droot ev ds) (has f (map (@dds_point D R H) ds)).
Proof.
move=> hev; elim: ds => [|d ds IH] Hd /=; first by left.
case/List.Forall_cons_iff: Hd => hd Hds.
apply: yields_bind (hev _ _ hd) _; case: ifP => _ /=; [by left|exact: IH].
Qed.

Lemma some_poly_yields tot (ev : dds -> res bool) (f : R -> bool) ps :
  all (@nonzero D) ps ->
  (forall p d x, p \in ps -> describes p d x -> yields tot (ev d) (f x)) ->
  yields tot (some_poly inj str MkRoots ev ps)
    (has (fun p => has f (rootsR (den p))) ps).
Proof.
elim: ps => [|p ps IH] /=; first by left.
case/andP=> np nps hev.
have [T -> [uT rT]] := mk np; rewrite bind_ok.
have rT' x : x \in T -> root (den p) x by rewrite rT.
have [ds [-> pm Hds]] := get_discri_der_signsP inj_lt str_inj np uT rT'.
rewrite bind_ok; apply: (@yields_bind _ _ _ _ (has f (rootsR (den p)))); last first.
  case: ifP => _ /=; first by left.
  by apply: IH => // q d x hq; apply: hev; rewrite inE hq orbT.
have -> : has f (rootsR (den p)) =
    has f (map (@dds_point D R H) [seq set_origin_poly p d | d <- ds]).
  rewrite -map_comp (@eq_map _ _ _ (@dds_point D R H)) // (perm_has _ pm).
  by apply: eq_has_r => x; rewrite rT mem_rootsR ?(den_neq0 inj_lt).
apply: some_droot_yields; first by move=> d x; apply: hev; exact: mem_head.
have pT x : x \in map (@dds_point D R H) ds -> root (den p) x.
  by rewrite (perm_mem pm) rT.
elim: ds Hds pT {pm} => [|d ds IHd] Hds pT /=; first by constructor.
case/List.Forall_cons_iff: Hds => hd Hds; constructor; last first.
  by apply: IHd => // x hx; apply: pT; rewrite /= inE hx orbT.
split=> //=; first by apply: pT; rewrite /= mem_head.
case: hd => rec un; split=> // y; rewrite mem_rootsR ?(den_neq0 inj_lt) // => ry.
by apply: un; rewrite rT.
Qed.

(** ** The sign conditions *)
Variables le lt eq ne : seq (seq D).
Let polies := le ++ lt ++ eq ++ ne.

(** Is sign [s] allowed for [p]? *)
Definition allowed p (s : int) : bool :=
  [&& (p \in le) ==> (s <= 0), (p \in lt) ==> (s < 0),
      (p \in eq) ==> (s == 0) & (p \in ne) ==> (s != 0)].

Lemma intersect_fold al lk ps (S : seq D -> seq int) :
  (forall p, p \in polies -> dget lk (make_poly_hashabel str p) = Ok (S p)) ->
  {subset ps <= polies} ->
  exists lk', foldM (lookup_intersect str al) lk ps = Ok lk' /\
    forall p, p \in polies -> exists2 S', dget lk' (make_poly_hashabel str p) = Ok S' &
      forall s, (s \in S') = (s \in S p) && ((p \in ps) ==> (s \in al)).
Proof.
elim: ps lk S => [|q ps IH] lk S hlk sub /=.
  by exists lk; split=> // p hp; exists (S p); [exact: hlk|move=> s; rewrite andbT].
have hq : q \in polies by apply: sub; rewrite mem_head.
rewrite {1}/lookup_intersect hlk //=.
pose S1 p := if p == q then [seq x <- S p | x \in al] else S p.
have [||lk' [-> hlk']] := IH (dset lk (make_poly_hashabel str q)
    [seq x <- S q | x \in al]) S1.
- move=> p hp; rewrite dget_dset (inj_eq (hash_inj str_inj)) /S1 hlk //.
  by case: eqP => [->|].
- by move=> p hp; apply: sub; rewrite inE hp orbT.
exists lk'; split=> // p /hlk'[S' E mS']; exists S' => // s.
rewrite mS' /S1 inE; case: eqP => //= _; rewrite mem_filter.
by case: (s \in al); case: (p \in ps); rewrite /= ?andbT ?andbF.
Qed.

Lemma sign_conditions_lookupP :
  exists lk, sign_conditions_lookup str le lt eq ne = Ok lk /\
    forall p, p \in polies -> exists2 S, dget lk (make_poly_hashabel str p) = Ok S &
      forall s, (s \in S) = (s \in [:: -1; 0; 1]) && allowed p s.
Proof.
rewrite /sign_conditions_lookup -/polies.
set l0 := foldl _ _ _.
have E0 p : p \in polies -> dget l0 (make_poly_hashabel str p) = Ok [:: -1; 0; 1].
  rewrite /l0; elim/last_ind: (polies) => // ps q IH.
  rewrite mem_rcons inE -cats1 foldl_cat /= dget_dset (inj_eq (hash_inj str_inj)).
  by case: eqP => //= _; exact: IH.
have choose (lk : sign_dict H) (S : seq D -> pred int) :
    (forall p, p \in polies -> exists2 S', dget lk (make_poly_hashabel str p) = Ok S' &
      forall s, (s \in S') = S p s) ->
    exists S'' : seq D -> seq int,
      (forall p, p \in polies -> dget lk (make_poly_hashabel str p) = Ok (S'' p)) /\
      forall p, p \in polies -> forall s, (s \in S'' p) = S p s.
  move=> h; exists (fun p => if dget lk (make_poly_hashabel str p) is Ok S' then S' else [::]).
  by split=> p /h[S' E mS']; rewrite E.
have [sle slt seq' sne] : [/\ {subset le <= polies}, {subset lt <= polies},
    {subset eq <= polies} & {subset ne <= polies}].
  by split=> p hp; rewrite !mem_cat hp ?orbT.
have [l1 [-> /choose[S1 [E1 m1]]]] := @intersect_fold [:: -1; 0] l0 le (fun _ => [:: -1; 0; 1]) E0 sle.
have [l2 [E2' /choose[S2 [E2 m2]]]] := @intersect_fold [:: -1] l1 lt S1 E1 slt.
have [l3 [E3' /choose[S3 [E3 m3]]]] := @intersect_fold [:: 0] l2 eq S2 E2 seq'.
have [l4 [E4' /choose[S4 [E4 m4]]]] := @intersect_fold [:: -1; 1] l3 ne S3 E3 sne.
rewrite bind_ok E2' bind_ok E3' bind_ok E4'; exists l4; split=> // p hp.
exists (S4 p); first exact: E4.
move=> s; rewrite m4 // m3 // m2 // m1 // /allowed /= -!andbA.
case: (boolP (s \in [:: -1; 0; 1])) => //= hs.
by move: hs; rewrite !inE => /or3P[]/eqP->; do !case: (p \in _).
Qed.

Lemma all_signs_yields tot (ev : seq D -> res int) (sg : seq D -> int) lk ps :
  {subset ps <= polies} ->
  (forall p, p \in polies -> exists2 S, dget lk (make_poly_hashabel str p) = Ok S &
     forall s, (s \in S) = (s \in [:: -1; 0; 1]) && allowed p s) ->
  (forall p, p \in ps -> yields tot (ev p) (sg p)) ->
  (forall p, sg p \in [:: -1; 0; 1]) ->
  yields tot (all_signs_allowed str ev lk ps) (all (fun p => allowed p (sg p)) ps).
Proof.
move=> + hlk + hsg; elim: ps => [|p ps IH] sub hev /=; first by left.
apply: yields_bind (hev p (mem_head _ _)) _.
have [S -> mS] := hlk p (sub _ (mem_head _ _)).
rewrite bind_ok mS hsg andTb; case: ifP => _ /=; last by left.
by apply: IH => q hq; [apply: sub|apply: hev]; rewrite inE hq orbT.
Qed.

Lemma sgz3 (x : R) : sgz x \in [:: -1; 0; 1].
Proof. by rewrite !inE /sgz; case: ifP => // _; case: ifP. Qed.

(** ** The conditions at a point *)
Definition sat (x : R) : Prop :=
  [/\ {in le, forall p, (den p).[x] <= 0}, {in lt, forall p, (den p).[x] < 0},
      {in eq, forall p, (den p).[x] = 0} & {in ne, forall p, (den p).[x] != 0}].

Lemma satP x : reflect (sat x) (all (fun p => allowed p (sgz (den p).[x])) polies).
Proof.
apply: (iffP allP) => [h|[h1 h2 h3 h4] p _]; last first.
  apply/and4P; split; apply/implyP.
  - by move/h1; rewrite sgz_le0.
  - by move/h2; rewrite sgz_lt0.
  - by move/h3 => ->; rewrite sgz0.
  - by move/h4; rewrite sgz_eq0.
split=> p hp.
- have /h/and4P[] : p \in polies by rewrite mem_cat hp.
  by rewrite hp /= sgz_le0.
- have /h/and4P[_] : p \in polies by rewrite !mem_cat hp orbT.
  by rewrite hp /= sgz_lt0.
- have /h/and4P[_ _] : p \in polies by rewrite !mem_cat hp !orbT.
  by rewrite hp /= sgz_eq0 => /eqP.
- have /h/and4P[_ _ _] : p \in polies by rewrite !mem_cat hp !orbT.
  by rewrite hp /= sgz_eq0.
Qed.

Hypothesis nzs : all (@nonzero D) polies.

Let dens := map den polies.
Lemma dens_neq0 : all (fun P => P != 0) dens.
Proof. by rewrite all_map; apply: sub_all nzs => p; exact: (den_neq0 inj_lt). Qed.

Lemma mem_dens p : p \in polies -> den p \in dens.
Proof. exact: map_f. Qed.

Definition exact_at x := all (fun p => allowed p (sgz (den p).[x])) polies.
Definition close_at x := all (fun p => allowed p (sgz (sgp_right (den p) x))) polies.
Definition minf_ok := all (fun p => allowed p (sgz (sgp_minfty (den p)))) polies.

Lemma close_sat x : close_at x -> exists y, sat y.
Proof.
move=> h; have [y _ Hy] := right_point x dens_neq0.
exists y; apply/satP; apply/allP => p hp.
by have := allP h p hp; rewrite -Hy ?sgz_sgr // mem_dens.
Qed.

Lemma minf_sat : minf_ok -> exists y, sat y.
Proof.
move=> h; have [y Hy] := minf_point dens_neq0.
exists y; apply/satP; apply/allP => p hp.
by have := allP h p hp; rewrite -Hy ?sgz_sgr // mem_dens.
Qed.

Definition vts_value : bool :=
  [|| has (fun p => has exact_at (rootsR (den p))) (le ++ eq),
      has (fun p => has close_at (rootsR (den p))) (lt ++ ne) | minf_ok].

Lemma nz_in p : p \in polies -> nonzero p. Proof. exact: (allP nzs). Qed.

Lemma vts_valueP : vts_value <-> exists x, sat x.
Proof.
have sub1 p : p \in le ++ eq -> p \in polies.
  by rewrite !mem_cat => /orP[]->; rewrite ?orbT.
have sub2 p : p \in lt ++ ne -> p \in polies.
  by rewrite !mem_cat => /orP[]->; rewrite ?orbT.
have mR p x : p \in polies -> (x \in rootsR (den p)) = root (den p) x.
  by move=> hp; rewrite mem_rootsR // (den_neq0 inj_lt) // nz_in.
split.
  case/or3P=> [/hasP[p hp /hasP[x hx h]]|/hasP[p hp /hasP[x hx h]]|].
  - by exists x; apply/satP.
  - exact: close_sat h.
  - exact: minf_sat.
case=> x sx; have [s1 s2 s3 s4] := sx.
case: (boolP (has (fun p => root (den p) x) (le ++ eq))) => [/hasP[p hp rp]|nr].
  apply/or3P/Or31/hasP; exists p => //; apply/hasP; exists x; first by rewrite mR ?sub1.
  exact/satP.
have nrx p : p \in polies -> ~~ root (den p) x.
  rewrite 3!mem_cat => /or4P[] hp.
  - by apply: (hasPn nr); rewrite mem_cat hp.
  - by rewrite rootE lt_eqF // s2.
  - by apply: (hasPn nr); rewrite mem_cat hp orbT.
  - by rewrite rootE s4.
pose rts := flatten [seq rootsR (den p) | p <- polies].
have inr p y : p \in polies -> root (den p) y -> y \in rts.
  move=> hp ry; apply/flattenP; exists (rootsR (den p)); first exact: map_f.
  by rewrite mR.
have [hmin|[a [ha ax hmax]]] := max_below rts x.
  apply/or3P/Or33/allP => p hp; rewrite (@sgp_minfty_noroot _ _ x) ?sgz_sgr.
    exact: (allP (introT (satP x) sx)).
  move=> y yx; apply/negP => ry; have xy := hmin _ (inr _ _ hp ry).
  have E : x = y by apply/eqP; rewrite eq_le xy yx.
  by move: ry; rewrite -E; apply/negP; exact: nrx.
have sr p : p \in polies -> sgp_right (den p) a = Num.sg (den p).[x].
  move=> hp; apply: sgp_right_noroot => // y /andP[ay yx].
  apply/negP => ry; have xy := hmax _ (inr _ _ hp ry) ay.
  have E : x = y by apply/eqP; rewrite eq_le xy yx.
  by move: ry; rewrite -E; apply/negP; exact: nrx.
have [p hp rp] : exists2 p, p \in polies & root (den p) a.
  have /flattenP[s /mapP[p hp ->] has'] := ha.
  by exists p => //; rewrite -mR.
case: (boolP (has (fun p => root (den p) a) (lt ++ ne))) => [/hasP[q hq rq]|nra].
  apply/or3P/Or32/hasP; exists q => //; apply/hasP; exists a; first by rewrite mR ?sub2.
  apply/allP => r hr; rewrite sr // sgz_sgr.
  exact: (allP (introT (satP x) sx)).
apply/or3P/Or31/hasP; exists p.
  have : p \notin lt ++ ne by apply: contraL rp => /(hasPn nra).
  by move: hp; rewrite !mem_cat negb_or => /or4P[] -> //=; rewrite ?orbT ?andbF.
apply/hasP; exists a; first by rewrite mR.
have sn q : q \in polies -> ~~ root (den q) a -> Num.sg (den q).[a] = Num.sg (den q).[x].
  by move=> hq nq; rewrite -sr // sgp_rightNroot.
apply/satP; split=> q hq.
- have hq' : q \in polies by rewrite mem_cat hq.
  case: (boolP (root (den q) a)) => [/rootP -> //|/(sn _ hq') E].
  by rewrite -sgr_le0 E sgr_le0 s1.
- have hq' : q \in polies by rewrite !mem_cat hq orbT.
  rewrite -sgr_lt0 sn ?sgr_lt0 ?s2 //; apply: (hasPn nra).
  by rewrite mem_cat hq.
- have hq' : q \in polies by rewrite !mem_cat hq !orbT.
  by have := nrx _ hq'; rewrite rootE s3 // eqxx.
- have hq' : q \in polies by rewrite !mem_cat hq !orbT.
  rewrite -sgr_eq0 sn ?sgr_eq0 ?s4 //; apply: (hasPn nra).
  by rewrite mem_cat hq orbT.
Qed.

Lemma neg_inf_signP p : nonzero p -> neg_inf_sign p = Ok (sgz (sgp_minfty (den p))).
Proof.
move=> np; rewrite /neg_inf_sign neg_inf_valueE ?nonzero_nil //= /sign_func.
rewrite /sgp_minfty -/(minf _) sgz_sgr (minf_den inj_lt) //.
rewrite /sgz (inj_eq0 inj_lt) (inj_lt0 inj_lt).
by case: ltrgt0P.
Qed.

Theorem internal_vts_yields :
  yields (all (fun p => size p <= 6)%N polies)
    (internal_vts inj str MkRoots mx_inv le lt eq ne) vts_value.
Proof.
rewrite /internal_vts -/polies.
have [lk [-> hlk]] := sign_conditions_lookupP; rewrite bind_ok.
have tot6 p tot' : p \in polies -> forall r b,
    @yields tot' (size p <= 6)%N r b -> yields (all (fun p => size p <= 6)%N polies) r b.
  move=> hp r b [->|[h ->]]; [by left|right; split=> //].
  by apply: contra h => /allP/(_ p hp).
have subs (p : seq D) : p \in polies -> nonzero p by exact: nz_in.
have sub1 p : p \in le ++ eq -> p \in polies.
  by rewrite !mem_cat => /orP[]->; rewrite ?orbT.
have sub2 p : p \in lt ++ ne -> p \in polies.
  by rewrite !mem_cat => /orP[]->; rewrite ?orbT.
apply: (@yields_bind _ _ _ _ (has (fun p => has exact_at (rootsR (den p))) (le ++ eq))).
  apply: some_poly_yields; first by apply/allP => p /sub1/subs.
  move=> p d x /sub1 hp hd; apply: all_signs_yields => //.
    move=> q hq; apply: (tot6 _ _ hp).
    by apply: evaluate_single_yields hd; [exact: subs|apply: okp_nonzero; exact: subs].
  by move=> q; exact: sgz3.
case: ifP => h1; rewrite /vts_value h1 /=; first by left.
apply: (@yields_bind _ _ _ _ (has (fun p => has close_at (rootsR (den p))) (lt ++ ne))).
  apply: some_poly_yields; first by apply/allP => p /sub2/subs.
  move=> p d x /sub2 hp hd; apply: all_signs_yields => //.
    move=> q hq; apply: (tot6 _ _ hp).
    by apply: e_close_yields hd; [exact: subs|apply: okp_nonzero; exact: subs].
  by move=> q; exact: sgz3.
case: ifP => h2; first by left.
apply: all_signs_yields => //; last by move=> q; exact: sgz3.
by move=> p /subs np; left; exact: neg_inf_signP.
Qed.

End Main.
