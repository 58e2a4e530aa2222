(** Cauchy indices and Tarski queries of uni_vts.py. *)
From mathcomp Require Import all_ssreflect all_algebra.
From mathcomp.real_closed Require Import polyrcf polyorder qe_rcf_th.
From mathcomp.zify Require Import zify.
From Coq Require Import String.
From Verif Require Import Py VtsModel VtsPoly VtsRem.

Set Implicit Arguments.
Unset Strict Implicit.
Unset Printing Implicit Defensive.
Import GRing.Theory Num.Theory Order.POrderTheory Order.TotalTheory.
Import Pdiv.Idomain Pdiv.Ring Pdiv.ComRing Pdiv.Field.
Local Open Scope ring_scope.

Section Cindex.
Variable R : rcfType.
Implicit Types P Q : {poly R}.

Lemma cindexR_scalel P Q c : 0 < c -> cindexR (c *: P) Q = cindexR P Q.
Proof.
by move=> c0; rewrite /cindexR; apply: eq_bigr => x _; rewrite jump_mulCp gtr0_sgz ?mul1r.
Qed.

Definition minf P : R := (-1) ^+ (size P).-1 * lead_coef P.

Lemma minfM P Q : P != 0 -> Q != 0 -> minf (P * Q) = minf P * minf Q.
Proof.
move=> p0 q0; rewrite /minf lead_coefM size_mul // mulrACA -exprD.
congr (_ ^+ _ * _); move: p0 q0; rewrite -!size_poly_gt0.
by case: (size P) => // n; case: (size Q) => // m _ _; rewrite addnS addSn /=.
Qed.

Lemma minf_eq0 P : (minf P == 0) = (P == 0).
Proof. by rewrite /minf mulf_eq0 signr_eq0 lead_coef_eq0. Qed.

Lemma crossRE P Q : P != 0 -> Q != 0 ->
  crossR (P * Q) = (minf P * minf Q < 0)%R%:Z - (lead_coef P * lead_coef Q < 0)%R%:Z.
Proof.
move=> p0 q0; rewrite /crossR /variation /sgp_pinfty /sgp_minfty -/(minf _).
rewrite minfM // lead_coefM sgz_sgr -sgrM sgr_lt0.
have a0 : minf P * minf Q != 0 by rewrite mulf_neq0 // minf_eq0.
have b0 : lead_coef P * lead_coef Q != 0 by rewrite mulf_neq0 // lead_coef_eq0.
move: (minf P * _) (lead_coef P * _) a0 b0 => a b a0 b0.
case: (ltrgt0P a) a0 => // ha _; case: (ltrgt0P b) b0 => // hb _.
- by rewrite gtr0_sgz // (@lt_gtF _ _ 0) ?mulr_gt0.
- by rewrite ltr0_sgz // pmulr_rlt0 // hb.
- by rewrite gtr0_sgz // pmulr_llt0 // ha.
- by rewrite ltr0_sgz // (@lt_gtF _ _ 0) // nmulr_lgt0.
Qed.

Lemma next_modE P Q (r s : {poly R}) m : Q != 0 -> (size r < size Q)%N -> 0 < m ->
  m *: P = s * Q + r -> exists2 c : R, 0 < c & next_mod P Q = c *: (- r).
Proof.
move=> q0 sr m0 E.
have Er : r = m *: (P %% Q).
  by rewrite -modpZl E modp_addl_mul_small.
have l0 : lead_coef Q ^+ rscalp P Q != 0 by rewrite lc_expn_rscalp_neq0.
exists ((lead_coef Q ^+ rscalp P Q) ^+ 2 / m).
  by rewrite divr_gt0 // exprn_even_gt0.
rewrite /next_mod Er modpE scalerN scaleNr !scalerA; congr (- (_ *: _)).
by rewrite mulfVK ?gt_eqF // expr2 mulfK.
Qed.
End Cindex.

Section Changes.
Variable D : realDomainType.
Implicit Types (p q : seq D) (l : seq D).

Lemma sign_changes_cons2 (a b : D) l : a != 0 -> b != 0 ->
  sign_changes [:: a, b & l] = ((a * b < 0)%R + sign_changes (b :: l))%N.
Proof. by move=> a0 b0; rewrite /sign_changes /= a0 b0 /=; case: ifP. Qed.

Lemma sign_changes1 (a : D) : sign_changes [:: a] = 0%N.
Proof. by rewrite /sign_changes /=; case: ifP. Qed.

(** The value of [p] at minus infinity, up to a positive factor. *)
Definition ninf p : D := last 0 p * (- 1) ^+ ((size p - 1) %% 2).

Lemma neg_inf_valueE p : p != [::] -> neg_inf_value p = Ok (ninf p).
Proof. by case: p. Qed.
Lemma pylastE p : p != [::] -> pylast p = Ok (last 0 p).
Proof. by case: p. Qed.

Lemma mapM_ok (A B : Type) (f : A -> res B) (g : A -> B) (P : pred A) (s : seq A) :
  (forall a, P a -> f a = Ok (g a)) -> all P s -> mapM f s = Ok (map g s).
Proof. by move=> h; elim: s => //= a s IH /andP[/h -> /IH ->]. Qed.
End Changes.

Section Taq.
Variables (D : realDomainType) (R : rcfType) (inj : {rmorphism D -> R}).
Hypothesis inj_lt : {mono inj : x y / x < y}.
Implicit Types p q f g r : seq D.

Lemma inj_eq0 x : (inj x == 0) = (x == 0).
Proof.
case: (ltrgt0P x) => h; last by rewrite h rmorph0 eqxx.
  by rewrite gt_eqF // -(rmorph0 inj) inj_lt.
by rewrite lt_eqF // -(rmorph0 inj) inj_lt.
Qed.
Lemma inj_injective : injective inj.
Proof.
move=> x y E; apply/eqP; rewrite -subr_eq0 -inj_eq0 rmorphB E subrr //.
Qed.
Lemma inj_lt0 x : (inj x < 0) = (x < 0).
Proof. by rewrite -{1}(rmorph0 inj) inj_lt. Qed.
Lemma inj_gt0 x : (0 < inj x) = (0 < x).
Proof. by rewrite -{1}(rmorph0 inj) inj_lt. Qed.

(** The real polynomial denoted by a coefficient list. *)
Definition den p : {poly R} := map_poly inj (Poly p).

Lemma denE p : den p = Poly (map inj p).
Proof.
apply/polyP => i; rewrite coef_map !coef_Poly.
case: (ltnP i (size p)) => h; first by rewrite (nth_map 0).
rewrite [p`__]nth_default // [RHS]nth_default ?size_map //; exact: rmorph0.
Qed.

Lemma den_multiply p q : den (multiply p q) = den p * den q.
Proof. by rewrite /den multiply_Poly rmorphM. Qed.
Lemma den_derivative p : den (derivative p) = (den p)^`().
Proof. by rewrite /den derivative_Poly deriv_map. Qed.

Lemma size_den p : normal p -> size (den p) = size p.
Proof.
by move=> np; rewrite /den size_map_inj_poly ?rmorph0 ?size_Poly_normal //; exact: inj_injective.
Qed.
Lemma lead_coef_den p : normal p -> lead_coef (den p) = inj (last 0 p).
Proof.
move=> np; rewrite /den lead_coef_map_inj ?rmorph0 ?lead_coef_normal //.
exact: inj_injective.
Qed.
Lemma den_neq0 p : nonzero p -> den p != 0.
Proof.
move=> np; rewrite -size_poly_eq0 size_den ?nonzero_normal // size_eq0.
exact: nonzero_nil.
Qed.

Lemma den_evaluate p x : evaluate_poly inj p x = (den p).[x].
Proof.
rewrite denE horner_Poly /evaluate_poly.
have E k s : foldl (fun s cp => s + inj cp.1 * x ^+ cp.2) s (zip p (iota k (size p)))
  = s + horner_rec (map inj p) x * x ^+ k.
  elim: p k s => [|a p IH] k s /=; first by rewrite mul0r addr0.
  by rewrite IH -addrA; congr (_ + _); rewrite mulrDl exprS mulrA addrC.
by rewrite E add0r expr0 mulr1.
Qed.


Lemma nonzero_opp p : nonzero p -> nonzero [seq - c | c <- p].
Proof.
case: p => [|a p] /=; first by rewrite /nonzero /= eqxx.
by rewrite /nonzero /= (last_map (fun c => - c)) oppr_eq0.
Qed.
Lemma den_opp p : den [seq - c | c <- p] = - den p.
Proof.
apply/polyP => i; rewrite coefN !coef_map !coef_Poly /=.
case: (ltnP i (size p)) => h; first by rewrite (nth_map 0) // rmorphN.
by rewrite !nth_default ?size_map // rmorph0 oppr0.
Qed.

Lemma minf_den p : nonzero p -> minf (den p) = inj (ninf p).
Proof.
move=> np; have np' := nonzero_normal np.
rewrite /minf /ninf lead_coef_den // size_den // mulrC rmorphM; congr (_ * _).
by rewrite rmorphX rmorphN1 modn2 signr_odd subn1.
Qed.

(** The last element of a signed remainder sequence of non-zero lists divides
    all of them, the sequence starts with its arguments and the sign changes at
    both infinities count the Cauchy index. *)
Lemma signed_remainder_sequence_recP n p q : nonzero p -> nonzero q ->
  (size q < n)%N ->
  exists s, [/\ signed_remainder_sequence_rec n p q = Ok [:: p, q & s],
    all (@nonzero D) [:: p, q & s] &
    (sign_changes (map (@ninf D) [:: p, q & s]))%:Z
    - (sign_changes (map (last 0) [:: p, q & s]))%:Z = cindexR (den q) (den p)].
Proof.
elim: n p q => [|n IH] p q np nq; first by rewrite ltn0.
rewrite ltnS => sq /=.
have [r [-> nr sr [m [s [m0 E]]]]] := signed_pseudo_remainderP p nq.
have E' : inj m *: den p = map_poly inj s * den q + den r.
  by rewrite /den -map_polyZ /= E rmorphD rmorphM.
have q0 := den_neq0 nq; have p0 := den_neq0 np.
have sr' : (size (den r) < size (den q))%N.
  by rewrite (size_den nr) (size_den (nonzero_normal nq)).
have m0' : 0 < inj m by rewrite inj_gt0.
have [c c0 En] := next_modE q0 sr' m0' E'.
have Ecr : crossR (den p * den q) =
    (ninf p * ninf q < 0)%R%:Z - (last 0 p * last 0 q < 0)%R%:Z.
  rewrite crossRE // !minf_den // -!rmorphM inj_lt0.
  by rewrite !lead_coef_den ?nonzero_normal // -rmorphM inj_lt0.
have nin0 f : nonzero f -> ninf f != 0.
  by move=> nf; rewrite /ninf mulf_neq0 // signr_eq0.
rewrite cindexR_rec Ecr En cindexR_scalel //=.
case: r nr sr {sr'} E E' En => [_ _ _ _ _|d r nr sr E E' En].
  exists [::]; rewrite /= np nq; split=> //.
  rewrite !sign_changes_cons2 ?nin0 // !sign_changes1 !addn0.
  by rewrite /den /= rmorph0 oppr0 cindexR0p addr0.
have nr' := nonzero_opp (normal_nonzero nr isT).
have [|t [-> nt Et]] := IH q _ nq nr'.
  by rewrite size_map; exact: leq_trans sr sq.
exists ([seq - c | c <- d :: r] :: t); split=> //=; first by rewrite np.
rewrite -den_opp -Et /= !(sign_changes_cons2 _ (a := ninf p)) ?nin0 //.
rewrite !(sign_changes_cons2 _ (a := last 0 p)) //.
by rewrite !PoszD opprD addrACA.
Qed.

Lemma signed_remainder_sequenceP p q : nonzero p -> nonzero q ->
  exists s, [/\ signed_remainder_sequence p q = Ok [:: p, q & s],
    all (@nonzero D) [:: p, q & s] &
    (sign_changes (map (@ninf D) [:: p, q & s]))%:Z
    - (sign_changes (map (last 0) [:: p, q & s]))%:Z = cindexR (den q) (den p)].
Proof. by move=> np nq; apply: signed_remainder_sequence_recP. Qed.

Lemma cauchy_index_nonzero p q : nonzero p -> nonzero q ->
  signed_remainder_cauchy_index p q = Ok (cindexR (den q) (den p)).
Proof.
move=> np nq; rewrite /signed_remainder_cauchy_index.
have [s [-> ns E]] := signed_remainder_sequenceP np nq.
have h f : nonzero f -> neg_inf_value f = Ok (ninf f).
  by move/nonzero_nil/neg_inf_valueE.
have h' f : nonzero f -> pylast f = Ok (last 0 f).
  by move/nonzero_nil/pylastE.
case: q nq ns E => [|b q] nq ns E; first by move: nq; rewrite /nonzero eqxx.
by rewrite bind_ok (mapM_ok h ns) bind_ok (mapM_ok h' ns) bind_ok E.
Qed.

Lemma butlast_nseq k : pybutlast (nseq k.+1 0) = nseq k 0 :> seq D.
Proof. by rewrite /pybutlast size_nseq; elim: k => //= k ->. Qed.

(** A second argument with only zero entries: index 0. *)
Lemma spr_zeros n k g : g != [::] -> (k <= n)%N ->
  signed_pseudo_remainder_rec n (nseq k 0) g = Ok [::].
Proof.
case: g => // b g _; elim: n k => [|n IH] [|k] //= kn.
have -> : last 0 (nseq k 0) = 0 :> D by elim: (k) => //=.
by rewrite eqxx -[0 :: _]/(nseq k.+1 0) butlast_nseq ?IH.
Qed.

Lemma spr_zero_divisor p k : nonzero p ->
  signed_pseudo_remainder p (nseq k.+1 0) = Ok (if (size p < k.+1)%N then p else [::]).
Proof.
case: p => [|a p]; rewrite /nonzero ?eqxx //= => np.
rewrite /signed_pseudo_remainder /= (negPf np).
have -> : last 0 (nseq k 0) = 0 :> D by elim: (k) => //=.
rewrite ltxx size_nseq ltnS; case: ltnP => // h.
set l := map _ _; have -> : l = nseq (size p).+1 0.
  apply: (@eq_from_nth _ 0).
    by rewrite size_map size_zip size_cat /= !size_nseq; slia.
  move=> i; rewrite size_map => hi; rewrite (nth_map (0, 0)) //.
  rewrite nth_nseq if_same nth_zip_cond hi /= mulr0 -[0 :: nseq k 0]/(nseq k.+1 0) -nseqD.
  by rewrite nth_nseq if_same mul0r subr0.
by rewrite butlast_nseq spr_zeros.
Qed.

Lemma sign_changes_opp3 (a : D) l : a != 0 -> all (eq_op^~ 0) l ->
  sign_changes (a :: l) = 0%N /\ sign_changes (a :: rcons l (- a)) = 1%N.
Proof.
move=> a0 al; rewrite /sign_changes /= filter_rcons oppr_eq0 a0.
have -> : [seq c <- l | c != 0] = [::].
  by elim: l al => //= b l IH /andP[/eqP-> /IH ->]; rewrite eqxx.
by rewrite /pybutlast /= mulrN oppr_lt0 -expr2 exprn_even_gt0 ?a0.
Qed.

Lemma cauchy_index_zeros p k : nonzero p ->
  signed_remainder_cauchy_index p (nseq k 0) = Ok 0.
Proof.
move=> np; case: k => // k; rewrite /signed_remainder_cauchy_index /=.
rewrite /signed_remainder_sequence /= spr_zero_divisor //.
case: p np => [|a p] np; first by move: np; rewrite /nonzero eqxx.
have l0 : last 0 (nseq k 0) = 0 :> D by elim: (k) => //=.
have np' := np; rewrite /nonzero /= in np'.
case: ifP => h /=; last first.
  rewrite l0 mul0r; have [] := @sign_changes_opp3 _ [:: 0] np'; first by rewrite /= eqxx.
  rewrite /= => -> _; have := @sign_changes_opp3 (last a p * (-1) ^+ ((size (a :: p) - 1) %% 2)) [:: 0].
  by rewrite mulf_neq0 ?signr_eq0 //= eqxx => /(_ isT isT)[/= ->].
rewrite /signed_pseudo_remainder size_nseq -[0 :: nseq k 0]/(nseq k.+1 0) spr_zeros //=.
rewrite l0 !mul0r.
rewrite (last_map (fun c => - c)) size_map.
have [] := @sign_changes_opp3 (last a p) [:: 0] np'; first by rewrite /= eqxx.
rewrite /= => _ ->.
set e := _ ^+ _; have := @sign_changes_opp3 (last a p * e) [:: 0].
by rewrite mulf_neq0 ?signr_eq0 //= eqxx mulNr => /(_ isT isT)[/= _ ->].
by rewrite size_nseq.
Qed.

Lemma den_eq0 p : (den p == 0) = (Poly p == 0).
Proof.
by rewrite /den -!size_poly_eq0 size_map_inj_poly ?rmorph0 //; exact: inj_injective.
Qed.

Lemma Poly_eq0_nseq p : Poly p = 0 -> p = nseq (size p) 0.
Proof.
move=> E; apply: (@eq_from_nth _ 0); rewrite ?size_nseq // => i hi.
by rewrite nth_nseq if_same -(coef_Poly p) E coef0.
Qed.

(** Main fact about [signed_remainder_cauchy_index]. *)
Lemma cauchy_indexP p q : nonzero p -> nonzero q || (den q == 0) ->
  signed_remainder_cauchy_index p q = Ok (cindexR (den q) (den p)).
Proof.
move=> np /orP[nq|q0]; first exact: cauchy_index_nonzero.
rewrite (eqP q0) cindexR0p; move: q0; rewrite den_eq0 => /eqP/Poly_eq0_nseq ->.
exact: cauchy_index_zeros.
Qed.

Lemma tarski_queryP p q : nonzero p -> nonzero q || (den q == 0) ->
  tarski_query p q = Ok (\sum_(x <- rootsR (den p)) sgz (den q).[x]).
Proof.
move=> np hq; rewrite /tarski_query.
have nd := normal_derivative (nonzero_normal np).
rewrite cauchy_indexP //; last first.
  rewrite den_multiply mulf_eq0.
  case: (eqVneq (derivative p) [::]) => [->|d0].
    by rewrite [den [::]]map_poly0 eqxx orbT.
  case/orP: hq => [hq|->]; last by rewrite !orbT.
  by rewrite nonzero_multiply // normal_nonzero.
rewrite den_multiply den_derivative; congr Ok.
by rewrite -changes_mods_cindex -/(taqR _ _) -taq_taqR.
Qed.

(** Lists without trailing zero, or with only zeros. *)
Definition okp q : bool := nonzero q || (den q == 0).

Lemma okp_nonzero q : nonzero q -> okp q. Proof. by rewrite /okp => ->. Qed.

Lemma okp_normal q : normal q -> okp q.
Proof.
case: (eqVneq q [::]) => [-> _|q0 nq]; first by rewrite /okp [den [::]]map_poly0 eqxx orbT.
by rewrite okp_nonzero // normal_nonzero.
Qed.

Lemma okp_multiply p q : okp p -> okp q -> okp (multiply p q).
Proof.
rewrite /okp den_multiply mulf_eq0.
case/orP=> [np|->]; last by rewrite orbT.
by case/orP=> [nq|->]; [rewrite nonzero_multiply|rewrite !orbT].
Qed.

Lemma okp_derivative p : okp p -> okp (derivative p).
Proof.
case/orP=> [np|/eqP p0]; first by apply: okp_normal; apply: normal_derivative; exact: nonzero_normal.
by rewrite /okp den_derivative p0 deriv0 eqxx orbT.
Qed.

End Taq.
