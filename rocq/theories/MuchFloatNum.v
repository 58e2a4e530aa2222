(** Binary64 arithmetic is exact on the columns of shallow runs. *)
From Coq Require Import ZArith SpecFloat Lia Bool.
Local Open Scope Z_scope.

(** Mantissa with exactly 53 bits. *)
Definition m53 (m : Z) := 2 ^ 52 <= m < 2 ^ 53.

Lemma digits_bounds m : 2 ^ (Zpos (digits2_pos m) - 1) <= Zpos m < 2 ^ Zpos (digits2_pos m).
Proof.
induction m as [m IH|m IH|]; simpl digits2_pos; [| |simpl; lia];
  rewrite Pos2Z.inj_succ;
  replace (Z.succ (Zpos (digits2_pos m)) - 1) with (Zpos (digits2_pos m)) by lia;
  rewrite Z.pow_succ_r by lia;
  assert (E : 2 ^ Zpos (digits2_pos m) = 2 * 2 ^ (Zpos (digits2_pos m) - 1))
    by (rewrite <- Z.pow_succ_r by lia; f_equal; lia); lia.
Qed.

Lemma digits_eq m n : 2 ^ (n - 1) <= Zpos m < 2 ^ n -> 0 < n -> Zpos (digits2_pos m) = n.
Proof.
intros [h1 h2] n0; pose proof (digits_bounds m) as [h3 h4].
assert (a : n - 1 < Zpos (digits2_pos m)) by (apply (Z.pow_lt_mono_r_iff 2); lia).
assert (b : Zpos (digits2_pos m) - 1 < n) by (apply (Z.pow_lt_mono_r_iff 2); lia).
lia.
Qed.

Lemma shr_double m : 0 <= m -> shr_1 (Build_shr_record (2 * m) false false) = Build_shr_record m false false.
Proof. destruct m; [reflexivity|reflexivity|lia]. Qed.

Lemma shr_iter n m : 0 <= m ->
  iter_pos shr_1 n (Build_shr_record (m * 2 ^ Zpos n) false false) = Build_shr_record m false false.
Proof.
revert m; induction n as [n IH|n IH|]; intros m h; cbn [iter_pos].
- replace (m * 2 ^ Zpos n~1) with (2 * (m * 2 ^ Zpos n * 2 ^ Zpos n)).
    rewrite shr_double, IH, IH; trivial; pose proof (Z.pow_nonneg 2 (Zpos n)); nia.
  replace (Zpos n~1) with (1 + (Zpos n + Zpos n)) by lia; rewrite !Z.pow_add_r by lia; ring.
- replace (m * 2 ^ Zpos n~0) with (m * 2 ^ Zpos n * 2 ^ Zpos n).
    rewrite IH, IH; trivial; pose proof (Z.pow_nonneg 2 (Zpos n)); nia.
  replace (Zpos n~0) with (Zpos n + Zpos n) by lia; rewrite !Z.pow_add_r by lia; ring.
- replace (m * 2 ^ 1) with (2 * m) by lia; exact (shr_double m h).
Qed.

Lemma m53_digits m n : m53 (Zpos m) -> 0 <= n -> Zdigits2 (Zpos m * 2 ^ n) = 53 + n.
Proof.
intros h n0; assert (p0 : 0 < 2 ^ n) by (apply Z.pow_pos_nonneg; lia).
assert (p1 : 0 < Zpos m * 2 ^ n) by (apply Z.mul_pos_pos; lia).
destruct (Zpos m * 2 ^ n) as [|k|k] eqn:E; [lia| |lia]; cbn [Zdigits2].
apply digits_eq; [rewrite <- E|lia].
replace (53 + n - 1) with (52 + n) by lia; rewrite !Z.pow_add_r by lia; unfold m53 in h; nia.
Qed.

Lemma shr_exact m n e : m53 (Zpos m) -> 0 <= n -> -1074 <= e + n ->
  shr_fexp 53 1024 (Zpos m * 2 ^ n) e loc_Exact = (Build_shr_record (Zpos m) false false, e + n).
Proof.
intros h n0 he; unfold shr_fexp; rewrite m53_digits by assumption.
replace (fexp 53 1024 (53 + n + e) - e) with n by (unfold fexp, emin; lia).
destruct n as [|n|n]; [|unfold shr; cbn [shr_record_of_loc]; rewrite shr_iter by lia; reflexivity|lia].
unfold shr; simpl; f_equal; [f_equal; lia|lia].
Qed.

Lemma round_exact m n e : m53 (Zpos m) -> 0 <= n -> -1074 <= e + n <= 971 ->
  binary_round_aux 53 1024 false (Zpos m * 2 ^ n) e loc_Exact = S754_finite false m (e + n).
Proof.
intros h n0 he; unfold binary_round_aux; rewrite shr_exact by lia || assumption.
simpl shr_m; simpl loc_of_shr_record; simpl round_nearest_even.
replace (Zpos m) with (Zpos m * 2 ^ 0) at 1 by lia; rewrite shr_exact by lia || assumption.
simpl shr_m; destruct (Z.leb_spec (e + n + 0) (1024 - 53)); [|lia].
f_equal; lia.
Qed.

Lemma shift_posE d m : Zpos (shift_pos d m) = Zpos m * 2 ^ Zpos d.
Proof. rewrite Zpower.shift_pos_correct; unfold Z.pow; lia. Qed.

(** The value determines the result. *)
Lemma round_down k e m n : Zpos k = Zpos m * 2 ^ n -> m53 (Zpos m) -> 0 <= n -> -1074 <= e + n <= 971 ->
  binary_round 53 1024 false k e = S754_finite false m (e + n).
Proof.
intros E h n0 he; unfold binary_round, shl_align.
assert (dk : Zpos (digits2_pos k) = 53 + n).
  change (Zpos (digits2_pos k)) with (Zdigits2 (Zpos k)); rewrite E; apply m53_digits; assumption.
rewrite dk; replace (fexp 53 1024 (53 + n + e) - e) with n by (unfold fexp, emin; lia).
destruct n; [|rewrite E; apply round_exact; assumption|lia].
rewrite E; apply round_exact; assumption.
Qed.

Lemma round_up k e m n : Zpos m = Zpos k * 2 ^ n -> m53 (Zpos m) -> 0 < n -> -1074 <= e - n <= 971 ->
  binary_round 53 1024 false k e = S754_finite false m (e - n).
Proof.
intros E h n0 he; unfold binary_round, shl_align.
assert (p0 : 0 < 2 ^ n) by (apply Z.pow_pos_nonneg; lia).
assert (n53 : n < 53).
  apply (Z.pow_lt_mono_r_iff 2); [lia|lia|]; unfold m53 in h; nia.
assert (dk : Zpos (digits2_pos k) = 53 - n).
  apply digits_eq; [|lia]; unfold m53 in h.
  assert (a : 2 ^ 52 = 2 ^ (53 - n - 1) * 2 ^ n) by (rewrite <- Z.pow_add_r by lia; f_equal; lia).
  assert (b : 2 ^ 53 = 2 ^ (53 - n) * 2 ^ n) by (rewrite <- Z.pow_add_r by lia; f_equal; lia).
  rewrite a, b in h; nia.
rewrite dk; replace (fexp 53 1024 (53 - n + e)) with (e - n) by (unfold fexp, emin; lia).
replace (e - n - e) with (- n) by lia; destruct n as [|n|n]; [lia| |lia]; simpl Z.opp; cbv beta iota.
rewrite shift_posE, <- E; replace (Zpos m) with (Zpos m * 2 ^ 0) by lia.
rewrite round_exact; [f_equal; lia|assumption|lia|lia].
Qed.

(** Columns and their values, scaled by 2^200. *)
Definition scale := 200.
Definition zval (f : spec_float) : Z :=
  match f with S754_finite false m e => Zpos m * 2 ^ (e + scale) | _ => 0 end.
Definition colb (f : spec_float) : bool :=
  match f with
  | S754_zero s => negb s
  | S754_finite s m e => negb s && (2 ^ 52 <=? Zpos m) && (Zpos m <? 2 ^ 53) && (- scale <=? e) && (e <=? 0)
  | _ => false
  end.

Lemma colb_fin s m e : colb (S754_finite s m e) = true -> s = false /\ m53 (Zpos m) /\ - scale <= e <= 0.
Proof.
unfold colb; rewrite !andb_true_iff; intros [[[[h1 h2] h3] h4] h5].
destruct s; [discriminate|]; unfold m53.
rewrite Z.leb_le in h2, h4, h5; rewrite Z.ltb_lt in h3; auto.
Qed.
Lemma fin_colb m e : m53 (Zpos m) -> - scale <= e <= 0 -> colb (S754_finite false m e) = true.
Proof.
intros [h1 h2] [h3 h4]; unfold colb; rewrite !andb_true_iff, !Z.leb_le, Z.ltb_lt; simpl negb; auto.
Qed.

Lemma zval_bounds m e : m53 (Zpos m) -> - scale <= e ->
  2 ^ (52 + (e + scale)) <= Zpos m * 2 ^ (e + scale) < 2 ^ (53 + (e + scale)).
Proof.
intros h he; rewrite (Z.pow_add_r 2 52), (Z.pow_add_r 2 53) by lia; unfold m53 in h.
assert (p0 : 0 < 2 ^ (e + scale)) by (apply Z.pow_pos_nonneg; lia).
split; [apply Z.mul_le_mono_nonneg_r; lia|apply Z.mul_lt_mono_pos_r; lia].
Qed.

Lemma zval_nonneg f : 0 <= zval f.
Proof. destruct f as [| | |[] m e]; unfold zval; try lia.
Qed.

Lemma leb_zval f g : colb f = true -> colb g = true -> SFleb f g = (zval f <=? zval g).
Proof.
intros hf hg; destruct f as [s|s| |s m e]; try discriminate; destruct g as [t|t| |t n k]; try discriminate.
- reflexivity.
- destruct (colb_fin _ _ _ hg) as [-> [h1 h2]]; unfold SFleb, SFcompare, zval; symmetry; apply Z.leb_le.
  exact (zval_nonneg (S754_finite false n k)).
- destruct (colb_fin _ _ _ hf) as [-> [h1 h2]]; unfold SFleb, SFcompare, zval; symmetry; apply Z.leb_gt.
  pose proof (zval_bounds m e h1); pose proof (Z.pow_pos_nonneg 2 (52 + (e + scale))); lia.
- destruct (colb_fin _ _ _ hf) as [-> [h1 h2]]; destruct (colb_fin _ _ _ hg) as [-> [h3 h4]].
  unfold SFleb, SFcompare, zval; pose proof (zval_bounds m e h1); pose proof (zval_bounds n k h3).
  destruct (Z.compare_spec e k) as [->|lt|gt]; symmetry.
  + assert (p0 : 0 < 2 ^ (k + scale)) by (apply Z.pow_pos_nonneg; lia).
    change (Pos.compare_cont Eq m n) with (Pos.compare m n).
    destruct (Pos.compare_spec m n) as [->|l|l]; [apply Z.leb_le|apply Z.leb_le|apply Z.leb_gt]; nia.
  + apply Z.leb_le; pose proof (Z.pow_le_mono_r 2 (53 + (e + scale)) (52 + (k + scale))); lia.
  + apply Z.leb_gt; pose proof (Z.pow_le_mono_r 2 (53 + (k + scale)) (52 + (e + scale))); lia.
Qed.

Lemma zval_inj f g : colb f = true -> colb g = true -> zval f = zval g -> f = g.
Proof.
intros hf hg; destruct f as [s|s| |s m e]; try discriminate; destruct g as [t|t| |t n k]; try discriminate.
- destruct s, t; try discriminate; reflexivity.
- destruct (colb_fin _ _ _ hg) as [-> [h1 h2]]; unfold zval.
  pose proof (zval_bounds n k h1); pose proof (Z.pow_pos_nonneg 2 (52 + (k + scale))); lia.
- destruct (colb_fin _ _ _ hf) as [-> [h1 h2]]; unfold zval.
  pose proof (zval_bounds m e h1); pose proof (Z.pow_pos_nonneg 2 (52 + (e + scale))); lia.
- destruct (colb_fin _ _ _ hf) as [-> [h1 h2]]; destruct (colb_fin _ _ _ hg) as [-> [h3 h4]].
  unfold zval; pose proof (zval_bounds m e h1); pose proof (zval_bounds n k h3); intros E.
  assert (ek : e = k).
    assert (a : 52 + (e + scale) < 53 + (k + scale)) by (apply (Z.pow_lt_mono_r_iff 2); lia).
    assert (b : 52 + (k + scale) < 53 + (e + scale)) by (apply (Z.pow_lt_mono_r_iff 2); lia).
    lia.
  subst k; f_equal.
  assert (p0 : 2 ^ (e + scale) <> 0) by (apply Z.pow_nonzero; lia).
  apply Z.mul_reg_r in E; [congruence|assumption].
Qed.

(** A short multiple of a power of two has a float. *)
Lemma short_float v k j : v = k * 2 ^ j -> 0 < k <= 2 ^ 53 -> 52 <= j -> v <= 2 ^ (scale + 1) ->
  exists m e, m53 (Zpos m) /\ - scale <= e <= 0 /\ v = Zpos m * 2 ^ (e + scale).
Proof.
intros E hk hj hv; set (l := Z.log2 v).
assert (p0 : 0 < 2 ^ j) by (apply Z.pow_pos_nonneg; lia).
assert (v0 : 0 < v) by nia.
pose proof (Z.log2_spec v v0) as [l1 l2]; fold l in l1, l2.
assert (lj : 52 <= l).
  assert (52 < Z.succ l); [|lia]; apply (Z.pow_lt_mono_r_iff 2); [lia|unfold l; pose proof (Z.log2_nonneg v); lia|].
  pose proof (Z.pow_le_mono_r 2 52 j); lia.
assert (lu : l <= scale + 1).
  assert (l < Z.succ (scale + 1)); [|lia]; apply (Z.pow_lt_mono_r_iff 2); [lia|unfold scale; lia|].
  rewrite (Z.pow_succ_r 2 (scale + 1)) by (unfold scale; lia); pose proof (Z.pow_pos_nonneg 2 (scale + 1)); lia.
assert (dv : (2 ^ (l - 52) | v)).
  destruct (Z.eq_dec k (2 ^ 53)) as [->|ne].
    assert (le : l = 53 + j) by (unfold l; rewrite E, <- Z.pow_add_r by lia; apply Z.log2_pow2; lia).
    exists (2 ^ 52); rewrite E, <- !Z.pow_add_r by lia; f_equal; lia.
  assert (le : l - 52 <= j).
    assert (l < 53 + j); [|lia]; apply (Z.pow_lt_mono_r_iff 2); [lia|lia|]; rewrite Z.pow_add_r by lia; nia.
  exists (k * 2 ^ (j - (l - 52))); rewrite E, <- Z.mul_assoc, <- Z.pow_add_r by lia; f_equal; f_equal; lia.
destruct dv as [m Em].
assert (q0 : 0 < 2 ^ (l - 52)) by (apply Z.pow_pos_nonneg; lia).
assert (m0 : 0 < m) by nia.
assert (hm : m53 m).
  unfold m53.
  assert (a : 2 ^ l = 2 ^ 52 * 2 ^ (l - 52)) by (rewrite <- Z.pow_add_r by lia; f_equal; lia).
  assert (b : 2 ^ Z.succ l = 2 ^ 53 * 2 ^ (l - 52)) by (rewrite <- Z.pow_add_r by lia; f_equal; lia).
  rewrite a in l1; rewrite b in l2; rewrite Em in l1, l2; nia.
destruct m as [|m|m]; [lia| |lia].
exists m, (l - 52 - scale); split; [assumption|split; [unfold scale in *; lia|]].
rewrite Em; f_equal; f_equal; lia.
Qed.

Lemma align_min m e z : z <= e -> Zpos (fst (shl_align m e z)) = Zpos m * 2 ^ (e - z).
Proof.
intros h; unfold shl_align; destruct (z - e) as [|d|d] eqn:E; [| lia |].
  replace (e - z) with 0 by lia; simpl; lia.
simpl fst; rewrite shift_posE; f_equal; f_equal; lia.
Qed.

Lemma add_exact f g k j : colb f = true -> colb g = true ->
  zval f + zval g = k * 2 ^ j -> 0 <= k <= 2 ^ 53 -> 52 <= j -> zval f + zval g <= 2 ^ (scale + 1) ->
  colb (SFadd 53 1024 f g) = true /\ zval (SFadd 53 1024 f g) = zval f + zval g.
Proof.
intros hf hg; destruct f as [s|s| |s m e]; try discriminate; destruct g as [t|t| |t n z]; try discriminate.
- destruct s, t; try discriminate; intros; split; reflexivity.
- intros; simpl SFadd; split; [assumption|reflexivity].
- intros; simpl SFadd; split; [assumption|simpl zval at 3; lia].
- destruct (colb_fin _ _ _ hf) as [-> [h1 h2]]; destruct (colb_fin _ _ _ hg) as [-> [h3 h4]].
  intros E hk hj hv; unfold SFadd, cond_Zopp; set (ez := Z.min e z).
  assert (l1 : ez <= e) by (unfold ez; lia); assert (l2 : ez <= z) by (unfold ez; lia).
  assert (l3 : - scale <= ez) by (unfold ez; lia).
  assert (l4 : ez <= 0) by (unfold ez; lia).
  pose proof (align_min m e ez l1) as E1; pose proof (align_min n z ez l2) as E2.
  set (a := fst (shl_align m e ez)) in *; set (b := fst (shl_align n z ez)) in *.
  set (v := zval (S754_finite false m e) + zval (S754_finite false n z)) in *.
  assert (p0 : 0 < 2 ^ (ez + scale)) by (apply Z.pow_pos_nonneg; lia).
  assert (Ev : v = Zpos (a + b) * 2 ^ (ez + scale)).
    rewrite Pos2Z.inj_add, E1, E2, Z.mul_add_distr_r, <- !Z.mul_assoc, <- !Z.pow_add_r by lia.
    unfold v, zval; replace (e - ez + (ez + scale)) with (e + scale) by lia.
    replace (z - ez + (ez + scale)) with (z + scale) by lia; reflexivity.
  assert (k0 : 0 < k).
    assert (v0 : 0 < v) by (rewrite Ev; apply Z.mul_pos_pos; lia).
    destruct (Z.eq_dec k 0) as [->|]; lia.
  destruct (short_float v k j E) as [c [y [c1 [c2 c3]]]]; [lia|assumption|assumption|].
  assert (R : binary_round 53 1024 false (a + b) ez = S754_finite false c y).
    destruct (Z_le_gt_dec ez y) as [le|gt].
      replace y with (ez + (y - ez)) by lia; apply round_down; [|assumption|lia|unfold scale in *; lia].
      apply (Z.mul_reg_r _ _ (2 ^ (ez + scale))); [lia|]; rewrite <- Ev, c3, <- Z.mul_assoc, <- Z.pow_add_r by lia.
      f_equal; f_equal; lia.
    replace y with (ez - (ez - y)) by lia; apply round_up; [|assumption|lia|unfold scale in *; lia].
    assert (p1 : 2 ^ (y + scale) <> 0) by (apply Z.pow_nonzero; lia).
    apply (Z.mul_reg_r _ _ (2 ^ (y + scale)) p1); rewrite <- c3, Ev, <- Z.mul_assoc, <- Z.pow_add_r by lia.
    f_equal; f_equal; lia.
  change (Z.pos a + Z.pos b) with (Z.pos (a + b)); unfold binary_normalize; rewrite R.
  split; [exact (fin_colb c y c1 c2)|symmetry; exact c3].
Qed.

Definition two := binary_normalize 53 1024 2 0 false.

Lemma half_exact f w : colb f = true -> zval f = 2 * w -> w = 0 \/ 2 ^ 52 <= w ->
  colb (SFdiv 53 1024 f two) = true /\ zval (SFdiv 53 1024 f two) = w.
Proof.
intros hf; replace two with (S754_finite false 4503599627370496 (-51)) by (vm_compute; reflexivity).
destruct f as [s|s| |s m e]; try discriminate.
  destruct s; [discriminate|]; unfold zval; cbn [SFdiv xorb]; intros E h; split; [reflexivity|lia].
destruct (colb_fin _ _ _ hf) as [-> [h1 h2]]; intros E h.
assert (he : - scale < e).
  destruct (Z_le_gt_dec e (- scale)) as [le|]; [|lia].
  unfold zval in E; replace (e + scale) with 0 in E by lia; unfold m53 in h1; lia.
assert (d1 : Zpos (digits2_pos m) = 53).
  apply digits_eq; [exact h1|lia].
unfold SFdiv, SFdiv_core_binary; simpl Zdigits2 at 2; unfold Zdigits2; rewrite d1.
change (Zpos (digits2_pos 4503599627370496)) with 53.
replace (Z.min (fexp 53 1024 (53 + e - (53 + -51))) (e - -51)) with (e - 2)
  by (unfold fexp, emin, scale in *; lia).
replace (e - -51 - (e - 2)) with 53 by lia; cbv beta iota.
assert (Ed : Z.div_eucl (Z.shiftl (Z.pos m) 53) 4503599627370496 = (2 * Zpos m, 0)).
  rewrite Z.shiftl_mul_pow2 by lia.
  pose proof (Z_div_mod (Z.pos m * 2 ^ 53) 4503599627370496 eq_refl) as D.
  destruct (Z.div_eucl _ _) as [q r]; destruct D as [D1 D2].
  assert (q = 2 * Z.pos m /\ r = 0); [|destruct H as [-> ->]; reflexivity].
  change (2 ^ 53) with (4503599627370496 * 2) in D1; lia.
rewrite Ed; change (new_location 4503599627370496 0) with loc_Exact.
replace (2 * Zpos m) with (Zpos m * 2 ^ 1) by lia; rewrite round_exact; [|assumption|lia|unfold scale in *; lia].
split; [apply fin_colb; [assumption|lia]|].
unfold zval in *; replace (e + scale) with (1 + (e - 2 + 1 + scale)) in E by lia.
rewrite Z.pow_add_r in E by lia; lia.
Qed.
