(** Signed pseudo-remainders and signed remainder sequences of uni_vts.py. *)
From mathcomp Require Import all_ssreflect all_algebra.
From mathcomp.zify Require Import zify.
From Coq Require Import String.
From Verif Require Import Py VtsModel VtsPoly.

Set Implicit Arguments.
Unset Strict Implicit.
Unset Printing Implicit Defensive.
Import GRing.Theory Num.Theory.
Local Open Scope ring_scope.

Section Rem.
Variable D : realDomainType.
Implicit Types p q f g r : seq D.

Lemma size_pybutlast (T : Type) (l : seq T) : size (pybutlast l) = (size l).-1.
Proof. by rewrite /pybutlast size_take; case: (size l) => [|n] //=; rewrite leqnn. Qed.

Lemma pybutlast_rcons (T : Type) (l : seq T) x : pybutlast (rcons l x) = l.
Proof. by rewrite /pybutlast size_rcons /= -cats1 take_size_cat. Qed.

Lemma Poly_butlast f : last 0 f = 0 -> Poly (pybutlast f) = Poly f.
Proof.
move: f; apply: last_ind => // f x _; rewrite last_rcons pybutlast_rcons => ->.
apply/polyP => i; rewrite !coef_Poly nth_rcons.
by case: ltngtP => [//|h|h]; rewrite nth_default //; [exact: ltnW | rewrite h].
Qed.

Lemma signed_pseudo_remainder_recP n f g : (size f <= n)%N -> nonzero g ->
  exists r, [/\ signed_pseudo_remainder_rec n f g = Ok r, normal r,
    (size r < size g)%N &
    exists m s, 0 < m /\ m *: Poly f = s * Poly g + Poly r].
Proof.
move=> + ng; have sg : (0 < size g)%N by case: g ng => //; rewrite /nonzero eqxx.
elim: n f => [|n IH] f.
  rewrite leqn0 size_eq0 => /eqP ->; exists [::]; split => //=; first exact: oner_neq0.
  by exists 1, 0; rewrite ltr01 scale1r mul0r add0r.
case: f => [_|c f sf].
  exists [::]; split => //=; first exact: oner_neq0.
  by exists 1, 0; rewrite ltr01 scale1r mul0r add0r.
case: g ng sg IH => // d g ng sg IH; rewrite /=.
rewrite -[cons_poly c (Poly f)]/(Poly (c :: f)) -[cons_poly d (Poly g)]/(Poly (d :: g)).
rewrite -[(size g).+1]/(size (d :: g)) -[(size f).+1]/(size (c :: f)).
case: eqP => [l0|/eqP lne].
  have [|r [E nr sr [m [s [m0 Em]]]]] := IH (pybutlast (c :: f)).
    by rewrite size_pybutlast /=; move: sf => /=; slia.
  exists r; split=> //; exists m, s; split=> //.
  by rewrite -Em Poly_butlast.
set P := if last d g < 0 then _ else _.
have [b [a [EP b0 ab]]] : exists b a, [/\ P = (b, a), 0 < b & last c f * b - last d g * a = 0].
  rewrite /P; case: ltrgt0P ng => /= [gt|lt|eq] ng.
  - by exists (last d g), (last c f); rewrite mulrC subrr.
  - exists (- last d g), (- last c f); split=> //; first by rewrite oppr_gt0.
    by rewrite !mulrN opprK mulrC addNr.
  - by move: ng; rewrite /nonzero /= eq eqxx.
rewrite {}EP; case: ltnP => sfg.
  exists (c :: f); split=> //.
  by exists 1, 0; rewrite ltr01 scale1r mul0r add0r.
set pg := nseq _ _ ++ _; set sub := map _ _.
have spg : size pg = size (c :: f).
  by rewrite /pg size_cat size_nseq /=; move: sfg => /=; slia.
have ssub : size sub = size (c :: f) by rewrite /sub size_map size_zip spg minnn.
have Esub : Poly sub = b *: Poly (c :: f) - a *: (Poly (d :: g) * 'X^(size (c :: f) - size (d :: g))).
  apply/polyP => i; rewrite coefB !coefZ coefMXn !coef_Poly.
  case: (ltnP i (size (c :: f))) => hi; last first.
    rewrite (nth_default _ (_ : (size sub <= i)%N)) ?ssub // (nth_default _ hi) mulr0.
    rewrite (nth_default _ (_ : (size (d :: g) <= i - (size (c :: f) - size (d :: g)))%N)).
      by rewrite if_same mulr0 subr0.
    by move: sfg hi => /=; slia.
  rewrite /sub (nth_map (0, 0)) ?size_zip ?spg ?minnn // nth_zip //=.
  rewrite mulrC; congr (_ - _); rewrite mulrC; congr (_ * _).
  by rewrite /pg nth_cat size_nseq nth_nseq if_same.
have lsub : last 0 sub = 0.
  have l1 : nth 0 (c :: f) (size (c :: f)).-1 = last c f by rewrite nth_last.
  have l2 : nth 0 pg (size (c :: f)).-1 = last d g.
    by rewrite -spg nth_last /pg last_cat.
  rewrite -nth_last ssub /sub (nth_map (0, 0)) ?size_zip ?spg ?minnn //.
  by rewrite nth_zip // [X in X * b]l1 [X in _ - X * a]l2.
have [|r [E nr sr [m [s [m0 Em]]]]] := IH (pybutlast sub).
  by rewrite size_pybutlast ssub /=; move: sf => /=; slia.
exists r; split=> //; exists (m * b), (s + (m * a) *: 'X^(size (c :: f) - size (d :: g))).
split; first by rewrite mulr_gt0.
rewrite Poly_butlast // Esub in Em.
rewrite -scalerA -[b *: Poly (c :: f)](subrK (a *: (Poly (d :: g) * 'X^(size (c :: f) - size (d :: g))))).
rewrite scalerDr Em mulrDl [RHS]addrAC; congr (_ + _).
by rewrite scalerA -scalerAl ['X^_ * _]mulrC.
Qed.

Lemma signed_pseudo_remainderP f g : nonzero g ->
  exists r, [/\ signed_pseudo_remainder f g = Ok r, normal r,
    (size r < size g)%N &
    exists m s, 0 < m /\ m *: Poly f = s * Poly g + Poly r].
Proof. exact: signed_pseudo_remainder_recP. Qed.
End Rem.
