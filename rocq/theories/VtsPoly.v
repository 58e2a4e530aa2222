(** Coefficient-list arithmetic of uni_vts.py denotes polynomial arithmetic. *)
From mathcomp Require Import all_ssreflect all_algebra.
From mathcomp.zify Require Import zify.
From Coq Require Import String.
From Verif Require Import Py VtsModel.

Set Implicit Arguments.
Unset Strict Implicit.
Unset Printing Implicit Defensive.
Import GRing.Theory Num.Theory.
Local Open Scope ring_scope.

Section PolyD.
Variable D : realDomainType.
Implicit Types p q f g r : seq D.

Lemma multiply_innerE p1 p2 power i k m s : (i <= power)%N ->
  multiply_inner p1 p2 power i (iota k m) s =
  s + (if (k <= power - i < k + m)%N then p1`_i * p2`_(power - i) else 0).
Proof.
move=> ip; elim: m k s => [|m IH] k s /=.
  by case: ifP => [h|_]; [exfalso; slia | rewrite addr0].
case: ltnP => [lt|ge].
  by case: ifP => [h|_]; [exfalso; slia | rewrite addr0].
case: (eqVneq (i + k)%N power) => [e|ne] /=; rewrite IH.
  rewrite -e addKn ltnn /= leqnn addr0.
  by have -> : (k < k + m.+1)%N by slia.
congr (_ + _); congr (if _ then _ else _); slia.
Qed.

Lemma multiply_outerE p1 p2 power k m s :
  multiply_outer p1 p2 power (iota k m) s =
  s + \sum_(i <- iota k m | (i <= power)%N) p1`_i * p2`_(power - i).
Proof.
elim: m k s => [|m IH] k s /=; first by rewrite big_nil addr0.
rewrite big_cons; case: (leqP (k + size p2) power) => [le|lt].
  rewrite IH; case: ifP => [kp|_] //.
  by rewrite [p2`_(power - k)]nth_default ?mulr0 ?add0r //; slia.
case: (ltnP power k) => [pk|kp].
  rewrite big1_seq ?addr0 // => i /andP[ip]; rewrite mem_iota => h.
  by exfalso; slia.
rewrite IH multiply_innerE // add0n -addrA; congr (_ + (_ + _)).
by have -> : (0 <= power - k < size p2)%N by slia.
Qed.

Lemma size_multiply p1 p2 : size (multiply p1 p2) = (size p1 + size p2 - 1)%N.
Proof. by rewrite /multiply size_map size_iota. Qed.

Lemma nth_multiply p1 p2 k : (multiply p1 p2)`_k =
  \sum_(i < k.+1) p1`_i * p2`_(k - i).
Proof.
rewrite -(big_mkord xpredT (fun i => p1`_i * p2`_(k - i))).
case: (ltnP k (size p1 + size p2 - 1)) => hk; last first.
  rewrite nth_default ?size_multiply // big1_seq // => i /andP[_].
  rewrite mem_index_iota => ik.
  case: (ltnP i (size p1)) => i1; last by rewrite nth_default ?mul0r.
  by rewrite [X in _ * X]nth_default ?mulr0 //; slia.
rewrite /multiply (nth_map 0%N) ?size_iota // nth_iota // add0n.
rewrite multiply_outerE add0r -/(index_iota 0 (size p1)).
rewrite -{1}[size p1]subn0 -/(index_iota 0 (size p1)).
have E n : (size p1 <= n)%N -> \sum_(0 <= i < size p1 | (i <= k)%N) p1`_i * p2`_(k - i) =
  \sum_(0 <= i < n | (i <= k)%N) p1`_i * p2`_(k - i).
  move=> le; rewrite [RHS](@big_cat_nat _ _ _ (size p1)) //= [X in _ = _ + X]big1_seq ?addr0 //.
  move=> i /andP[_]; rewrite mem_index_iota => /andP[i1 _].
  by rewrite nth_default // mul0r.
rewrite (E (size p1 + k.+1)%N) ?leq_addr // (@big_cat_nat _ _ _ k.+1) //=; last by slia.
rewrite [X in _ + X]big1_seq ?addr0; last first.
  by move=> i /andP[ik]; rewrite mem_index_iota; slia.
rewrite big_nat_cond [RHS]big_nat_cond; apply: eq_bigl => i; slia.
Qed.

Lemma multiply_Poly p1 p2 : Poly (multiply p1 p2) = Poly p1 * Poly p2.
Proof.
apply/polyP => k; rewrite coef_Poly nth_multiply coefM.
by apply: eq_bigr => i _; rewrite !coef_Poly.
Qed.

Lemma size_derivative p : size (derivative p) = (size p).-1.
Proof. by rewrite /derivative size_map size_behead size_zip size_iota minnn. Qed.

Lemma nth_derivative p k : (derivative p)`_k = p`_k.+1 *+ k.+1.
Proof.
case: (ltnP k (size (derivative p))) => hk; last first.
  rewrite nth_default // [p`__]nth_default ?mul0rn //.
  by move: hk; rewrite size_derivative; slia.
move: (hk); rewrite /derivative size_map => hk'.
rewrite (nth_map (0, 0%N)) // nth_behead.
move: hk; rewrite size_derivative => hk.
rewrite nth_zip ?size_iota //= nth_iota ?add0n //; slia.
Qed.

Lemma derivative_Poly p : Poly (derivative p) = (Poly p)^`().
Proof. by apply/polyP => k; rewrite coef_deriv !coef_Poly nth_derivative. Qed.

(** A list is normal when it has no trailing zero. *)
Definition normal p := last 1 p != 0.
Definition nonzero p := last 0 p != 0.

Lemma nonzero_normal p : nonzero p -> normal p.
Proof. by case: p => //=; rewrite /nonzero /= eqxx. Qed.
Lemma normal_nonzero p : normal p -> p != [::] -> nonzero p.
Proof. by case: p. Qed.
Lemma nonzero_nil p : nonzero p -> p != [::].
Proof. by case: p => //=; rewrite /nonzero /= eqxx. Qed.

Lemma size_Poly_normal p : normal p -> size (Poly p) = size p.
Proof. by move=> np; rewrite (@PolyK _ 1). Qed.

Lemma lead_coef_normal p : normal p -> lead_coef (Poly p) = last 0 p.
Proof.
by move=> np; rewrite /lead_coef size_Poly_normal // coef_Poly nth_last.
Qed.

Lemma Poly_eq0_normal p : normal p -> (Poly p == 0) = (p == [::]).
Proof. by move=> np; rewrite -size_poly_eq0 size_Poly_normal //; case: p {np}. Qed.

Lemma Poly_neq0 p : nonzero p -> Poly p != 0.
Proof.
by move=> np; rewrite Poly_eq0_normal ?nonzero_normal // nonzero_nil.
Qed.

Lemma last_multiply p q : nonzero p -> nonzero q ->
  last 0 (multiply p q) = last 0 p * last 0 q.
Proof.
move=> np nq; rewrite -nth_last size_multiply nth_multiply.
case: p np => [|a p np]; first by rewrite /nonzero eqxx.
case: q nq => [|b q nq]; first by rewrite /nonzero eqxx.
rewrite -!nth_last /= addSn subn1 /= addnS /=.
have lt : (size p < (size p + size q).+1)%N by slia.
rewrite (bigD1 (Ordinal lt)) //= addKn big1 ?addr0 // => i ne.
have {ne} ne : nat_of_ord i != size p by apply: contraNN ne => /eqP e; apply/eqP/val_inj.
case: (ltnP i (size p)) => hi.
  by rewrite [X in _ * X]nth_default ?mulr0 //=; slia.
by rewrite nth_default ?mul0r //=; slia.
Qed.

Lemma nonzero_multiply p q : nonzero p -> nonzero q -> nonzero (multiply p q).
Proof. by move=> np nq; rewrite /nonzero last_multiply // mulf_neq0. Qed.

Lemma normal_derivative p : normal p -> normal (derivative p).
Proof.
move=> np; rewrite /normal.
case E: (derivative p) => [|a l] /=; first exact: oner_neq0.
rewrite (last_nth 0) /=.
have -> : nth 0 (a :: l) (size l) = (derivative p)`_(size l) by rewrite E.
have hs : (size l).+1 = (size p).-1 by rewrite -size_derivative E.
rewrite nth_derivative mulrn_eq0 /= hs nth_last.
by case: p np {E} hs => //= x p; rewrite /normal.
Qed.
End PolyD.
