(** An instance of the algebra of muchnik.py that can be run: polynomials in x
    whose coefficients are integer polynomials in one parameter y.  Used by the
    examples of MuchProps. *)
From Coq Require Import ZArith.
From mathcomp Require Import all_ssreflect all_algebra.
From mathcomp.real_closed Require Import polyrcf realalg.
From mathcomp.zify Require Import ssrZ zify.
From Verif Require Import Py VtsModel VtsPoly VtsInst MuchModel MuchSpec MuchSeq.

Set Implicit Arguments.
Unset Strict Implicit.
Unset Printing Implicit Defensive.
Import GRing.Theory Num.Theory Order.TTheory.
Local Open Scope ring_scope.

(** Lists as polynomials, with the ring operations as arguments: those of
    mathcomp's {poly} do not compute, nor do its constructors. *)
Section Lists.
Variable D : idomainType.
Variables (add mul : D -> D -> D) (muln : D -> nat -> D).
Hypothesis addE : forall a b, add a b = a + b.
Hypothesis mulE : forall a b, mul a b = a * b.
Hypothesis mulnE : forall a n, muln a n = a *+ n.
Variable opp : D -> D.
Hypothesis oppE : forall a, opp a = - a.
Variable z : D.
Hypothesis zE : z = 0.

(** Without zeros at the end. *)
Fixpoint norm (s : seq D) : seq D :=
  if s is a :: s' then
    let t := norm s' in if (t == [::]) && (a == z) then [::] else a :: t
  else [::].
Lemma norm_last s : last 1 (norm s) != 0.
Proof.
elim: s => [|a s IH] /=; first exact: oner_neq0.
rewrite zE; case: (norm s) IH => [|b t] //=.
by case: ifP => [_ //|/negbT].
Qed.
Definition mk s : {poly D} := Polynomial (norm_last s).
Lemma mkE s : mk s = Poly s.
Proof.
apply/polyP => i; rewrite coef_Poly; elim: s i => [|a s IH] i //=.
rewrite zE; move: IH; rewrite /=; case: (norm s) => [|b t] IH /=; last by case: i => //= i; rewrite IH.
by case: eqP => [->|_]; case: i => //= i; rewrite -IH nth_nil.
Qed.

Fixpoint ladd (s t : seq D) : seq D :=
  match s, t with
  | [::], _ => t
  | _, [::] => s
  | a :: s', b :: t' => add a b :: ladd s' t'
  end.
Lemma laddE s t : Poly (ladd s t) = Poly s + Poly t.
Proof.
elim: s t => [|a s IH] [|b t]; rewrite /= ?add0r ?addr0 //.
by rewrite !cons_poly_def IH addE polyCD mulrDl addrACA.
Qed.

Definition lscale a (s : seq D) : seq D := map (mul a) s.
Lemma lscaleE a s : Poly (lscale a s) = a *: Poly s.
Proof.
elim: s => [|b s IH] /=; first by rewrite scaler0.
by rewrite !cons_poly_def IH mulE scalerDr -scalerAl -[a *: b%:P]mul_polyC polyCM.
Qed.

Definition lopp (s : seq D) : seq D := map opp s.
Lemma loppE s : Poly (lopp s) = - Poly s.
Proof.
elim: s => [|b s IH] /=; first by rewrite oppr0.
by rewrite !cons_poly_def IH oppE polyCN mulNr opprD.
Qed.

Definition lmuln n (s : seq D) : seq D := map (muln^~ n) s.
Lemma lmulnE n s : Poly (lmuln n s) = Poly s *+ n.
Proof.
elim: s => [|b s IH] /=; first by rewrite mul0rn.
by rewrite !cons_poly_def IH mulnE polyCMn mulrnDl mulrnAl.
Qed.

Fixpoint lmul (s t : seq D) : seq D :=
  if s is a :: s' then ladd (lscale a t) (z :: lmul s' t) else [::].
Lemma lmulE s t : Poly (lmul s t) = Poly s * Poly t.
Proof.
elim: s => [|a s IH] /=; first by rewrite mul0r.
by rewrite laddE lscaleE /= !cons_poly_def zE IH addr0 mulrDl mul_polyC mulrAC addrC addrC.
Qed.

Fixpoint lder_from (k : nat) (s : seq D) : seq D :=
  if s is a :: s' then muln a k :: lder_from k.+1 s' else [::].
Definition lder (s : seq D) : seq D := lder_from 1 (behead s).
Lemma nth_lder_from k s i : (lder_from k s)`_i = s`_i *+ (k + i).
Proof.
elim: s k i => [|a s IH] k [|i] //=; rewrite ?nth_nil ?mul0rn ?addn0 //.
by rewrite IH addSnnS.
Qed.
Lemma lderE s : Poly (lder s) = (Poly s)^`().
Proof.
apply/polyP => i; rewrite coef_deriv !coef_Poly nth_lder_from add1n.
by rewrite nth_behead.
Qed.

(** sympy's pdiv: the remainder after exactly [k] steps, each of which
    multiplies by the leading coefficient of [q]. *)
Fixpoint lprem (q : seq D) (lq : D) (k : nat) (r : seq D) : seq D :=
  if k is k'.+1 then
    let c := nth z r ((size q).-1 + k') in
    lprem q lq k' (ladd (lscale lq r) (lopp (nseq k' z ++ lscale c q)))
  else r.

Lemma lpremE q lq k r : lq = q`_(size q).-1 -> (0 < size q)%N ->
  (forall i, ((size q).-1 + k <= i)%N -> r`_i = 0) ->
  (exists u, lq ^+ k *: Poly r = u * Poly q + Poly (lprem q lq k r)) /\
  (forall i, ((size q).-1 <= i)%N -> (lprem q lq k r)`_i = 0).
Proof.
move=> El q0; elim: k r => [|k IH] r h /=.
  by split; [exists 0; rewrite expr0 scale1r mul0r add0r|move=> i; rewrite -{1}[_.-1]addn0; exact: h].
rewrite zE; set c := nth 0 r _; set r' := ladd _ _.
have E : Poly r' = lq *: Poly r - c *: 'X^k * Poly q.
  rewrite /r' laddE lscaleE loppE; congr (_ - _).
  have -> : forall l : seq D, Poly (nseq k 0 ++ l) = 'X^k * Poly l.
    move=> l; elim: (k) => [|j IHj] /=; first by rewrite expr0 mul1r.
    by rewrite cons_poly_def IHj addr0 exprS mulrC mulrA.
  by rewrite lscaleE -scalerAl -scalerAr.
have [|[u Eu] h2] := IH r'.
  move=> i hi; rewrite -[r'`_i]coef_Poly E coefB coefZ -scalerAl coefZ coefXnM ltnNge.
  rewrite (leq_trans _ hi) ?leq_addl //= !coef_Poly.
  move: hi; rewrite leq_eqVlt => /orP[/eqP<-|hi]; first by rewrite addnK -El mulrC subrr.
  rewrite h ?addnS // mulr0 nth_default ?mulr0 ?subr0 //.
  by move: hi q0; lia.
split=> //; exists (u + lq ^+ k *: (c *: 'X^k)).
rewrite exprSr -scalerA; move: Eu; rewrite E scalerBr => /eqP; rewrite subr_eq => /eqP ->.
by rewrite mulrDl -!scalerAl addrAC.
Qed.

(** The operations on normalised polynomials. *)
Implicit Types (p q : {poly D}).
Definition lc (s : seq D) : D := nth z s (size s).-1.
Definition ptail p : {poly D} := mk (take (size p).-1 p).
Definition pLT p : {poly D} := mk (nseq (size p).-1 z ++ [:: lc p]).
Definition psub p q : {poly D} := mk (ladd p (lopp q)).
Definition pder p : {poly D} := mk (lder p).
Definition ptimes p n : {poly D} := mk (lmuln n p).
Definition pprem p q : {poly D} := mk (lprem q (lc q) (size p - size q).+1 p).
Lemma lcE p : lc p = lead_coef p.
Proof. by rewrite /lc zE lead_coefE. Qed.

Lemma ptailE p : ptail p = p - lead_coef p *: 'X^(size p).-1.
Proof.
rewrite /ptail mkE; apply/polyP => i; rewrite coef_Poly coefB coefZ coefXn lead_coefE; case: eqP => [->|ne].
  by rewrite mulr1 subrr nth_default // size_take_min geq_minl.
rewrite mulr0 subr0; case: (ltnP i (size p).-1) => h; first by rewrite nth_take.
rewrite [LHS]nth_default ?size_take_min ?geq_min ?h // nth_default //.
by move: ne h; case: (size p) => [|k] //= ne; rewrite leq_eqVlt => /orP[/eqP E|//]; case: ne.
Qed.

Lemma pLTE p : pLT p = lead_coef p *: 'X^(size p).-1.
Proof.
rewrite /pLT mkE lcE zE; apply/polyP => i; rewrite coef_Poly coefZ coefXn nth_cat size_nseq nth_nseq.
case: ltngtP => h; rewrite ?mulr0 ?mulr1 //.
- by rewrite nth_default // /= subn_gt0.
- by rewrite h subnn.
Qed.

Lemma psubE p q : psub p q = p - q.
Proof. by rewrite /psub mkE laddE loppE !polyseqK. Qed.
Lemma pderE p : pder p = p^`().
Proof. by rewrite /pder mkE lderE polyseqK. Qed.
Lemma ptimesE p n : ptimes p n = p *+ n.
Proof. by rewrite /ptimes mkE lmulnE polyseqK. Qed.

Lemma ppremE p q : q != 0 -> (size q <= size p)%N ->
  exists2 u, lead_coef q ^+ (size p - size q).+1 *: p = u * q + pprem p q &
    (size (pprem p q) < size q)%N.
Proof.
rewrite -size_poly_gt0 => q0 le.
have [|[u E] h] := @lpremE q (lead_coef q) (size p - size q).+1 p (lead_coefE q) q0.
  move=> i hi; rewrite nth_default //; move: hi q0 le; case: (size q) => // a; case: (size p) => // b.
  by rewrite ltnS subSS /= addnS => h1 _ h2; rewrite subnKC in h1.
exists u; first by rewrite /pprem mkE lcE; move: E; rewrite !polyseqK.
rewrite /pprem mkE lcE -{2}(prednK q0) ltnS; apply/leq_sizeP => i hi.
by rewrite coef_Poly h.
Qed.
End Lists.

(** Coefficients. *)
Definition Cy : idomainType := [idomainType of {poly ZD}].
Definition zz : ZD := 0.
Definition mky (s : seq ZD) : Cy := @mk ZD zz erefl s.
Definition addy (a b : Cy) : Cy := mky (ladd (fun x y : ZD => x + y) a b).
Definition muly (a b : Cy) : Cy := mky (lmul (fun x y : ZD => x + y) (fun x y => x * y) zz a b).
Definition mulny (a : Cy) n : Cy := mky (lmuln (fun (x : ZD) n => x *+ n) n a).
Definition oppy (a : Cy) : Cy := mky (lopp (fun x : ZD => - x) a).
Definition zy : Cy := mky [::].

Lemma addyE a b : addy a b = a + b.
Proof. by rewrite /addy /mky mkE laddE // !polyseqK. Qed.
Lemma mulyE a b : muly a b = a * b.
Proof. by rewrite /muly /mky mkE lmulE // !polyseqK. Qed.
Lemma mulnyE a n : mulny a n = a *+ n.
Proof. by rewrite /mulny /mky mkE lmulnE // !polyseqK. Qed.
Lemma oppyE a : oppy a = - a.
Proof. by rewrite /oppy /mky mkE loppE // !polyseqK. Qed.
Lemma zyE : zy = 0.
Proof. by rewrite /zy /mky mkE. Qed.

Definition Pxy := [eqType of {poly Cy}].
Definition mkx (s : seq Cy) : Pxy := mk zyE s.

(** The coefficient of [x ^ i]. *)
Definition cy (p : {poly Cy}) i : {poly ZD} := nth zy p i.

Definition algxy : algebra Pxy ZD := {|
  a_LT := pLT zyE;
  a_LC := fun p : {poly Cy} => mkx [:: lc zy p];
  a_LS := fun p : {poly Cy} => lc zz (lc zy p : {poly ZD});
  a_degree := fun p : {poly Cy} => (size p).-1;
  a_div := fun p _ : {poly Cy} => (mkx (behead p), mkx [:: cy p 0]);
  a_tail := ptail zyE;
  a_e_var := mkx [:: zy; mky [:: 1]];
  a_has_variable := fun p : {poly Cy} => (1 < size p)%N || (1 < size (cy p 0))%N;
  a_pseudo_div := fun p q : {poly Cy} => (mkx [::], pprem addy muly oppy zyE p q);
  a_derivative := pder mulny zyE;
  a_zero := mkx [::];
  a_sign := fun p : {poly Cy} => sgz (cy p 0)`_0;
  a_sub := psub addy oppy zyE;
  a_times := ptimes mulny zyE
|}.

Lemma mkxE s : mkx s = Poly s.
Proof. by rewrite /mkx mkE. Qed.
Lemma cyE p i : cy p i = p`_i.
Proof. by rewrite /cy zyE. Qed.

Lemma algxy_LC p : a_LC algxy p = (lead_coef p)%:P :> {poly Cy}.
Proof.
rewrite -[a_LC _ _]/(mkx [:: lc zy p]) mkxE (lcE zyE) /= cons_poly_def.
by rewrite mul0r add0r.
Qed.

Lemma algxy_contract : algebra_contract algxy (fun p : {poly Cy} => p).
Proof.
split; last first.
  apply: (@last_of_inj _ _ algxy _ (fun p : {poly Cy} => p)) => //.
  - exact: algxy_LC.
  - exact: (ptimesE mulnyE).
  - exact: (pderE mulnyE).
split=> //.
- exact: mkxE.
- by move=> p ->; rewrite -[a_zero _]/(mkx [::]) mkxE.
- exact: algxy_LC.
- exact: (ptimesE mulnyE).
- exact: ptailE.
- by move=> p; rewrite -(pLTE zyE); exact: (psubE addyE oppyE).
- exact: (pderE mulnyE).
- move=> p; rewrite -[_ == _]/(mkx (behead p) == mkx [::] :> {poly Cy}) !mkxE.
  apply/eqP/idP => [E|/leq_sizeP h].
    apply/leq_sizeP => -[//|i] _; move/(congr1 (fun r : {poly Cy} => r`_i)): E.
    by rewrite coef_Poly nth_behead coef0.
  by apply/polyP => i; rewrite coef_Poly nth_behead coef0 h.
- exact: (ppremE addyE mulyE oppyE).
Qed.

(** Writing and reading: rows of coefficients of powers of y, by powers of x. *)
Definition px (l : seq (seq ZD)) : Pxy := mkx [seq mky c | c <- l].
Definition rd (p : Pxy) : seq (seq ZD) := [seq polyseq (c : {poly ZD}) | c <- polyseq (p : {poly Cy})].

(** Evaluation at a real value of y. *)
Section Eval.
Variable R : rcfType.
Definition zr : {rmorphism Z -> R} := [rmorphism of (fun n : int => n%:~R : R) \o int_of_Z].
Definition evy (y : R) : {rmorphism Cy -> R} := [rmorphism of horner_eval y \o map_poly zr].

Lemma sgz_zr (k : Z) : sgz (zr k) = sgz k.
Proof.
have E : sgz (zr k) = sgz (int_of_Z k) by rewrite /= sgz_int.
rewrite E; case: k {E} => [|k|k] //=.
by rewrite gtr0_sgz //; have := Pos2Nat.is_pos k; lia.
Qed.

Lemma evy_sign_ok y : sign_ok algxy (fun p : {poly Cy} => p) (evy y).
Proof.
move=> p; rewrite /const -[a_has_variable _ _]/((1 < size p)%N || (1 < size (cy p 0))%N).
move=> /size1_polyC E; rewrite negb_or -!leqNgt => /andP[_ /size1_polyC E'].
rewrite -[a_sign _ _]/(sgz (cy p 0)`_0) -sgz_zr /cvalue -(cyE p 0) E' /= /horner_eval map_polyC hornerC.
by rewrite coefC.
Qed.
End Eval.

