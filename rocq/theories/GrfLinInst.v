(** A library for several variables: sparse polynomials over the rationals in
    normal form.  It is used for examples only.  Resultants and discriminants
    are those of polynomials of degree at most 1, and 0 otherwise; roots of
    linear polynomials are computed, those of others are tried among small
    numbers. *)
From mathcomp Require Import all_ssreflect all_algebra.
From mathcomp.zify Require Import zify.
From mathcomp.real_closed Require Import polyrcf.
From Coq Require Import String.
From Verif Require Import Py GrfModel GrfCad GrfSpec GrfLine GrfCadFacts GrfInst GrfLin.

Set Implicit Arguments.
Unset Strict Implicit.
Unset Printing Implicit Defensive.
Import GRing.Theory Num.Theory Order.Theory.
Local Open Scope ring_scope.

(** ** Normal forms *)
Definition normal (p : seq term) : bool :=
  uniq (map fst p) && all (fun t : term => (t.2 != 0) && (trim t.1 == t.1)) p.

Fixpoint nadd1 (t : term) (p : seq term) : seq term :=
  match p with
  | [::] => if t.2 == 0 then [::] else [:: t]
  | t' :: p' =>
      if t.1 == t'.1 then (if t.2 + t'.2 == 0 then p' else (t.1, t.2 + t'.2) :: p') else t' :: nadd1 t p'
  end.
Definition nnorm (l : seq term) : seq term :=
  sort (fun t u : term => mgt t.1 u.1) (foldr nadd1 [::] [seq (trim t.1, t.2) | t <- l]).

Lemma trimK m : trim (trim m) = trim m.
Proof.
elim: m => //= k m IH; case: k => [|k] /=; last by rewrite IH.
by case E : (trim m) IH => [|a l] //= ->.
Qed.
Lemma nth_trim m i : nth 0%N (trim m) i = nth 0%N m i.
Proof.
elim: m i => //= k m IH i; case: k => [|k]; last by case: i => //= i; exact: IH.
by case E : (trim m) => [|a l]; case: i => [|i] //=; rewrite -IH E ?nth_nil.
Qed.
Lemma trim_ext m m' : trim m = m -> trim m' = m' -> (forall i, nth 0%N m i = nth 0%N m' i) -> m = m'.
Proof.
have z l : (forall i, nth 0%N l i = 0%N) -> trim l = [::].
  by elim: l => //= k l IH H; have := H 0%N; rewrite /= => ->; rewrite IH // => i; exact: (H i.+1).
elim: m m' => [|k m IH] [|k' m'] // T T' H.
- by rewrite -T' z // => i; rewrite -H nth_nil.
- by rewrite -T z // => i; rewrite H nth_nil.
have tl j l : trim (j :: l) = j :: l -> trim l = l.
  by move=> /=; case: j => [|j]; [case E : (trim l) => [|a r] // -[->]|case].
have := H 0%N; rewrite /= => ->; congr (_ :: _); apply: IH; [exact: tl T|exact: tl T'|] => i; exact: (H i.+1).
Qed.

Lemma nadd1_monos t p m : m \in map fst (nadd1 t p) -> m = t.1 \/ m \in map fst p.
Proof.
elim: p => [|t' p IH] /=; first by case: ifP => // _; rewrite mem_seq1 => /eqP; left.
case: eqP => [E|_].
  case: ifP => _; first by move=> mI; right; rewrite inE mI orbT.
  by rewrite inE => /predU1P[->|mI]; [left|right; rewrite inE mI orbT].
by rewrite inE => /predU1P[->|/IH[->|mI]]; [right; exact: mem_head|left|right; rewrite inE mI orbT].
Qed.
Lemma nadd1_normal t p : trim t.1 = t.1 -> normal p -> normal (nadd1 t p).
Proof.
move=> T; rewrite /normal; elim: p => [|t' p IH] /=.
  by move=> _; case: eqP => //= /eqP ->; rewrite T eqxx.
case/andP=> /andP[n1 u1] /andP[c1 a1]; case: eqP => [E|/eqP ne].
  case: eqP => [_|/eqP nz] /=; first by rewrite u1 a1.
  by rewrite E n1 u1 a1 nz -{1}E T E eqxx.
have /andP[u2 a2] : uniq (map fst (nadd1 t p)) && all (fun t : term => (t.2 != 0) && (trim t.1 == t.1)) (nadd1 t p).
  by apply: IH; rewrite u1 a1.
rewrite /= u2 c1 a2 !andbT; apply: contra n1 => /nadd1_monos[E|//].
by rewrite E eqxx in ne.
Qed.
Lemma nnorm_normal l : normal (nnorm l).
Proof.
rewrite /nnorm; have : normal (foldr nadd1 [::] [seq (trim t.1, t.2) | t <- l]).
  by elim: l => //= t l IH; apply: nadd1_normal => //; exact: trimK.
rewrite /normal; set r := foldr _ _ _ => /andP[u a]; apply/andP; split; last by rewrite all_sort.
by rewrite (perm_uniq (perm_map _ (permEl (perm_sort _ _)))).
Qed.
Lemma nnorm_monos l t : t \in nnorm l -> exists2 t', t' \in l & t.1 = trim t'.1.
Proof.
rewrite mem_sort => tI; have : t.1 \in map fst (foldr nadd1 [::] [seq (trim t.1, t.2) | t <- l]) by exact: map_f.
elim: l {tI} => //= t0 l IH /nadd1_monos[->|/IH[t' I E]]; first by exists t0; rewrite ?mem_head.
by exists t' => //; rewrite inE I orbT.
Qed.

Record npoly := NPoly { nterms : seq term; nterms_ok : normal nterms }.
Canonical npoly_subType := [subType for nterms].
Definition npoly_eqMixin := Eval hnf in [eqMixin of npoly by <:].
Canonical npoly_eqType := Eval hnf in EqType npoly npoly_eqMixin.
Definition mk (l : seq term) : npoly := NPoly (nnorm_normal l).

(** ** The library *)
Implicit Types (p q : npoly) (d : dict [eqType of var] rat) (v x : var).
Definition nsubst p d : npoly := mk [seq tsub d t | t <- nterms p].
Definition ncoef p (v k : nat) : npoly :=
  mk [seq (set_nth 0%N t.1 v 0%N, t.2) | t <- nterms p & nth 0%N t.1 v == k].
Definition ndegree p v : nat := qdegree (nterms p) v.
Definition tmul (t u : term) : term := (madd t.1 u.1, t.2 * u.2).
(** [a * b - c * d] *)
Definition ndet (a b c d : npoly) : npoly :=
  mk ([seq tmul t u | t <- nterms a, u <- nterms b] ++
      [seq tmul ([::], -1) (tmul t u) | t <- nterms c, u <- nterms d]).
Definition none : npoly := mk [:: ([::], 1)].
Definition nzero : npoly := mk [::].
Definition nres p q v : npoly :=
  match ndegree p v, ndegree q v with
  | 1, 1 => ndet (ncoef p v 1) (ncoef q v 0) (ncoef p v 0) (ncoef q v 1)
  | 0, 1 => p
  | 1, 0 => q
  | 0, 0 => none
  | _, _ => nzero
  end%N.
Definition ndisc p v : npoly := if (ndegree p v <= 1)%N then none else nzero.
Definition nuniv p : res upoly := quniv (nterms p).
(** The sum of the coefficients of [x^k]. *)
Fixpoint ucoef (u : seq (nat * rat)) (k : nat) : rat :=
  if u is t :: u' then (if t.1 == k then t.2 else 0) + ucoef u' k else 0.
Definition nroots (u : upoly) : seq (rat * nat) :=
  if all (fun t => t.1 <= 1)%N u then
    (if ucoef u 1 == 0 then [::] else [:: (- ucoef u 0 / ucoef u 1, 1%N)])
  else uroots u.

Definition nlib : lib [realDomainType of rat] :=
  @Lib [realDomainType of rat] npoly_eqType upoly (fun v => mk (qgen v)) (fun p => qvars (nterms p)) nsubst
    (fun p => qcmp (nterms p)) (fun p => qdeg (nterms p)) ndegree
    (fun p => [seq mk [:: (t.1, 1)] | t <- nterms p]) (fun p => qconst (nterms p)) (fun p => mk (take 1 (nterms p)))
    nres ndisc ncoef
    (fun l => l) (fun p B => mk (reduce_n (size (nterms p) * 20) (nterms p) (map nterms B))) nuniv nroots
    (fun _ => [::]) qfloor qceil.
Definition noracle : oracle nlib :=
  @Oracle [realDomainType of rat] nlib (fun _ l u => (l + 3%:R * u) / 4%:R) (fun _ _ => 0%N)
    (fun _ _ _ y => Ok y) 1 1.

(** ** It meets the assumptions *)
Section Ok.
Variable K : rcfType.
Local Notation inj := (@ratr K).
Implicit Types (e : var -> K).
Definition nval (p : npoly) (e : var -> K) : K := pval (nterms p) e.

Lemma pval_nadd1 t (p : seq term) e : pval (nadd1 t p) e = tval e t + pval p e.
Proof.
case: t => m c; elim: p => [|[m' c'] p IH] /=.
  by case: eqP => [->|] //=; rewrite /tval /= rmorph0 mul0r addr0.
case: eqP => [->|_]; last by rewrite /= IH addrCA.
rewrite /tval /= addrA -mulrDl -rmorphD.
by case: eqP => [->|//]; rewrite rmorph0 mul0r add0r.
Qed.
Lemma pval_sum (p : seq term) e : pval p e = \sum_(t <- p) tval e t.
Proof. by elim: p => [|t p IH] /=; rewrite ?big_nil // big_cons IH. Qed.
Lemma pval_perm (p q : seq term) e : perm_eq p q -> pval p e = pval q e.
Proof. by move=> P; rewrite !pval_sum; exact: perm_big. Qed.
Lemma nval_mk l e : nval (mk l) e = pval l e.
Proof.
rewrite /nval /= /nnorm (pval_perm _ (permEl (perm_sort _ _))); elim: l => //= t l IH.
by rewrite pval_nadd1 IH /tval /= mval_trim.
Qed.

Lemma mvars_trim m i : mvars (trim m) i = mvars m i.
Proof.
elim: m i => //= k m IH i; case: k => [|k] /=; last by rewrite IH.
by rewrite -IH; case: (trim m).
Qed.
Lemma mem_qvars (p : seq term) v : v \in qvars p -> exists2 t, t \in p & v \in mvars t.1 0.
Proof. by rewrite mem_undup => /flatten_mapP[t]; exists t. Qed.
Lemma vars_mk l v : v \in qvars (nterms (mk l)) -> exists2 t, t \in l & v \in mvars t.1 0.
Proof.
by move/mem_qvars => [t /nnorm_monos[t' I E]]; rewrite E mvars_trim; exists t'.
Qed.
Lemma mvarsP m i v : v \in mvars m i = (i <= v)%N && (0 < nth 0%N m (v - i))%N.
Proof.
elim: m i => [|k m IH] i /=; first by rewrite nth_nil andbF.
have H : (v \in mvars m i.+1) = (i < v)%N && (0 < nth 0%N (k :: m) (v - i))%N.
  by rewrite IH; case: ltnP => //= lt; have -> : (v - i = (v - i.+1).+1)%N by lia.
case: k H => [|k] H; last first.
  by rewrite inE H; case: (ltngtP v i) => [lt|gt|->] //=; rewrite subnn.
by rewrite H; case: (ltngtP v i) => [lt|gt|->] //=; rewrite ?subnn.
Qed.
Lemma mvars0 m v : v \in mvars m 0 = (0 < nth 0%N m v)%N.
Proof. by rewrite mvarsP leq0n subn0. Qed.

Lemma qsubst_nval p d e : ragrees d e -> nval (nsubst p d) e = nval p e.
Proof.
by move=> A; rewrite nval_mk /nval -(@qsubst_val K (nterms p) d e A) /qsubst pval_norm.
Qed.

Lemma nlib_ok : @lib_ok [realDomainType of rat] nlib K inj nval.
Proof.
split=> //.
- by move=> p e e'; exact: pval_vars.
- move=> p d e V A; rewrite -(qsubst_nval p A) /= /nval /=.
  have M t : t \in nnorm [seq tsub d t | t <- nterms p] -> t.1 = [::].
    move=> /nnorm_monos[t' /mapP[t0 t0I ->] ->]; rewrite /tsub.
    have := @msub_all t0.1 d 0; case: (msub _ _ _) => c r /= -> //.
    by apply/allP => v vt; apply: (allP V); exact: in_qvars vt.
  have := nnorm_normal [seq tsub d t | t <- nterms p].
  case E : (nnorm _) M => [|[m c] [|[m' c'] l]] M /andP[u a].
  + by rewrite /= /cmp_of ltxx eqxx.
  + have -> : m = [::] by apply: (M (m, c)); rewrite mem_head.
    by rewrite /= /tval /= mulr1 addr0 ratr_cmp.
  + have Em : m = [::] by apply: (M (m, c)); rewrite mem_head.
    have Em' : m' = [::] by apply: (M (m', c')); rewrite !inE eqxx orbT.
    by rewrite Em Em' in u.
- move=> p B e Z; rewrite /= nval_mk /nval; apply: pval_reduce => b /mapP[q qI ->]; exact: Z.
Qed.

Lemma gen_terms v : nterms (mk (qgen v)) = qgen v.
Proof.
rewrite /= /nnorm /qgen /=; congr [:: (_, _)].
by elim: v => //= v ->; case: v.
Qed.

Lemma ncad_ok : @cad_ok [realDomainType of rat] nlib K nval (@uval K).
Proof.
have Q := qcad_ok K; split.
- by move=> v e; rewrite /nval -[nterms _]/(nterms (mk (qgen v))) gen_terms; exact: (val_gen Q).
- by move=> p e e'; exact: (val_const Q).
- move=> p v /(congr1 nterms) /= E V; apply: (@qpure K (nterms p)) => //.
  have sz : (size (nterms p) <= 1)%N.
    rewrite E /nnorm size_sort; case: (nterms p) => [|t l] //=; rewrite take0 /=.
    by case: eqP.
  by rewrite take_oversize.
- by move=> p u v e; exact: (@quniv_val K (nterms p)).
- by move=> v; rewrite -[LHS]/(qvars (nterms (mk (qgen v)))) gen_terms; exact: (variables_gen Q).
Qed.

Lemma uval_linear (u : upoly) z : all (fun t => t.1 <= 1)%N u ->
  (uval K u).[z] = inj (ucoef u 1) * z + inj (ucoef u 0).
Proof.
elim: u => [|[k c] u IH] /=; first by rewrite horner0 rmorph0 mul0r addr0.
case/andP=> k1 /IH E; rewrite hornerD hornerM hornerC hornerXn E !rmorphD.
case: k k1 => [|[|k]] //= _; rewrite rmorph0 add0r.
  by rewrite expr0 mulr1 addrCA.
by rewrite expr1 mulrDl addrA.
Qed.

Lemma nline_ok : @line_ok [realDomainType of rat] nlib noracle K inj (@uval K).
Proof.
have Q := qline_ok K; split=> /=; try by case: Q.
move=> u a m; rewrite /nroots; case: ifP => [l1|_]; last exact: (roots_root Q).
case: eqP => // /eqP nz; rewrite mem_seq1 => /eqP[-> _].
have nz' : inj (ucoef u 1) != 0 by rewrite fmorph_eq0.
by rewrite /root uval_linear // rmorphM fmorphV rmorphN mulrCA divff // mulr1 addNr.
Qed.

(** Coefficients. *)
Lemma mval_set m v e i : mval m e i = mval (set_nth 0%N m v 0%N) e i * e (i + v)%N ^+ nth 0%N m v.
Proof.
elim: m v i => [|k m IH] v i /=.
  have -> : forall w j, mval (set_nth 0%N [::] w 0%N) e j = 1.
    by elim=> [|w IHw] j /=; rewrite expr0 mul1r //; case: w IHw => [|w] IHw; rewrite ?expr0 ?mul1r // -[RHS](IHw j.+1) /=.
  by rewrite nth_nil expr0 mulr1.
case: v => [|v] /=; first by rewrite expr0 mul1r addn0 mulrC.
by rewrite (IH v i.+1) addSnnS mulrA.
Qed.

Lemma maxn_foldr (T : eqType) (f : T -> nat) (l : seq T) t : t \in l -> (f t <= foldr maxn 0%N [seq f t | t <- l])%N.
Proof.
elim: l => //= y l IH; rewrite inE leq_max => /predU1P[->|/IH ->]; by rewrite ?leqnn ?orbT.
Qed.
Lemma foldr_maxn (T : eqType) (f : T -> nat) (l : seq T) k :
  (forall t, t \in l -> f t <= k)%N -> (foldr maxn 0%N [seq f t | t <- l] <= k)%N.
Proof.
elim: l => //= y l IH H; rewrite geq_max H ?mem_head //=; apply: IH => t tI; apply: H; by rewrite inE tI orbT.
Qed.

Lemma pval_coefs (l : seq term) v e N : (forall t, t \in l -> nth 0%N t.1 v < N)%N ->
  pval l e = \sum_(k < N) pval [seq (set_nth 0%N t.1 v 0%N, t.2) | t <- l & nth 0%N t.1 v == k] e * e v ^+ k.
Proof.
elim: l => [|t l IH] H /=.
  by rewrite big1 // => k _; rewrite mul0r.
rewrite IH => [|t' I]; last by apply: H; rewrite inE I orbT.
have tN := H t (mem_head _ _).
rewrite [RHS](bigD1 (Ordinal tN)) //= [in LHS](bigD1 (Ordinal tN)) //= eqxx /= addrA mulrDl.
congr (_ + _ + _); first by rewrite /tval /= (mval_set t.1 v) add0n mulrA.
by apply: eq_bigr => k; rewrite -val_eqE /= eq_sym => /negbTE ->.
Qed.

Lemma nth_msub m d i v : (i <= v)%N -> ~~ dmem d v -> nth 0%N (msub m d i).2 (v - i) = nth 0%N m (v - i).
Proof.
elim: m i => //= k m IH i iv nd; have := IH i.+1; case: (msub m d i.+1) => c r /= H.
case: (leqP v i) => [vi|lt].
  have -> : (v - i = 0)%N by lia.
  have -> : i = v by lia.
  case E : (dget d v) => [y|//] /=; case/negP: nd; exact: dget_mem E.
have Ev : (v - i = (v - i.+1).+1)%N by lia.
by case: (dget d i) => [y|y] /=; rewrite Ev /= H.
Qed.
Lemma nth_msub_mem m d i v : (i <= v)%N -> dmem d v -> nth 0%N (msub m d i).2 (v - i) = 0%N.
Proof.
elim: m i => [|k m IH] i iv nd /=; first by rewrite nth_nil.
have := IH i.+1; case: (msub m d i.+1) => c r /= H.
case: (leqP v i) => [vi|lt].
  have -> : (v - i = 0)%N by lia.
  have -> : i = v by lia.
  by have [y ->] := dmem_ok nd.
have Ev : (v - i = (v - i.+1).+1)%N by lia.
by case: (dget d i) => [y|y] /=; rewrite Ev /= H.
Qed.

Lemma ndegree_mk l v k : (forall t, t \in l -> nth 0%N t.1 v <= k)%N -> (ndegree (mk l) v <= k)%N.
Proof.
move=> H; apply: (foldr_maxn (f := fun t : term => nth 0%N t.1 v)) => t /nnorm_monos[t' I ->].
by rewrite nth_trim; exact: H.
Qed.
Lemma qdeg_mk l k : (forall t, t \in l -> sumn t.1 <= k)%N -> (qdeg (nterms (mk l)) <= k)%N.
Proof.
have tr m : sumn (trim m) = sumn m.
  by elim: m => //= a m <-; case: a => [|a] //=; case: (trim m).
move=> H; apply: (foldr_maxn (f := fun t : term => sumn t.1)) => t /nnorm_monos[t' I ->].
by rewrite tr; exact: H.
Qed.

Lemma lead_terms p v : (0 < ndegree p v)%N -> nterms (ncoef p v (ndegree p v)) <> [::].
Proof.
move=> D; set f := fun t : term => (trim (set_nth 0%N t.1 v 0%N), t.2).
set l := [seq t <- nterms p | nth 0%N t.1 v == ndegree p v].
have [t tI] : exists t, t \in l.
  suff [t tI E] : exists2 t, t \in nterms p & nth 0%N t.1 v = ndegree p v.
    by exists t; rewrite mem_filter E eqxx.
  move: D; rewrite /ndegree /qdegree; elim: (nterms p) => //= t r IH.
  case: (leqP (foldr maxn 0%N [seq nth 0%N t.1 v | t <- r]) (nth 0%N t.1 v)) => [le|lt] D.
    by exists t; rewrite ?mem_head //; apply/esym/maxn_idPl.
  have [|t' I E] := IH; first exact: leq_ltn_trans lt.
  by exists t'; rewrite ?inE ?I ?orbT // E; apply/esym/maxn_idPr/ltnW.
have /andP[u a] := nterms_ok p.
have inj2 (r : seq term) t1 t2 : uniq (map fst r) -> t1 \in r -> t2 \in r -> t1.1 = t2.1 -> t1 = t2.
  elim: r => //= t0 r IH /andP[n0 u0]; rewrite !inE => /predU1P[E1|I1] /predU1P[E2|I2] E.
  - by rewrite E1 E2.
  - by case/negP: n0; rewrite -E1 E map_f.
  - by case/negP: n0; rewrite -E2 -E map_f.
  - exact: IH.
have ul : uniq (map fst [seq f t | t <- l]).
  rewrite -map_comp map_inj_in_uniq; first by rewrite filter_uniq // (map_uniq u).
  move=> t1 t2; rewrite !mem_filter => /andP[/eqP E1 I1] /andP[/eqP E2 I2] /= E.
  have T t0 : t0 \in nterms p -> trim t0.1 = t0.1 by move/(allP a)/andP=> [_ /eqP].
  have E12 : t1.1 = t2.1.
    apply: trim_ext; [exact: T|exact: T|] => i; have := congr1 (nth 0%N ^~ i) E.
    by rewrite !nth_trim !nth_set_nth /=; case: eqP => // -> _; rewrite E1 E2.
  exact: inj2 u I1 I2 E12.
have nz : all (fun t : term => t.2 != 0) [seq f t | t <- l].
  by apply/allP => t' /mapP[t0]; rewrite mem_filter => /andP[_ /(allP a)/andP[n0 _]] ->.
have fold_id (r : seq term) : uniq (map fst r) -> all (fun t : term => t.2 != 0) r ->
    perm_eq (foldr nadd1 [::] r) r.
  elim: r => //= t0 r IH /andP[n0 u0] /andP[z0 a0].
  have P := IH u0 a0.
  have N : t0.1 \notin map fst (foldr nadd1 [::] r) by rewrite (perm_mem (perm_map _ P)).
  have Q (s : seq term) : t0.1 \notin map fst s -> perm_eq (nadd1 t0 s) (t0 :: s).
    elim: s => [|t1 s IHs] /=; first by rewrite (negbTE z0).
    rewrite inE negb_or => /andP[/negbTE -> /IHs P1].
    apply: (@perm_trans _ (t1 :: t0 :: s)); first by rewrite perm_cons.
    by rewrite -[t1 :: _]/([:: t1] ++ [:: t0] ++ s) -[t0 :: t1 :: _]/([:: t0] ++ [:: t1] ++ s) perm_catCA.
  by apply: perm_trans (Q _ N) _; rewrite perm_cons.
move/eqP; rewrite -size_eq0 /= /nnorm size_sort -map_comp (perm_size (fold_id _ ul nz)) size_map.
by move=> S0; move: tI; rewrite -/l; case: (l) S0.
Qed.

Lemma const_terms p : (forall t, t \in nterms p -> t.1 = [::]) ->
  nterms p = [::] \/ exists2 a, a != 0 & nterms p = [:: ([::], a)].
Proof.
have /andP[] := nterms_ok p; case: (nterms p) => [|[m c] [|[m' c'] l]] /= u a M; first by left.
  by right; exists c; [case/andP: a => /andP[]|have /= -> := M _ (mem_head _ _)].
move: u; have /= -> := M _ (mem_head _ _); have /= -> // := M (m', c') _.
by rewrite !inE eqxx orbT.
Qed.
Lemma mvars_trim_nil m : trim m = m -> mvars m 0 = [::] -> m = [::].
Proof.
move=> T V; apply: trim_ext => // i; rewrite nth_nil; apply/eqP; rewrite -leqn0 leqNgt -mvars0 V.
by [].
Qed.
Lemma pval_one (t : term) (e := fun _ : var => 1 : K) : pval [:: t] e = inj t.2.
Proof.
rewrite /= addr0 /tval; suff -> : mval t.1 e 0 = 1 by rewrite mulr1.
by elim: t.1 0%N => //= k m IH i; rewrite expr1n mul1r IH.
Qed.
Lemma nonzero_size1 p : nterms p <> [::] -> (size (nterms p) <= 1)%N -> exists e, nval p e != 0.
Proof.
have /andP[_] := nterms_ok p; rewrite /nval; case: (nterms p) => [|t [|t' l]] //= /andP[/andP[nz _] _] _ _.
by exists (fun _ => 1); have /= -> := pval_one t; rewrite fmorph_eq0.
Qed.
Lemma pval_cmul c (d : rat) (A : seq term) e : pval [seq tmul (c, d) u | u <- A] e = tval e (c, d) * pval A e.
Proof.
elim: A => [|t A IH] /=; first by rewrite mulr0.
by rewrite IH mulrDr; congr (_ + _); rewrite /tval /= mval_madd rmorphM mulrACA.
Qed.
Lemma pval_mul (A B : seq term) e : pval [seq tmul t u | t <- A, u <- B] e = pval A e * pval B e.
Proof.
elim: A => [|[c d] A IH] /=; first by rewrite mul0r.
by rewrite pval_cat IH pval_cmul mulrDl.
Qed.
Lemma pval_neg (A : seq term) e : pval [seq tmul ([::], -1) t | t <- A] e = - pval A e.
Proof. by rewrite pval_cmul /tval /= rmorphN rmorph1 mulr1 mulN1r. Qed.
Lemma ndet_val a b c (d : npoly) e : nval (ndet a b c d) e = nval a e * nval b e - nval c e * nval d e.
Proof.
rewrite /ndet nval_mk pval_cat pval_mul; congr (_ + _); rewrite /nval -pval_mul -pval_neg.
congr (pval _ e); elim: (nterms c) => //= t l IH; by rewrite map_cat -IH -map_comp.
Qed.
Lemma mem_madd m m' v : v \in mvars (madd m m') 0 -> (v \in mvars m 0) || (v \in mvars m' 0).
Proof.
rewrite !mvars0; have -> : nth 0%N (madd m m') v = (nth 0%N m v + nth 0%N m' v)%N.
  by elim: m m' v => [|a m IH] [|b m'] [|v] //=; rewrite ?nth_nil ?addn0 ?add0n.
by rewrite addn_gt0.
Qed.
Lemma ndet_vars a b c (d : npoly) v : v \in qvars (nterms (ndet a b c d)) ->
  [|| v \in qvars (nterms a), v \in qvars (nterms b), v \in qvars (nterms c) | v \in qvars (nterms d)].
Proof.
move/vars_mk => [t]; rewrite mem_cat => /orP[] /allpairsP[[t1 t2] /= [I1 I2 ->]].
  by case/mem_madd/orP => [/(in_qvars I1)|/(in_qvars I2)] ->; rewrite ?orbT.
by case/mem_madd/orP => // /mem_madd/orP[/(in_qvars I1)|/(in_qvars I2)] ->; rewrite ?orbT.
Qed.

Lemma ncoef_vars p x k v : v \in qvars (nterms (ncoef p x k)) -> v \in qvars (nterms p) /\ v != x.
Proof.
move/vars_mk => [t /mapP[t0]]; rewrite mem_filter => /andP[_ I] -> /=; rewrite mvars0 nth_set_nth /=.
by case: eqP => // ne pos; split=> //; apply: (in_qvars I); rewrite mvars0.
Qed.

Lemma nvars_pos p v : v \in qvars (nterms p) = (0 < ndegree p v)%N.
Proof.
apply/idP/idP => [/mem_qvars[t I]|].
  by rewrite mvars0 => pos; apply: leq_trans pos (maxn_foldr (fun t : term => nth 0%N t.1 v) I).
rewrite /ndegree /qdegree /qvars mem_undup; elim: (nterms p) => //= t l IH; rewrite mem_cat leq_max mvars0.
by case/orP=> [->//|/IH ->]; rewrite orbT.
Qed.

Lemma nlin_ok : @lin_ok [realDomainType of rat] nlib K inj nval (@uval K).
Proof.
have lt_size p : p == mk (take 1 (nterms p)) -> (size (nterms p) <= 1)%N.
  move/eqP/(congr1 nterms) => /= ->; rewrite /nnorm size_sort; case: (nterms p) => [|t l] //=; rewrite take0 /=.
  by case: eqP.
split.
- move=> p x e; rewrite /nval (@pval_coefs (nterms p) x e (ndegree p x).+1) => [|t I].
    by apply: eq_bigr => k _; rewrite -nval_mk.
  by rewrite ltnS; exact: (maxn_foldr (fun t : term => nth 0%N t.1 x) I).
- exact: ncoef_vars.
- move=> p x /= D H; apply: nonzero_size1; first exact: lead_terms.
  case/orP: H => [|/lt_size H]; last exact: H.
  by rewrite -[nnorm _]/(nterms (ncoef p x (ndegree p x))); case: (nterms _) => [|[[|k m] c] [|t l]].
- move=> p q x Dp Dq; exists 1; rewrite ?mem_head // => e; rewrite mul1r -ndet_val.
  have -> : resultant (l := nlib) p q x = nres p q x by [].
  by rewrite /nres; move: Dp Dq; rewrite /= => -> ->.
- have one v : v \in qvars (nterms none) = false by vm_compute.
  have zero v : v \in qvars (nterms nzero) = false by vm_compute.
  move=> p q x v; change (v \in qvars (nterms (nres p q x)) -> (v \in qvars (nterms p)) || (v \in qvars (nterms q)) /\ v != x).
  rewrite /nres; case Dp : (ndegree p x) => [|[|k]]; case Dq : (ndegree q x) => [|[|j]]; rewrite ?one ?zero //.
  + move=> vp; rewrite vp; split=> //; apply/negP => /eqP E; by rewrite E nvars_pos Dp in vp.
  + move=> vp; rewrite vp orbT; split=> //; apply/negP => /eqP E; by rewrite E nvars_pos Dq in vp.
  + by move/ndet_vars/or4P => [] H; have [-> ->] := ncoef_vars H; rewrite ?orbT.
- have one v : v \in qvars (nterms none) = false by vm_compute.
  have zero v : v \in qvars (nterms nzero) = false by vm_compute.
  by move=> p x v /=; rewrite /ndisc; case: ifP; rewrite ?one ?zero.
- by move=> p d e A; exact: qsubst_nval.
- move=> p d v /= /vars_mk[t /mapP[t0 I ->]]; rewrite /tsub mvars0.
  have /= M := @nth_msub_mem t0.1 d 0 v isT; have /= N := @nth_msub t0.1 d 0 v isT.
  case: (msub _ _ _) M N => c r /=; rewrite subn0 nth_trim => M N; case: (boolP (dmem d v)) => [/M ->//|nd].
  by rewrite (N nd) => pos; split=> //; apply: (in_qvars I); rewrite mvars0.
- move=> p d v nd /=; apply: ndegree_mk => t /mapP[t0 I ->]; rewrite /tsub.
  have /= := @nth_msub t0.1 d 0 v isT nd; case: (msub _ _ _) => c r /=; rewrite subn0 nth_trim => ->.
  exact: (maxn_foldr (fun t : term => nth 0%N t.1 v) I).
- move=> v; rewrite -[LHS]/(qdegree (nterms (mk (qgen v))) v) gen_terms /qdegree /= maxn0.
  by elim: v.
- move=> v; rewrite -[is_constant _]/(qconst (nterms (mk (qgen v)))) gen_terms /qgen; by case: v.
- move=> q v u nc V0 D Eu z rz; have V : all (pred1 v) (qvars (nterms q)) := V0.
  have Vq : v \in qvars (nterms q).
    case E : (qvars (nterms q)) V => [|w l] /=; last by case/andP=> /eqP ->; rewrite mem_head.
    move=> _; case/negP: nc; have /andP[_ a] := nterms_ok q.
    have [|E0|[a0 _ E0]] := @const_terms q.
    + move=> t tI; apply: mvars_trim_nil; first by have := allP a t tI => /andP[_ /eqP].
      case Em : (mvars t.1 0) => [//|w r]; have : w \in qvars (nterms q) by apply: (in_qvars tI); rewrite Em mem_head.
      by rewrite E.
    + by rewrite /= E0.
    + by rewrite /= E0.
  have D1 : ndegree q v = 1%N by apply/eqP; rewrite eqn_leq D -nvars_pos.
  have Eu' : u = [seq (nth 0%N t.1 v, t.2) | t <- nterms q].
    move: V Vq; move: Eu; rewrite /= /nuniv /quniv; case: (qvars _) => [//|w [|w' r]] // -[<-] /=.
    by case/andP=> /eqP ->.
  have l1 : all (fun t => t.1 <= 1)%N u.
    rewrite Eu' all_map; apply/allP => t tI /=; rewrite -D1.
    exact: (maxn_foldr (fun t : term => nth 0%N t.1 v) tI).
  have nz : ucoef u 1 != 0.
    have := @lead_terms q v; rewrite D1 => /(_ isT) ne.
    have [t tI|//|[a a0 Ea]] := @const_terms (ncoef q v 1).
      have /andP[_ A] := nterms_ok (ncoef q v 1); have := allP A t tI => /andP[_ /eqP T].
      apply: mvars_trim_nil => //; case Em : (mvars t.1 0) => [//|w r].
      have /ncoef_vars[/(allP V)/= /eqP ->] : w \in qvars (nterms (ncoef q v 1)) by apply: (in_qvars tI); rewrite Em mem_head.
      by rewrite eqxx.
    have E1 : nval (ncoef q v 1) (fun=> 1) = inj (ucoef u 1).
      rewrite nval_mk Eu'; elim: (nterms q) => /= [|t l IH]; first by rewrite rmorph0.
      case: ifP => _ /=; last by rewrite rmorphD rmorph0 add0r.
      by rewrite rmorphD /= -IH; congr (_ + _); have := pval_one (set_nth 0%N t.1 v 0%N, t.2); rewrite /= addr0.
    have nzk : inj (ucoef u 1) != 0 by rewrite -E1 /nval Ea (pval_one ([::], a)) fmorph_eq0.
    by rewrite fmorph_eq0 in nzk.
  exists (- ucoef u 0 / ucoef u 1), 1%N; rewrite /= /nroots l1 (negbTE nz) mem_head; split=> //.
  have nz' : inj (ucoef u 1) != 0 by rewrite fmorph_eq0.
  move: rz; rewrite /root uval_linear // addr_eq0 => /eqP E.
  by apply: (mulfI nz'); rewrite E rmorphM fmorphV rmorphN mulrCA divff // mulr1.
- by [].
Qed.

Lemma ndegree_ok : degree_ok nlib.
Proof.
have s1 m x : (nth 0%N m x <= sumn m)%N.
  by elim: m x => [|k m IH] [|x] //=; rewrite ?leq_addr // (leq_trans (IH x)) // leq_addl.
have s0 m x : (sumn (set_nth 0%N m x 0%N) + nth 0%N m x = sumn m)%N.
  elim: m x => [|k m IH] x /=.
    rewrite nth_nil addn0; case: x => //= x; by elim: x => //= x; rewrite add0n.
  by case: x => [|x] /=; [rewrite add0n addnC|rewrite -addnA IH].
have td p t : (qdeg (nterms p) <= 1)%N -> t \in nterms p -> (sumn t.1 <= 1)%N.
  by move=> H I; apply: leq_trans H; exact: (maxn_foldr (fun t : term => sumn t.1) I).
have coef1 p x k : (qdeg (nterms p) <= 1)%N -> (qdeg (nterms (ncoef p x k)) <= 1)%N.
  move=> H; apply: qdeg_mk => t /mapP[t0]; rewrite mem_filter => /andP[_ I] -> /=.
  by apply: leq_trans (td p t0 H I); rewrite -(s0 t0.1 x) leq_addr.
have lead p x : (qdeg (nterms p) <= 1)%N -> forall t, t \in nterms (ncoef p x 1) -> t.1 = [::].
  move=> H t /nnorm_monos[t' /mapP[t0]]; rewrite mem_filter => /andP[/eqP E I] -> -> /=.
  have := td p t0 H I; rewrite -(s0 t0.1 x) E addn1 ltnS leqn0 => /eqP z.
  apply: trim_ext; rewrite ?trimK // => i; rewrite nth_trim nth_nil; apply/eqP; rewrite -leqn0.
  by have := s1 (set_nth 0%N t0.1 x 0%N) i; rewrite z.
split.
- move=> p x /=; apply: (foldr_maxn (f := fun t : term => nth 0%N t.1 x)) => t tI.
  by apply: leq_trans (s1 t.1 x) _; exact: (maxn_foldr (fun t : term => sumn t.1) tI).
- by move=> p x; exact: coef1.
- move=> p x H _; change (qconst (nterms (ncoef p x 1))).
  by have [->|[a _ ->]] := const_terms (lead p x H).
- move=> p q x Hp Hq; change (qdeg (nterms (nres p q x)) <= 1)%N; rewrite /nres; case: (ndegree p x) => [|[|k]]; case: (ndegree q x) => [|[|j]] //.
  apply: qdeg_mk => t; rewrite mem_cat => /orP[] /allpairsP[[t1 t2] /= [I1 I2 ->]] /=.
    by rewrite (lead _ _ Hp _ I1) /=; exact: td (coef1 _ _ _ Hq) I2.
  rewrite (lead _ _ Hq _ I2); have -> : madd t1.1 [::] = t1.1 by case: t1.1.
  exact: td (coef1 _ _ _ Hp) I1.
- by move=> p x _ /=; rewrite /ndisc; case: ifP.
- move=> v; rewrite -[total_degree _]/(qdeg (nterms (mk (qgen v)))) gen_terms /qdeg /=.
  by rewrite maxn0; elim: v.
Qed.
End Ok.
