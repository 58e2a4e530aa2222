(** A library that meets the assumptions of the GRF theorems: sparse
    polynomials over the rationals.  It is used for the examples and the
    refutations only.  [resultant] and [discriminant] are not assumed anything
    of and are 0 here; [root_intervals] knows the polynomial x^2 - 2 only, and
    [roots] tries small numbers. *)
From mathcomp Require Import all_ssreflect all_algebra.
From mathcomp.zify Require Import zify.
From mathcomp.real_closed Require Import polyrcf.
From Coq Require Import String.
From Verif Require Import Py GrfModel GrfCad GrfSpec GrfLine GrfCadFacts.

Set Implicit Arguments.
Unset Strict Implicit.
Unset Printing Implicit Defensive.
Import GRing.Theory Num.Theory Order.Theory.
Local Open Scope ring_scope.

Section Poly.
Definition mono := [eqType of seq nat].
Definition term := (mono * rat)%type.
Definition qpoly := [eqType of seq (seq nat * rat)].
Implicit Types (m : mono) (t : term) (p q : qpoly) (d : dict [eqType of var] rat).

(** Without trailing zeros. *)
Fixpoint trim (m : seq nat) : seq nat :=
  match m with
  | [::] => [::]
  | k :: m' => match k, trim m' with 0, [::] => [::] | _, r => k :: r end
  end%N.

(** Degree, then reverse lexicographic. *)
Fixpoint rlex (l l' : seq nat) : bool :=
  match l, l' with
  | a :: l1, b :: l1' => if a == b then rlex l1 l1' else (a < b)%N
  | _, _ => false
  end.
Definition pad (n : nat) (m : seq nat) : seq nat := m ++ nseq (n - size m) 0%N.
Definition mgt (m n : seq nat) : bool :=
  (sumn n < sumn m)%N || ((sumn n == sumn m) &&
    (let k := maxn (size m) (size n) in rlex (rev (pad k m)) (rev (pad k n)))).

Fixpoint padd1 (t : term) (p : seq term) : seq term :=
  match p with
  | [::] => if t.2 == 0 then [::] else [:: t]
  | t' :: p' =>
      if t.1 == t'.1 then (if t.2 + t'.2 == 0 then p' else (t.1, t.2 + t'.2) :: p')
      else if mgt t.1 t'.1 then (if t.2 == 0 then p else t :: p)
      else t' :: padd1 t p'
  end.
Definition norm (l : seq term) : seq term := foldr padd1 [::] l.

Fixpoint madd (m n : seq nat) : seq nat :=
  match m, n with [::], _ => n | _, [::] => m | a :: m', b :: n' => (a + b)%N :: madd m' n' end.
Fixpoint mdiv (m n : seq nat) : option (seq nat) :=
  match m, n with
  | _, [::] => Some m
  | [::], b :: n' => if b is 0%N then mdiv [::] n' else None
  | a :: m', b :: n' =>
      if (b <= a)%N then (if mdiv m' n' is Some r then Some ((a - b)%N :: r) else None) else None
  end.

(** [p - c * m * b] *)
Definition psub (p : seq term) (c : rat) (m : seq nat) (b : seq term) : seq term :=
  norm ([seq (madd m t.1, - c * t.2) | t <- b] ++ p).

(** Division by a list. *)
Fixpoint red_by (p : seq term) (t : term) (B : seq (seq term)) : option (seq term) :=
  match B with
  | [::] => None
  | b :: B' =>
      match b with
      | [::] => red_by p t B'
      | l :: _ => match mdiv t.1 l.1 with
                  | Some m => Some (psub p (t.2 / l.2) m b)
                  | None => red_by p t B'
                  end
      end
  end.
Fixpoint red_step (p : seq term) (ts : seq term) (B : seq (seq term)) : option (seq term) :=
  match ts with
  | [::] => None
  | t :: ts' => if red_by p t B is Some p' then Some p' else red_step p ts' B
  end.
Fixpoint reduce_n (n : nat) (p : seq term) (B : seq (seq term)) : seq term :=
  if n is n'.+1 then (if red_step p p B is Some p' then reduce_n n' p' B else p) else p.

Fixpoint msub (m : seq nat) (d : dict [eqType of var] rat) (i : nat) : rat * seq nat :=
  match m with
  | [::] => (1, [::])
  | k :: m' => let: (c, r) := msub m' d i.+1 in
               if dget d i is Ok x then (x ^+ k * c, 0%N :: r) else (c, k :: r)
  end.
Definition tsub (d : dict [eqType of var] rat) (t : term) : term :=
  let: (c, r) := msub t.1 d 0 in (trim r, c * t.2).
Definition qsubst (p : seq term) (d : dict [eqType of var] rat) : seq term := norm [seq tsub d t | t <- p].

Fixpoint mvars (m : seq nat) (i : nat) : seq nat :=
  match m with
  | [::] => [::]
  | k :: m' => if k is 0%N then mvars m' i.+1 else i :: mvars m' i.+1
  end.
Definition qvars (p : seq term) : seq nat := undup (flatten [seq mvars t.1 0 | t <- p]).

Definition qconst (p : seq term) : bool :=
  match p with [::] => true | [:: ([::], _)] => true | _ => false end.
(** Comparison with 0 of a polynomial that is not constant: by the leading
    monomial. *)
Definition qcmp (p : seq term) : comparison :=
  match p with
  | [::] => Eq
  | t :: _ => if t.2 < 0 then Lt else if t.2 == 0 then Eq else Gt
  end.

Definition qgen (v : nat) : qpoly := [:: (ncons v 0%N [:: 1%N], 1)].
Definition qdeg (p : seq term) : nat := foldr maxn 0%N [seq sumn t.1 | t <- p].
Definition qdegree (p : seq term) (v : nat) : nat := foldr maxn 0%N [seq nth 0%N t.1 v | t <- p].
Definition qcoef (p : seq term) (v k : nat) : seq term :=
  norm [seq (trim (set_nth 0%N t.1 v 0%N), t.2) | t <- p & nth 0%N t.1 v == k].

(** Univariate polynomials: exponents and coefficients. *)
Definition upoly := [eqType of seq (nat * rat)].
Definition quniv (p : seq term) : res upoly :=
  match qvars p with
  | [::] | [:: _] => Ok [seq (nth 0%N t.1 (head 0%N (qvars p)), t.2) | t <- p]
  | _ => Err TypeError
  end.
Fixpoint ueval (u : seq (nat * rat)) (x : rat) : rat :=
  if u is t :: u' then t.2 * x ^+ t.1 + ueval u' x else 0.
Definition candidates : seq rat := [:: -3%:R; -2%:R; -1; -1 / 2%:R; 0; 1 / 2%:R; 1; 3%:R / 2%:R; 2%:R; 3%:R; 5%:R].
Definition uroots (u : upoly) : seq (rat * nat) :=
  if u is [::] then [::] else [seq (a, 1%N) | a <- candidates & ueval u a == 0].
Definition x2m2 : upoly := [:: (2%N, 1); (0%N, -2%:R)].
Definition uintervals (us : seq upoly) : seq ((rat * rat) * nat) :=
  if us == [:: x2m2] then [:: ((-2%:R, -1), 1%N); ((1, 2%:R), 1%N)] else [::].

Definition qfloor (x : rat) : rat := (numq x %/ denq x)%Z%:~R.
Definition qceil (x : rat) : rat := - qfloor (- x).

Definition qlib : lib [realDomainType of rat] :=
  @Lib [realDomainType of rat] qpoly upoly qgen qvars qsubst qcmp qdeg qdegree
    (fun p => [seq [:: (t.1, 1)] | t <- p]) qconst (fun p => take 1 p)
    (fun _ _ _ => [::]) (fun _ _ => [::]) qcoef
    (fun l => l) (fun p B => reduce_n (size p * 20) p B) quniv uroots uintervals qfloor qceil.

(** Random numbers three quarters of the way, first choices, and a solver of
    equations that stays where it starts; perturbations are up to 1. *)
Definition qoracle : oracle qlib :=
  @Oracle [realDomainType of rat] qlib (fun _ l u => (l + 3%:R * u) / 4%:R) (fun _ _ => 0%N)
    (fun _ _ _ x => Ok x) 1 1.
End Poly.

Example ex_reduce : @reduce _ qlib (norm [:: ([:: 1%N], 1); ([:: 0; 1]%N, -1)])
   [:: norm [:: ([:: 1%N], 1); ([:: 0; 1]%N, 1)]] = [:: ([:: 0; 1]%N, -2%:R)].
Proof. by vm_compute. Qed.
Example ex_floor : floor qlib (-7%:R / 2%:R) = -4%:R.
Proof. by vm_compute. Qed.

(** ** It meets the assumptions *)
Section Ok.
Variable K : rcfType.
Implicit Types (e : var -> K) (p : qpoly) (t : term).
Local Notation inj := (@ratr K).

Fixpoint mval (m : seq nat) (e : var -> K) (i : nat) : K :=
  if m is k :: m' then e i ^+ k * mval m' e i.+1 else 1.
Definition tval (e : var -> K) (t : term) : K := inj t.2 * mval t.1 e 0.
Fixpoint pval (p : seq term) (e : var -> K) : K := if p is t :: p' then tval e t + pval p' e else 0.

Definition uval (u : seq (nat * rat)) : {poly K} :=
  foldr (fun (t : nat * rat) s => (inj t.2)%:P * 'X^t.1 + s) 0 u.

Lemma ratr_mono : {mono inj : x y / x <= y}.
Proof. exact: ler_rat. Qed.

Lemma pval_padd1 t p e : pval (padd1 t p) e = tval e t + pval p e.
Proof.
case: t => m c; elim: p => [|[m' c'] p IH] /=.
  by case: eqP => [->|] //=; rewrite /tval /= rmorph0 mul0r addr0.
case: eqP => [->|_].
  rewrite /tval /= addrA -mulrDl -rmorphD.
  by case: eqP => [->|//]; rewrite rmorph0 mul0r add0r.
case: ifP => _; last by rewrite /= IH addrCA.
by case: eqP => [->|//]; rewrite [tval e (m, 0)]/tval /= rmorph0 mul0r add0r.
Qed.

Lemma pval_cat p q e : pval (p ++ q) e = pval p e + pval q e.
Proof. by elim: p => [|t p IH] /=; rewrite ?add0r // IH addrA. Qed.

Lemma pval_norm l e : pval (norm l) e = pval l e.
Proof. by elim: l => //= t l IH; rewrite pval_padd1 IH. Qed.

Lemma mval_madd m n e i : mval (madd m n) e i = mval m e i * mval n e i.
Proof.
elim: m n i => [|a m IH] [|b n] i /=; rewrite ?mul1r ?mulr1 //.
by rewrite IH exprD mulrACA.
Qed.

Lemma mval_trim m e i : mval (trim m) e i = mval m e i.
Proof.
elim: m i => //= k m IH i; rewrite -IH; case: k => [|k]; case: (trim m) => //=.
by rewrite expr0 mul1r.
Qed.

Lemma pval_psub p c m b e : pval (psub p c m b) e = pval p e - inj c * mval m e 0 * pval b e.
Proof.
rewrite /psub pval_norm pval_cat addrC; congr (_ + _); elim: b => [|t b IH] /=; first by rewrite mulr0 oppr0.
by rewrite IH /tval /= mval_madd rmorphM rmorphN mulrDr opprD !mulNr; congr (- _ + _); rewrite mulrACA.
Qed.

Lemma pval_red_by p t B p' e : red_by p t B = Some p' -> (forall b, b \in B -> pval b e = 0) ->
  pval p' e = pval p e.
Proof.
elim: B => //= b B IH H Z; case: b H Z => [|l b] H Z.
  by apply: IH H _ => b' I; apply: Z; rewrite inE I orbT.
move: H; case: (mdiv _ _) => [m [<-]|H]; last by apply: IH H _ => b' I; apply: Z; rewrite inE I orbT.
by rewrite pval_psub (Z (l :: b)) ?mem_head // mulr0 subr0.
Qed.

Lemma pval_red_step p ts B p' e : red_step p ts B = Some p' -> (forall b, b \in B -> pval b e = 0) ->
  pval p' e = pval p e.
Proof.
move=> + Z; elim: ts => //= t ts IH; case E : (red_by _ _ _) => [q|//] [<-]; exact: pval_red_by E Z.
Qed.

Lemma pval_reduce n p B e : (forall b, b \in B -> pval b e = 0) -> pval (reduce_n n p B) e = pval p e.
Proof.
move=> Z; elim: n p => //= n IH p; case E : (red_step _ _ _) => [p'|//].
by rewrite IH (pval_red_step E Z).
Qed.

Lemma mval_vars m e e' i : {in mvars m i, e =1 e'} -> mval m e i = mval m e' i.
Proof.
elim: m i => //= k m IH i H; rewrite (IH i.+1).
  by case: k H => [|k] H; rewrite ?expr0 // H ?mem_head.
by move=> v vI; apply: H; case: k {IH} => // k; rewrite inE vI orbT.
Qed.

Lemma in_qvars t p v : t \in p -> v \in mvars t.1 0 -> v \in qvars p.
Proof. by move=> tp vt; rewrite mem_undup; apply/flatten_mapP; exists t. Qed.

Lemma pval_vars p e e' : {in qvars p, e =1 e'} -> pval p e = pval p e'.
Proof.
move=> H; have : forall t, t \in p -> tval e t = tval e' t.
  by move=> t tp; rewrite /tval (@mval_vars _ e e') // => v /(in_qvars tp) /H.
by elim: p {H} => //= t p IH H; rewrite (H t) ?mem_head // IH // => t' I; apply: H; rewrite inE I orbT.
Qed.

(** Substitution. *)
Definition ragrees (d : dict [eqType of var] rat) e := @agrees [realDomainType of rat] K inj d e.

Lemma msub_val m d e i : ragrees d e ->
  inj (msub m d i).1 * mval (msub m d i).2 e i = mval m e i.
Proof.
move=> A; elim: m i => [|k m IH] i /=; first by rewrite rmorph1 mulr1.
rewrite -IH; case: (msub m d i.+1) => c r /=; case E : (dget d i) => [x|x] /=.
  by rewrite (A _ _ E) expr0 mul1r rmorphM rmorphX -mulrA.
by rewrite mulrCA.
Qed.

Lemma qsubst_val p d e : ragrees d e -> pval (qsubst p d) e = pval p e.
Proof.
move=> A; rewrite /qsubst pval_norm; elim: p => //= t p ->; congr (_ + _).
rewrite /tsub /tval; have := @msub_val t.1 d e 0 A; case: (msub _ _ _) => c r /= <-.
by rewrite mval_trim rmorphM mulrAC [_ * inj t.2]mulrC mulrA.
Qed.

Lemma dmem_ok (d : dict [eqType of var] rat) v : dmem d v -> exists x, dget d v = Ok x.
Proof.
rewrite /dmem; elim: d => //= -[k x] d IH /=; rewrite inE /dget /= eq_sym.
case: (_ == _) => /=; first by exists x.
by move/IH=> [y Ey]; exists y; rewrite -Ey.
Qed.

Lemma msub_all m d i : all (fun v => dmem d v) (mvars m i) -> trim (msub m d i).2 = [::].
Proof.
elim: m i => //= k m IH i H; have /IH : all (fun v => dmem d v) (mvars m i.+1).
  by case: k H => //= k /andP[].
case: (msub m d i.+1) => c r /= E; case Ed : (dget d i) => [x|x] /=; first by rewrite E.
case: k H => [|k] /=; first by rewrite E.
by case/andP => /dmem_ok[y]; rewrite Ed.
Qed.

Lemma norm_const (l : seq term) : all (fun t => t.1 == [::]) l ->
  norm l = [::] \/ exists2 c, c != 0 & norm l = [:: ([::], c)].
Proof.
elim: l => [|[m c] l IH] /=; first by left.
case/andP=> /eqP -> /IH[->|[c' c0 ->]] /=.
  by case: eqP => [_|/eqP ne]; [left|right; exists c].
by case: eqP => [_|/eqP ne]; [left|right; exists (c + c')].
Qed.

Lemma ratr_cmp (c : rat) : cmp_of (inj c) = (if c < 0 then Lt else if c == 0 then Eq else Gt).
Proof. by rewrite /cmp_of -(rmorph0 [rmorphism of inj]) ltr_rat (inj_eq (fmorph_inj _)). Qed.

Lemma qsubst_cmp p d e : all (fun v => dmem d v) (qvars p) -> ragrees d e ->
  qcmp (qsubst p d) = cmp_of (pval p e).
Proof.
move=> V A; rewrite -(qsubst_val p A) /qsubst.
have [|->|[c c0 ->]] := @norm_const [seq tsub d t | t <- p].
- apply/allP => t' /mapP[t tp ->]; rewrite /tsub.
  have := @msub_all t.1 d 0; case: (msub _ _ _) => c r /= -> //.
  by apply/allP => v vt; apply: (allP V); exact: in_qvars vt.
- by rewrite /= /cmp_of ltxx eqxx.
- by rewrite /= /tval /= mulr1 addr0 ratr_cmp.
Qed.

Lemma qlib_ok : @lib_ok [realDomainType of rat] qlib K inj pval.
Proof.
split=> //.
- by move=> p e e'; exact: pval_vars.
- by move=> p d e; exact: qsubst_cmp.
- by move=> p B e Z; exact: (@pval_reduce (size p * 20) p B e Z).
Qed.

Lemma mvars_ge m i v : v \in mvars m i -> (i <= v)%N.
Proof.
elim: m i => //= k m IH i; case: k => [/IH /ltnW //|k].
by rewrite inE => /predU1P[->//|/IH /ltnW].
Qed.

Lemma mvars_uniq m i : uniq (mvars m i).
Proof.
elim: m i => //= k m IH i; case: k => //= k; rewrite IH andbT.
by apply/negP => /mvars_ge; rewrite ltnn.
Qed.

Lemma mvars_nil m e i : mvars m i = [::] -> mval m e i = 1.
Proof. by elim: m i => //= k m IH i; case: k => // /IH ->; rewrite expr0 mul1r. Qed.

Lemma mvars_one m i v : all (pred1 v) (mvars m i) -> forall e,
  mval m e i = e v ^+ (if (v < i)%N then 0%N else nth 0%N m (v - i)).
Proof.
elim: m i => [|k m IH] i /=; first by move=> _ e; rewrite nth_nil if_same expr0.
move=> H e; have H' : all (pred1 v) (mvars m i.+1) by case: k H => //= k /andP[].
rewrite (IH _ H'); case: (ltngtP v i) => [lt|gt|E].
- case: k H => [|k] /=; first by rewrite ltnS (ltnW lt) !expr0 mul1r.
  by case/andP=> /eqP E; rewrite E ltnn in lt.
- have -> : (v < i.+1)%N = false by rewrite ltnS leqNgt gt.
  have -> : (v - i = (v - i.+1).+1)%N by slia.
  case: k H => [|k] /=; first by rewrite expr0 mul1r.
  by case/andP=> /eqP E; rewrite E ltnn in gt.
- by rewrite E ltnSn subnn /= expr0 mulr1.
Qed.

Lemma mvars_pos m i v : v \in mvars m i -> (0 < nth 0%N m (v - i))%N.
Proof.
elim: m i => //= k m IH i; have H : v \in mvars m i.+1 -> (0 < nth 0%N (k :: m) (v - i))%N.
  move=> vI; have le := mvars_ge vI; have -> : (v - i = (v - i.+1).+1)%N by slia.
  exact: IH.
by case: k H => [|k] H //; rewrite inE => /predU1P[->|/H //]; rewrite subnn.
Qed.

Lemma qpure (p : qpoly) v : p = take 1 p -> qvars p = [:: v] ->
  exists c k, (0 < k)%N /\ forall e, pval p e = c * e v ^+ k.
Proof.
case: p => [|[m c] p] //= []; rewrite take0 => ->; rewrite /qvars /= cats0 undup_id ?mvars_uniq // => E.
exists (inj c), (nth 0%N m v); split; last first.
  move=> e; rewrite /tval /= addr0 (@mvars_one m 0 v) ?E /= ?eqxx //.
  by rewrite subn0.
have : v \in mvars m 0 by rewrite E mem_head.
by move/mvars_pos; rewrite subn0.
Qed.

Lemma uval_eval u x : (uval u).[x] = \sum_(t <- u) inj t.2 * x ^+ t.1.
Proof.
elim: u => [|t u IH] /=; first by rewrite horner0 big_nil.
by rewrite big_cons hornerD hornerM hornerC hornerXn IH.
Qed.

Lemma ueval_eval u (x : rat) : (uval u).[inj x] = inj (ueval u x).
Proof.
elim: u => [|t u IH] /=; first by rewrite horner0 rmorph0.
by rewrite hornerD hornerM hornerC hornerXn IH rmorphD rmorphM rmorphX.
Qed.

Lemma quniv_val p u v e : quniv p = Ok u -> all (pred1 v) (qvars p) -> pval p e = (uval u).[e v].
Proof.
move=> E V; have Vt t : t \in p -> all (pred1 v) (mvars t.1 0).
  by move=> tp; apply/allP => x xt; apply: (allP V); exact: in_qvars xt.
have Ev t : t \in p -> tval e t = inj t.2 * e v ^+ nth 0%N t.1 (head 0%N (qvars p)).
  move=> tp; rewrite /tval (mvars_one (Vt t tp)) ltn0 subn0.
  case Eq : (qvars p) V => [|v' l] /=; last by case/andP=> /eqP ->.
  move=> _; have : mvars t.1 0 = [::].
    by case Em : (mvars t.1 0) => [//|x l]; have : x \in qvars p by [apply: (in_qvars tp); rewrite Em mem_head]; rewrite Eq.
  have n0 : forall w, (forall m i, mvars m i = [::] -> nth 0%N m w = 0%N).
    by elim=> [|w IH] [|k m] i //=; case: k => // /IH.
  by move=> /n0 H; rewrite !H.
have -> : u = [seq (nth 0%N t.1 (head 0%N (qvars p)), t.2) | t <- p].
  by move: E; rewrite /quniv; case: (qvars p) => [|x [|y l]] // -[].
move: Ev; move: (head 0%N (qvars p)) => h; elim: (p) => /= [|t l IH] H; first by rewrite horner0.
rewrite hornerD hornerM hornerC hornerXn H ?mem_head //= IH // => t' I; apply: H; by rewrite inE I orbT.
Qed.

Lemma qcad_ok : @cad_ok [realDomainType of rat] qlib K pval uval.
Proof.
have gv v i : mvars (ncons v 0%N [:: 1%N]) i = [:: (i + v)%N].
  by elim: v i => [|v IH] i /=; rewrite ?addn0 // IH addSnnS.
have ge v e i : mval (ncons v 0%N [:: 1%N]) e i = e (i + v)%N.
  by elim: v i => [|v IH] i /=; rewrite ?addn0 ?mulr1 ?expr1 // expr0 mul1r IH addSnnS.
split=> /=.
- by move=> v e; rewrite /tval /= rmorph1 mul1r addr0 ge.
- by move=> [|[[|k m] c] [|t p]] e e'.
- exact: qpure.
- exact: quniv_val.
- by move=> v; rewrite /qvars /= cats0 gv.
Qed.

Lemma qfloor_le (x : rat) : qfloor x <= x.
Proof.
rewrite /qfloor -{3}(divq_num_den x) ler_pdivl_mulr ?ltr0z ?denq_gt0 // -intrM ler_int.
by rewrite {2}(divz_eq (numq x) (denq x)) ler_addl modz_ge0 // gt_eqF // denq_gt0.
Qed.

Lemma qline_ok : @line_ok [realDomainType of rat] qlib qoracle K inj uval.
Proof.
split=> /=.
- exact: ratr_mono.
- move=> u a m; rewrite /uroots; case: u => // t u /mapP[b]; rewrite mem_filter => /andP[/eqP z _] [-> _].
  by rewrite /root ueval_eval z rmorph0.
- exact: qfloor_le.
- by move=> x; rewrite /qceil ler_oppr qfloor_le.
- move=> _ l u lu; rewrite ltr_pdivl_mulr ?ltr_pdivr_mulr ?ltr0n //.
  have E (x : rat) : x * 4%:R = x + 3%:R * x by rewrite mulrC (natrD _ 1 3) mulrDl mul1r.
  by rewrite !E ltr_add2l ltr_add2r lu ltr_pmul2l ?ltr0n ?lu.
Qed.
End Ok.
