(** cohenhorm - Copy.py: the argument [iter] of _real_table. *)
From mathcomp Require Import all_ssreflect all_algebra all_real_closed.
From mathcomp.zify Require Import zify.
From Coq Require Import String.
From Verif Require Import Py MuchModel MuchSpec MuchSeq MuchDiag MuchStep MuchRoot MuchSem.
From Verif Require Import CohenModel CohenSpec CohenExp CohenCopy CohenSem CohenExt CohenStep CohenBack CohenTable CohenOld.

Set Implicit Arguments.
Unset Strict Implicit.
Unset Printing Implicit Defensive.
Import GRing.Theory Num.Theory Order.TTheory.
Local Open Scope ring_scope.

(** Neither too few iterations nor too little fuel. *)
Definition plain (T : Type) (r : res T) : bool :=
  match r with
  | Ok _ => true
  | Err (Exc s) => ~~ String.eqb s "iter"
  | Err OutOfFuel => false
  | Err _ => true
  end.

Lemma plain_bind (S T : Type) (m : res S) (k : S -> res T) :
  plain m -> (forall x, plain (k x)) -> plain (let! x := m in k x).
Proof. by case: m => [x _ h|e h _]; [exact: h|]. Qed.

Lemma plain_foldM (S T : Type) (f : S -> T -> res S) s l : (forall s x, plain (f s x)) -> plain (foldM f s l).
Proof. by move=> h; elim: l s => //= x l IH s; apply: plain_bind. Qed.

Lemma plain_dget (k : eqType) (V : Type) (d : dict k V) x : plain (dget d x).
Proof. by elim: d => //= -[a b] d IH; case: ifP. Qed.

Lemma plain_pyget (T : Type) (l : seq T) i : plain (pyget l i).
Proof. by rewrite /pyget; case: (drop i l). Qed.

Lemma plain_pylast (T : Type) (l : seq T) : plain (pylast l).
Proof. by case: l. Qed.

Section Stop.
Variables (P : eqType) (K : realDomainType) (A : algebra P K).
Variables (ss_of : seq P -> seq P) (ss_plus : seq P -> P -> seq P) (setiter : seq P -> seq P).
Notation table := (diagram P [eqType of rat]).
Notation context := (context P).
Implicit Types (D T : table) (con : context) (p q : P) (polys pols : seq P).

Local Notation zero := (a_zero A).
Local Notation der := (a_derivative A).
Local Notation tab := (old_table_nat A ss_of ss_plus setiter).

Lemma plain_cell D p c : plain (cell D p c).
Proof. exact: plain_dget. Qed.

Lemma plain_lookup T p c con : plain (table_lookup A T p c con).
Proof.
by rewrite /table_lookup; case: ifP => _; [exact: plain_cell|case: ifP => // _; case: ifP => // _; exact: plain_dget].
Qed.

Lemma plain_sign con k : plain (old_sign A con k).
Proof. by rewrite /old_sign; case: ifP => // _; exact: plain_dget. Qed.

Lemma plain_copy T pols con : plain (copy_table A setiter T pols con).
Proof.
rewrite /copy_table; case: pols => // p0 l; move: (p0 :: l) => {p0 l} l.
apply: plain_bind => [|k]; first exact: plain_pyget.
apply: plain_bind => [|cc].
  apply: plain_foldM => cc p; case: ifP => // _; apply: plain_bind => [|v]; first exact: plain_cell.
  case: ifP => // _; apply: plain_foldM => cc' x; apply: plain_bind => [|v']; first exact: plain_cell.
  by case: ifP => // _; apply: plain_bind => [|y]; first exact: plain_pyget.
apply: plain_foldM => D p; apply: plain_bind => [|D'].
  by apply: plain_foldM => D' c; apply: plain_bind => [|//]; exact: plain_lookup.
apply: plain_bind => [|c1]; first exact: plain_pyget.
apply: plain_bind => [|c0]; first exact: plain_pyget.
by apply: plain_bind => [|//]; exact: plain_lookup.
Qed.

Lemma plain_back T pols M : plain (old_map_back T pols M).
Proof.
apply: plain_foldM => D p; case: ifP => // _; apply: plain_bind => [|q]; first exact: plain_dget.
by apply: plain_bind => [|//]; exact: plain_dget.
Qed.

Lemma plain_extend T con p pols M : plain (old_extend A setiter T con p pols M).
Proof.
apply: plain_bind => [|s]; first exact: plain_sign.
case: (p \in rows T) => //; apply: plain_bind => [|T1]; first exact: plain_copy.
apply: plain_bind => [|D]; first exact: plain_back.
apply: plain_bind => [|p0]; first exact: plain_pyget.
apply: plain_bind => [|D'].
  apply: plain_foldM => D' q; apply: plain_bind => [|v]; first exact: plain_cell.
  case: ifP => // _; apply: plain_foldM => D'' c; apply: plain_bind => [|w]; first exact: plain_cell.
  case: ifP => // _; apply: plain_bind => [|//].
  apply: plain_bind => [|u]; first exact: plain_lookup.
  cbv beta zeta; case: (_ && _) => //; apply: plain_bind => [|//]; exact: plain_sign.
apply: plain_foldM => D'' [c i]; apply: plain_bind => [|y]; first exact: plain_pyget.
apply: plain_bind => [|z]; first by case: i => [|i]; [exact: plain_pylast|exact: plain_pyget].
cbv beta zeta; case: (_ \in _) => //; apply: plain_bind => [|u]; first exact: plain_cell.
apply: plain_bind => [|w]; first exact: plain_cell.
case: (_ && _) => //; case: (_ == _) => //; apply: plain_foldM => E q.
by apply: plain_bind => [|//]; exact: plain_cell.
Qed.

Lemma plain_initial p con : plain (old_initial A p con).
Proof.
rewrite /old_initial; case: ifP => // _; case: ifP => // _; case: ifP => // _.
by apply: plain_bind => [|//]; exact: plain_dget.
Qed.

Lemma plain_tables p pols M tables ret : plain (old_extend_tables A setiter p pols M tables ret).
Proof. by apply: plain_foldM => r [T c]; apply: plain_bind => [|//]; exact: plain_extend. Qed.

(** *** More iterations do not change the result. *)
Lemma foldM_settled (S T : Type) (E : exn) (f g : S -> T -> res S) s l :
  (forall s x, f s x <> Err E -> g s x = f s x) -> foldM f s l <> Err E -> foldM g s l = foldM f s l.
Proof.
move=> h; elim: l s => //= x l IH s; case Ef: (f s x) => [s'|e] /=.
  by move=> hl; rewrite h Ef //=; exact: IH.
by move=> ne; rewrite h Ef.
Qed.

Lemma tabE n polys con m set : polys <> [::] -> ss_of polys = m :: set ->
  tab n.+1 polys con =
  let needed := if zero != der m then ss_plus set (der m) else set in
  if needed == [::] then old_initial A m con
  else
    let! x := expand_context A (expand_fuel A needed) [:: [::]] con needed 0 in
    let: (h, es) := x in
    foldM (fun ret (e : entry P) =>
      let: (con, pols, mpg) := e in
      let! tables := tab n (old_goal A m pols) con in
      old_extend_tables A setiter m pols (hget h mpg) tables ret) [::] es.
Proof.
case: polys => // q l _ E; cbn [old_table_nat]; rewrite E; cbv zeta.
by case: (if _ then _ else _).
Qed.

Lemma tab_more n n' polys con : (n <= n')%N -> tab n polys con <> Err (Exc "iter") ->
  tab n' polys con = tab n polys con.
Proof.
elim: n n' polys con => [//|n IH] [//|n'] polys con; rewrite ltnS => le.
case: (eqVneq polys [::]) => [->//|/eqP p0].
case sE: (ss_of polys) => [|m set].
  by rewrite /old_table_nat; case: (polys) p0 sE => // q l _ ->.
rewrite !(tabE _ _ p0 sE); cbv zeta; case: (_ == _) => //.
case: (expand_context A _ _ _ _ _) => [[h es]|//]; rewrite !bind_ok.
apply: foldM_settled => ret [[c pols] a]; case Et: (tab n _ c) => [tables|er].
  by rewrite (IH _ _ _ le) Et.
by move=> ne; rewrite (IH _ _ _ le) Et // => -[E]; apply: ne; rewrite E.
Qed.

(** *** Enough iterations. *)
Variables (C : idomainType) (den : P -> {poly C}).
Hypothesis ok : algebra_contract A den.
Hypothesis ch : [char C] =i pred0.
Hypothesis ss : degree_sets A ss_of ss_plus.
Local Notation sz p := (size (den p)).
Local Notation Gd := (fun _ : P => Logic.True).
Local Notation rem p q := (a_pseudo_div A p q).2.

Definition settled polys con : Prop := exists N, plain (tab N polys con).

Lemma settled_fold (X Y : Type) (f : nat -> Y -> X -> res Y) (l : seq X) y :
  (forall n n' y x, (n <= n')%N -> f n y x <> Err (Exc "iter") -> f n' y x = f n y x) ->
  (forall x, List.In x l -> exists N, forall y, plain (f N y x)) -> exists N, plain (foldM (f N) y l).
Proof.
move=> mono h.
have [N hN] : exists N, forall x y, List.In x l -> plain (f N y x).
  elim: l h => [|x l IH] h; first by exists 0%N.
  have [N1 h1] := h x (or_introl erefl).
  have [z hz|N2 h2] := IH; first by apply: h; right.
  have up n n' z u : (n <= n')%N -> plain (f n u z) -> plain (f n' u z).
    by move=> le pl; rewrite (mono n) //; move: pl; case: (f n u z) => [//|[]//= s hs [E]]; rewrite E in hs.
  exists (maxn N1 N2) => z u [<-|hz]; first by apply: (up N1); [exact: leq_maxl|exact: h1].
  by apply: (up N2); [exact: leq_maxr|exact: h2].
exists N; elim: (l) y hN => //= x l' IH y hN; apply: plain_bind => [|z]; first by apply: hN; left.
by apply: IH => w u hw; apply: hN; right.
Qed.

Lemma fuel_enough needed p : p \in needed -> (size needed + sz p < expand_fuel A needed)%N.
Proof.
move=> hp; rewrite /expand_fuel; have : (a_degree A p <= foldr maxn 0%N [seq a_degree A q | q <- needed])%N.
  elim: needed hp => //= q l IH; rewrite inE leq_max => /orP[/eqP->|/IH->]; rewrite ?leqnn ?orbT //.
by rewrite (den_degree ok); move: (foldr _ _ _) => x; case: (sz p) => [|s] /=; lia.
Qed.

(** The remainders by constants vanish. *)
Lemma old_goalE m pols : (forall q, q \in pols -> (sz q <= sz m)%N) -> old_goal A m pols = new_goal A m pols.
Proof.
move=> le; rewrite /old_goal /new_goal !filter_cat; congr (_ ++ _).
elim: pols le => // g l IH le /=.
have {}IH := IH (fun q hq => le q (@mem_behead _ (g :: l) q hq)).
have hg := le g (mem_head _ _).
rewrite (deg_ge0 ok) (deg_pos ok); case: (eqVneq g zero) => [->|g0] /=.
  by rewrite (den_zero ok) size_poly0.
case: (ltnP 1 (sz g)) => s1 /=; first by rewrite IH.
have lt := sz_rem ok g0 hg.
have -> : rem m g = zero.
  by apply/eqP; rewrite -(sz_eq0 ok); move: lt s1; case: (sz g) => [|[|n]] //; case: (sz _).
by rewrite (deg_ge0 ok) eqxx IH.
Qed.

Lemma settled_step polys con d : (forall p, p \in polys -> (sz p <= d)%N) ->
  ((forall p, p \in polys -> (sz p < d)%N) -> settled polys con) ->
  (forall goal con', (forall p, p \in goal -> (sz p <= d)%N) ->
     (size (undup [seq p <- goal | sz p == d]) < size (undup [seq p <- polys | sz p == d]))%N -> settled goal con') ->
  settled polys con.
Proof.
move=> bd small large; case Ep: polys => [|p0 l]; first by exists 1%N.
rewrite -Ep; have pn : polys <> [::] by rewrite Ep.
case sE: (ss_of polys) => [|m set].
  by have := ss_of_mem ss polys p0; rewrite sE Ep mem_head.
have pE : polys =i m :: set := polysE ss sE.
have mm : m \in polys by rewrite pE mem_head.
have mmax q : q \in polys -> (sz q <= sz m)%N by rewrite pE inE => /orP[/eqP->//|/(m_max ok ss sE)].
case: (ltnP (sz m) d) => [lt|ge]; first by apply: small => q /mmax h; exact: leq_ltn_trans lt.
have Ed : sz m = d by apply/eqP; rewrite eqn_leq ge bd.
have unf n := tabE n con pn sE; cbv zeta in unf.
set needed := if _ then _ else _ in unf.
case: (eqVneq needed [::]) unf => [_|n0] unf; first by exists 1%N; rewrite unf; exact: plain_initial.
have m0 : m != zero.
  apply/eqP => mz; have sz0 : sz m = 0%N by rewrite mz (den_zero ok) size_poly0.
  have s0 : set = [::].
    have := ss_of_uniq ss polys; rewrite sE; case: (set) pE => // a t pE /andP[na _].
    have : a \in polys by rewrite pE !inE eqxx orbT.
    move/mmax; rewrite sz0 leqn0 (sz_eq0 ok) => /eqP az; by rewrite az mz mem_head in na.
  move: n0; rewrite /needed s0 ifN //; rewrite negbK eq_sym -(den_eq0 ok) (den_derivative ok) mz (den_zero ok).
  by rewrite deriv0.
have gd p : p \in polys -> Gd p by [].
have mn k' : k' \in needed -> (sz k' <= sz m)%N.
  by move=> hk; have [] := @needed_prop _ _ A _ den ok _ _ ss Gd (fun _ _ => I) polys m set sE gd m0 k' hk.
have [|||||h [es [Ex [_ eo _]]]] :=
  @expand_ok _ _ A _ den ok Gd (fun _ _ => I) (expand_fuel A needed) [:: [::]] con needed 0 _ _ _ _ _ => //.
- by rewrite /expand_fuel; lia.
- exact: fuel_enough.
suff [N hN] : exists N, plain (foldM ((fun n ret (e : entry P) =>
      let: (con, pols, mpg) := e in
      let! tables := tab n (old_goal A m pols) con in
      old_extend_tables A setiter m pols (hget h mpg) tables ret) N) [::] es).
  by exists N.+1; rewrite unf Ex bind_ok.
apply: settled_fold => [n n' ret [[c pols] a] le|[[c pols] a] he].
  case Et: (tab n _ c) => [tables|e] /=; first by rewrite (tab_more le) Et.
  by move=> ne; rewrite (tab_more le) Et //= => -[E]; apply: ne; rewrite E.
have eoe := eo _ he.
have pp q : q \in pols -> (sz q <= sz m)%N.
  move=> hq.
  by have [] := @pols_prop _ _ A _ den ok _ _ ss Gd (fun _ _ => I) con polys m set sE gd m0 h _ eoe q hq.
suff [N hN] : settled (old_goal A m pols) c.
  by exists N => ret; apply: plain_bind => // tables; exact: plain_tables.
rewrite old_goalE //.
have gp p : p \in new_goal A m pols -> (sz p <= sz m)%N /\ p != m.
  move=> hp; by have [] := @goal_prop _ _ A _ den ok _ _ ss Gd (fun _ _ => I) (fun _ _ => I) (fun _ _ _ _ _ _ => I)
    con polys m set sE gd m0 h _ eoe p hp.
apply: large => [p /gp[]|]; first by rewrite Ed.
rewrite -[(size _).+1]/(size (m :: undup [seq p <- new_goal A m pols | sz p == d])).
apply: uniq_leq_size.
  by rewrite /= undup_uniq andbT mem_undup mem_filter; apply/negP => /andP[_] /gp[_]; rewrite eqxx.
move=> p; rewrite inE !mem_undup !mem_filter => /orP[/eqP->|/andP[/eqP sp hp]]; first by rewrite Ed eqxx mm.
have sp' : sz p = sz m by rewrite sp Ed.
have hg : p \in new_goal A m (c, pols, a).1.2 by rewrite mem_filter.
have := @goal_large _ _ A _ den ok _ _ ss Gd (fun _ _ => I) con polys m set sE gd m0 h _ eoe p hg sp'.
by rewrite pE inE sp eqxx => ->; rewrite orbT.
Qed.

Lemma tab_settled polys con : settled polys con.
Proof.
have [d bd] : exists d, forall p, p \in polys -> (sz p <= d)%N.
  elim: (polys) => [|q l [d h]]; first by exists 0%N.
  by exists (maxn (sz q) d) => p; rewrite inE leq_max => /orP[/eqP->|/h->]; rewrite ?leqnn ?orbT.
have empty pl c : (forall p, p \in pl -> (sz p < 0)%N) -> settled pl c.
  by case: pl => [|q l] h; [exists 1%N|have := h q (mem_head _ _)].
elim: d polys con bd => [|d IHd] polys con bd.
  move: {2}(size _) (leqnn (size (undup [seq p <- polys | sz p == 0%N]))) => k.
  elim: k polys con bd => [|k IHk] polys con bd hk; apply: (settled_step bd) => [|g c h1 h2].
  - exact: empty.
  - by move: h2; rewrite ltnNge (leq_trans hk).
  - exact: empty.
  - by apply: IHk => //; rewrite -ltnS (leq_trans h2).
move: {2}(size _) (leqnn (size (undup [seq p <- polys | sz p == d.+1]))) => k.
elim: k polys con bd => [|k IHk] polys con bd hk; apply: (settled_step bd) => [h|g c h1 h2].
- by apply: IHd => p /h.
- by move: h2; rewrite ltnNge (leq_trans hk).
- by apply: IHd => p /h.
- by apply: IHk => //; rewrite -ltnS (leq_trans h2).
Qed.

Theorem old_enough polys con : exists N r, [/\ r <> Err (Exc "iter"), r <> Err OutOfFuel &
  forall iter : int, N <= iter -> old_table A ss_of ss_plus setiter polys con iter = r].
Proof.
have [N hN] := tab_settled polys con; exists (N%:Z), (tab N polys con).
have ne : tab N polys con <> Err (Exc "iter") by move=> E; rewrite E in hN.
split=> //; first by move=> E; rewrite E in hN.
case=> [n|n]; last by rewrite NegzE; lia.
by rewrite lez_nat => le; apply: (tab_more (leqW le)).
Qed.
End Stop.

Section Any.
Variables (P : eqType) (K : realDomainType) (A : algebra P K).
Variables (ss_of : seq P -> seq P) (ss_plus : seq P -> P -> seq P) (setiter : seq P -> seq P).

Theorem old_more polys con (iter iter' : int) : iter <= iter' ->
  old_table A ss_of ss_plus setiter polys con iter <> Err (Exc "iter") ->
  old_table A ss_of ss_plus setiter polys con iter' = old_table A ss_of ss_plus setiter polys con iter.
Proof.
case: iter => [n|n] //; case: iter' => [n'|n'] //.
by rewrite lez_nat -ltnS => le; exact: (tab_more le).
Qed.

Lemma old_only polys con (n iter : int) e : old_table A ss_of ss_plus setiter polys con n = Err e -> e <> Exc "iter" ->
  old_table A ss_of ss_plus setiter polys con iter = Err (Exc "iter") \/
  old_table A ss_of ss_plus setiter polys con iter = Err e.
Proof.
move=> E ne; case: (leP iter n) => [le|/ltW le]; last first.
  by right; rewrite (old_more le) E // => -[].
have := old_more (polys := polys) (con := con) le; rewrite E.
case: (old_table _ _ _ _ _ _ iter) => [t|[||||||s|]] h; try by right; rewrite h.
by case: (String.string_dec s "iter") => [->|ns]; [left|right; rewrite h // => -[]].
Qed.

Theorem old_full_raises equalities : old_real_full A ss_of ss_plus setiter equalities = Err (Exc "iter").
Proof. by []. Qed.
End Any.
