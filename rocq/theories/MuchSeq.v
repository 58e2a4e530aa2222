(** Facts about muchnik_sequence and the sorted set of polynomials. *)
From mathcomp Require Import all_ssreflect all_algebra.
From mathcomp.zify Require Import zify.
From Verif Require Import Py MuchModel MuchSpec.

Set Implicit Arguments.
Unset Strict Implicit.
Unset Printing Implicit Defensive.
Import GRing.Theory Num.Theory Order.TTheory.
Local Open Scope ring_scope.

Section Seq.
Variables (P : eqType) (K : realDomainType) (A : algebra P K).
Variables (C : idomainType) (den : P -> {poly C}).
Hypothesis ok : algebra_contract A den.

Local Notation zero := (a_zero A).
Local Notation degree := (a_degree A).
Local Notation sz p := (size (den p)).
Local Notation rem p q := (a_pseudo_div A p q).2.

Lemma den_eq0 p : (den p == 0) = (p == zero).
Proof. by apply/eqP/eqP => [/(den_zero_only ok)|->] //; exact: den_zero ok. Qed.

Lemma sz_eq0 p : (sz p == 0%N) = (p == zero).
Proof. by rewrite size_poly_eq0 den_eq0. Qed.

Lemma sz_tail p : p != zero -> (sz (a_tail A p) < sz p)%N.
Proof.
rewrite -den_eq0 => p0; rewrite (den_tail ok); set q := den p in p0 *.
have sp : (0 < size q)%N by rewrite size_poly_gt0.
have : (size (q - lead_coef q *: 'X^(size q).-1)%R <= size q)%N.
  apply: leq_trans (size_add _ _) _; rewrite geq_max leqnn size_opp /=.
  by apply: leq_trans (size_scale_leq _ _) _; rewrite size_polyXn prednK.
rewrite leq_eqVlt => /orP[/eqP E|//].
have : lead_coef (q - lead_coef q *: 'X^(size q).-1) = 0.
  by rewrite [LHS]lead_coefE E coefB coefZ coefXn eqxx mulr1 subrr.
by move/eqP; rewrite lead_coef_eq0 -size_poly_eq0 E => /eqP E0; rewrite E0 in sp.
Qed.

Lemma sz_der p : p != zero -> (sz (a_derivative A p) < sz p)%N.
Proof. by rewrite -den_eq0 => p0; rewrite (den_derivative ok) lt_size_deriv. Qed.

Lemma sz_rem p q : q != zero -> (sz q <= sz p)%N -> (sz (rem p q) < sz q)%N.
Proof. by rewrite -den_eq0 => q0 h; have [] := den_pseudo_div ok q0 h. Qed.

(** The recursion of the key is not cut short by the fuel. *)
Lemma key_unfold n p ds cs : (degree p <= n)%N ->
  poly_deg_key_helper A n p ds cs =
  if (degree p <= 0)%N then rcons ds 0 ++ rcons cs (a_LS A p)
  else poly_deg_key_helper A (degree (a_sub A p (a_LT A p))) (a_sub A p (a_LT A p))
         (rcons ds (degree p)%:R) (rcons cs (a_LS A p)).
Proof.
have low q : (0 < degree q)%N -> (degree (a_sub A q (a_LT A q)) < degree q)%N.
  move=> h; have q0 : q != zero by apply: contraTneq h => ->; rewrite (den_degree ok) (den_zero ok) size_poly0.
  have := sz_tail q0; move: h; rewrite !(den_degree ok) (den_sub_LT ok) (den_tail ok).
  by case: (sz q) => [|[|k]] //=; case: (size _).
have E m q ds' cs' : (degree q <= m)%N ->
   poly_deg_key_helper A m q ds' cs' = poly_deg_key_helper A (degree q) q ds' cs'.
  elim/ltn_ind: m q ds' cs' => m IH q ds' cs'.
  rewrite leq_eqVlt => /orP[/eqP-> //|lt]; case: m IH lt => // m IH lt /=.
  case: ifP => [|/negbT]; first by case: (degree q) => [|d] //=.
  rewrite -ltnNge => h; have := low _ h; case E: (degree q) => [|d] //=; rewrite E.
  rewrite ltnS => h'; rewrite (IH m) //; last by slia.
  by rewrite [RHS](IH d) //; slia.
case: n => [|n] h /=; first by rewrite h.
case: ifP => // /negbT; rewrite -ltnNge => /low h'; apply: E; slia.
Qed.

Lemma key_head p : exists s, poly_deg_key A p = (degree p)%:R :: s.
Proof.
have H n q d ds cs : exists s, poly_deg_key_helper A n q (d :: ds) cs = d :: s.
  by elim: n q ds cs => [|n IH] q ds cs /=; [|case: ifP => _ //]; eexists; reflexivity.
rewrite /poly_deg_key; case E: (degree p) => [|d] /=; first by eexists; reflexivity.
by rewrite E /=; exact: H.
Qed.

Lemma key_lt_degree p q : key_lt A p q -> (degree p <= degree q)%N.
Proof.
rewrite /key_lt; have [s ->] := key_head p; have [t ->] := key_head q => /=.
by rewrite eqr_nat ltr_nat; case: eqP => [-> //|_ /ltnW].
Qed.
Lemma key_ge_degree p q : ~~ key_lt A p q -> (degree q <= degree p)%N.
Proof.
rewrite /key_lt; have [s ->] := key_head p; have [t ->] := key_head q => /=.
by rewrite eqr_nat ltr_nat; case: eqP => [-> //|_]; rewrite -leqNgt.
Qed.

Definition by_degree (s : seq P) : bool := sorted (fun p q => (degree p <= degree q)%N) s.

Lemma by_degree_trans : transitive (fun p q : P => (degree p <= degree q)%N).
Proof. by move=> q p r; exact: leq_trans. Qed.

Lemma perm_insert (T : eqType) lt (x : T) s : perm_eq (ss_insert lt x s) (x :: s).
Proof.
elim: s => //= y s IH; case: ifP => _ //; rewrite -[x :: y :: s]/([:: x] ++ [:: y] ++ s).
by rewrite perm_sym perm_catCA /= perm_cons perm_sym.
Qed.

Lemma mem_insert (T : eqType) lt (x : T) s : ss_insert lt x s =i x :: s.
Proof. exact/perm_mem/perm_insert. Qed.

Lemma mem_add (T : eqType) lt s (x : T) : ss_add lt s x =i x :: s.
Proof.
rewrite /ss_add; case: ifP => [h|_]; last exact: mem_insert.
by move=> y; rewrite inE; case: eqP => [->|].
Qed.

Lemma uniq_add (T : eqType) lt s (x : T) : uniq s -> uniq (ss_add lt s x).
Proof. by rewrite /ss_add; case: ifP => // h u; rewrite (perm_uniq (perm_insert _ _ _)) /= h. Qed.

Lemma by_degree_add s x : by_degree s -> by_degree (ss_add (key_lt A) s x).
Proof.
rewrite /ss_add; case: ifP => // _ {}; rewrite /by_degree.
elim: s => //= y s IH; case: ifP => [h|/negbT h] srt /=.
  by rewrite (key_lt_degree h).
rewrite (path_sortedE by_degree_trans); apply/andP; split; last exact: IH (path_sorted srt).
apply/allP => z; rewrite mem_insert inE => /orP[/eqP->|zs]; first exact: key_ge_degree.
by move: srt; rewrite (path_sortedE by_degree_trans) => /andP[/allP/(_ _ zs)].
Qed.

Lemma mem_sortedset (T : eqType) lt (l : seq T) : sortedset lt l =i l.
Proof.
rewrite /sortedset; suff H : forall l a, foldl (ss_add lt) a l =i a ++ l by move=> x; rewrite H.
elim=> [|y s IH] a x /=; first by rewrite cats0.
by rewrite IH !mem_cat mem_add !inE orbA [(_ == _) || _]orbC.
Qed.

Lemma by_degree_sortedset l : by_degree (sortedset (key_lt A) l).
Proof.
rewrite /sortedset; have : by_degree [::] by [].
by elim: l [::] => //= x l IH a h; apply: IH; exact: by_degree_add.
Qed.

(** The polynomials appended for a new head. *)
Definition news (done : seq P) (h : P) : seq P :=
  (if a_tail A h != zero then [:: a_tail A h] else [::]) ++
  (if a_derivative A h != zero then [:: a_derivative A h] else [::]) ++
  [seq p <- [seq rem h p | p <- done & (degree p <= degree h)%N && (degree p > 0)%N] ++
            [seq rem p h | p <- done & (degree p >= degree h)%N && (degree p > 0)%N] | p != zero].

Lemma sequence_step n done h rest : muchnik_sequence A n.+1 done (h :: rest) =
  if h \in done then muchnik_sequence A n done rest
  else muchnik_sequence A n (ss_add (key_lt A) done h) (rest ++ news done h).
Proof.
rewrite /=; case: ifP => // _; congr muchnik_sequence; rewrite /news.
by do 2!case: ifP => _; rewrite -?cats1 -?catA.
Qed.

Lemma nonzero_degree p : (0 < degree p)%N -> p != zero.
Proof. by apply: contraTneq => ->; rewrite (den_degree ok) (den_zero ok) size_poly0. Qed.

Lemma degree_sz p q : q != zero -> (degree p <= degree q)%N -> (sz p <= sz q)%N.
Proof. by rewrite -sz_eq0 !(den_degree ok); case: (sz p) (sz q) => [|a] [|b]. Qed.

Lemma sz_degree p q : (sz p <= sz q)%N -> (degree p <= degree q)%N.
Proof. by rewrite !(den_degree ok); case: (sz p) (sz q) => [|a] [|b]. Qed.

Lemma mem_news done h q : h != zero -> q \in news done h -> (sz q < sz h)%N.
Proof.
move=> h0; rewrite !mem_cat mem_filter mem_cat.
case/or3P => [||/andP[_ /orP[]/mapP[p]]].
- by case: ifP => _ //; rewrite inE => /eqP->; exact: sz_tail.
- by case: ifP => _ //; rewrite inE => /eqP->; exact: sz_der.
- rewrite mem_filter => /andP[/andP[le /nonzero_degree p0] _] ->.
  have h' := degree_sz h0 le; exact: leq_trans (sz_rem p0 h') h'.
- rewrite mem_filter => /andP[/andP[ge /nonzero_degree p0] _] ->.
  by apply: sz_rem => //; exact: degree_sz.
Qed.

(** ** Termination *)
Lemma sequence_mono n m done todo s : muchnik_sequence A n done todo = Ok s ->
  (n <= m)%N -> muchnik_sequence A m done todo = Ok s.
Proof.
elim: n m done todo => // n IH [//|m] done [|h rest] //.
by rewrite !sequence_step ltnS; case: ifP => _ E le; exact: IH E le.
Qed.

Definition finishes done todo := exists n s, muchnik_sequence A n done todo = Ok s.

Lemma finishes_step done h rest : h \in done -> finishes done rest -> finishes done (h :: rest).
Proof. by move=> hd [n [s E]]; exists n.+1, s; rewrite sequence_step hd. Qed.
Lemma finishes_new done h rest : h \notin done ->
  finishes (ss_add (key_lt A) done h) (rest ++ news done h) -> finishes done (h :: rest).
Proof. by move=> /negbTE hd [n [s E]]; exists n.+1, s; rewrite sequence_step hd. Qed.

Lemma sequence_finishes done todo : zero \in done -> finishes done todo.
Proof.
move=> z0; have [d] : exists d, forall p, p \in todo -> (sz p <= d)%N.
  exists (\max_(p <- todo) sz p) => p hp; exact: leq_bigmax_seq.
elim: d done todo z0 => [|d IHd] done todo z0 bnd.
  elim: todo bnd => [|h rest IH] bnd; first by exists 1%N, done.
  have : (sz h <= 0)%N by apply: bnd; rewrite inE eqxx.
  rewrite leqn0 sz_eq0 => /eqP E; apply: finishes_step; first by rewrite E.
  by apply: IH => p hp; apply: bnd; rewrite inE hp orbT.
move: {2}(count _ _) (leqnn (count (fun p => sz p == d.+1) todo)) => m.
elim: m done todo z0 bnd => [|m IHm] done todo z0 bnd.
  rewrite leqn0 -leqn0 leqNgt -has_count -all_predC => /allP h; apply: IHd => // p hp.
  by have := bnd _ hp; rewrite leq_eqVlt (negbTE (h _ hp)) /= ltnS.
move=> cnt; case hb: (has (fun p => sz p == d.+1) todo); last first.
  apply: IHd => // p hp; have := bnd _ hp; rewrite leq_eqVlt ltnS => /orP[h|//].
  by move/negbT/hasPn: hb => /(_ _ hp); rewrite h.
have [a [h [b [E ha hh]]]] : exists a h b,
    [/\ todo = a ++ h :: b, all (fun p => sz p != d.+1) a & sz h == d.+1].
  move: (hb); rewrite has_find => lt.
  exists (take (find (fun p => sz p == d.+1) todo) todo), (nth zero todo (find (fun p => sz p == d.+1) todo)),
    (drop (find (fun p => sz p == d.+1) todo).+1 todo); split.
  - by rewrite -drop_nth // cat_take_drop.
  - apply/allP => p /(nthP zero)[i]; rewrite size_take lt => hi <-.
    by rewrite nth_take // (before_find zero hi).
  - exact: (nth_find zero hb).
move: cnt bnd; rewrite E count_cat /= hh.
have -> : count (fun p => sz p == d.+1) a = 0%N.
  by apply/eqP; rewrite -leqn0 leqNgt -has_count -all_predC.
rewrite add0n add1n ltnS => cnt bnd.
have h0 : h != zero by rewrite -sz_eq0 (eqP hh).
elim: a done b z0 ha cnt bnd {E hb todo} => [|p a IHa] done b z0 ha cnt bnd /=.
  case hd: (h \in done).
    by apply: finishes_step => //; apply: IHm => // q hq; apply: bnd; rewrite inE hq orbT.
  apply: finishes_new; rewrite ?hd //; apply: IHm.
  - by rewrite mem_add inE z0 orbT.
  - move=> q; rewrite mem_cat => /orP[hq|]; first by apply: bnd; rewrite inE hq orbT.
    by move/(mem_news h0)/ltnW => l; apply: leq_trans l _; rewrite (eqP hh).
  - rewrite count_cat; suff -> : count (fun p => sz p == d.+1) (news done h) = 0%N by rewrite addn0.
    apply/eqP; rewrite -leqn0 leqNgt -has_count -all_predC; apply/allP => q /(mem_news h0).
    by rewrite (eqP hh) /=; case: eqP => [->|//]; rewrite ltnn.
move: ha => /= /andP[p1 ha].
have pd : (sz p <= d)%N.
  by have := bnd p; rewrite inE eqxx leq_eqVlt (negbTE p1) /= ltnS; apply.
case hp: (p \in done).
  by apply: finishes_step => //; apply: IHa => // q hq; apply: bnd; rewrite inE hq orbT.
have p0 : p != zero by apply: contraFneq hp => ->.
apply: finishes_new; rewrite ?hp //= -catA cat_cons; apply: IHa => //.
- by rewrite mem_add inE z0 orbT.
- rewrite count_cat; suff -> : count (fun p => sz p == d.+1) (news done p) = 0%N by rewrite addn0.
  apply/eqP; rewrite -leqn0 leqNgt -has_count -all_predC; apply/allP => q /(mem_news p0) l /=.
  by rewrite neq_ltn (leq_trans l) // ltnW.
- move=> q; rewrite mem_cat inE mem_cat orbA orbCA => /or3P[hq|hq|hq].
  + by apply: bnd; rewrite inE mem_cat inE hq !orbT.
  + by apply: bnd; rewrite inE mem_cat inE; case/orP: hq => ->; rewrite !orbT.
  + by apply: leq_trans (ltnW (mem_news p0 hq)) _; exact: leqW.
Qed.

(** ** What the result contains *)
Lemma rem_self p : p != zero -> rem p p = zero.
Proof.
move=> p0; have pn0 : den p != 0 by rewrite den_eq0.
have [u E lt] := den_pseudo_div ok pn0 (leqnn (sz p)).
apply/eqP; rewrite -sz_eq0 -leqn0 leqNgt; apply/negP => r0.
set v : {poly C} := (lead_coef (den p) ^+ (sz p - sz p).+1)%:P - u.
have E' : den (rem p p) = v * den p by rewrite mulrBl mul_polyC E addrAC subrr add0r.
have v0 : v != 0 by apply: contraTneq r0 => E0; rewrite E' E0 mul0r size_poly0.
move: lt; rewrite E' size_mul //; move: v0; rewrite -size_poly_gt0.
by case: (size v) => // k _; rewrite addSn /= ltnNge leq_addl.
Qed.

Record seq_inv (ps done todo : seq P) : Prop := {
  si_zero : zero \in done;
  si_uniq : uniq done;
  si_deg : by_degree done;
  si_gen : forall p, p \in done ++ todo -> generated A den ps p;
  si_in : forall p, p \in ps -> p \in done ++ todo;
  si_tail : forall p, p \in done -> a_tail A p \in done ++ todo;
  si_der : forall p, p \in done -> a_derivative A p \in done ++ todo;
  si_rem : forall p q, p \in done -> q \in done -> q != zero -> (sz q <= sz p)%N ->
    rem p q \in done ++ todo
}.

Lemma seq_inv_start ps : seq_inv ps [:: zero] ps.
Proof.
have z1 : a_tail A zero = zero by apply: (den_zero_only ok); rewrite (den_tail ok) (den_zero ok) lead_coef0 scale0r subr0.
have z2 : a_derivative A zero = zero by apply: (den_zero_only ok); rewrite (den_derivative ok) (den_zero ok) deriv0.
split=> //; first by rewrite inE.
- by move=> p; rewrite inE => /orP[/eqP->|h]; [exact: gen_zero|exact: gen_input].
- by move=> p h; rewrite inE h orbT.
- by move=> p; rewrite inE => /eqP->; rewrite z1 inE eqxx.
- by move=> p; rewrite inE => /eqP->; rewrite z2 inE eqxx.
- by move=> p q _; rewrite inE => ->.
Qed.

Lemma seq_inv_skip ps done h rest : h \in done -> seq_inv ps done (h :: rest) -> seq_inv ps done rest.
Proof.
move=> hd [z u d g i t e r].
have E : done ++ h :: rest =i done ++ rest.
  by move=> x; rewrite !mem_cat inE; case: eqP => [->|//]; rewrite hd.
split=> // [p|p|p|p|p q]; rewrite -E; [exact: g|exact: i|exact: t|exact: e|exact: r].
Qed.

Lemma seq_inv_new ps done h rest : h \notin done -> seq_inv ps done (h :: rest) ->
  seq_inv ps (ss_add (key_lt A) done h) (rest ++ news done h).
Proof.
move=> hd [z u d g i t e r].
have h0 : h != zero by apply: contraNneq hd => ->.
have E x : (x \in ss_add (key_lt A) done h ++ (rest ++ news done h)) =
           (x \in done ++ h :: rest) || (x \in news done h).
  by rewrite !mem_cat mem_add !inE -!orbA orbCA.
have zz : zero \in ss_add (key_lt A) done h ++ (rest ++ news done h) by rewrite E mem_cat z.
have gh : generated A den ps h by apply: g; rewrite mem_cat inE eqxx orbT.
have inn x : x \in done ++ h :: rest -> x \in ss_add (key_lt A) done h ++ (rest ++ news done h).
  by rewrite E => ->.
split.
- by rewrite mem_add inE z orbT.
- exact: uniq_add.
- exact: by_degree_add.
- move=> p; rewrite E => /orP[/g //|]; rewrite !mem_cat mem_filter mem_cat.
  case/or3P => [||/andP[_ /orP[]/mapP[q]]].
  + by case: ifP => _ //; rewrite inE => /eqP->; exact: gen_tail.
  + by case: ifP => _ //; rewrite inE => /eqP->; exact: gen_der.
  + rewrite mem_filter => /andP[/andP[le /nonzero_degree q0] qd] ->.
    apply: gen_rem => //; [by apply: g; rewrite mem_cat qd|by rewrite den_eq0|exact: degree_sz].
  + rewrite mem_filter => /andP[/andP[ge /nonzero_degree q0] qd] ->.
    apply: gen_rem => //; [by apply: g; rewrite mem_cat qd|by rewrite den_eq0|exact: degree_sz].
- by move=> p /i; exact: inn.
- move=> p; rewrite mem_add inE => /orP[/eqP->|/t]; last exact: inn.
  case: (eqVneq (a_tail A h) zero) => [-> //|n0].
  by rewrite E !mem_cat n0 mem_head !orbT.
- move=> p; rewrite mem_add inE => /orP[/eqP->|/e]; last exact: inn.
  case: (eqVneq (a_derivative A h) zero) => [-> //|n0].
  by rewrite E /news !mem_cat n0 mem_head !orbT.
- move=> p q; rewrite !mem_add !inE => /orP[/eqP->|pd] /orP[/eqP->|qd] q0 le.
  + by rewrite rem_self.
  + case: (eqVneq (rem h q) zero) => [-> //|n0].
    case: (posnP (degree q)) => [dq|dq].
      have := sz_rem q0 le; move: dq q0; rewrite (den_degree ok) -sz_eq0.
      by case: (sz q) => [|[|k]] // _ _; rewrite ltnS leqn0 sz_eq0 (negbTE n0).
    rewrite E; apply/orP; right; rewrite !mem_cat mem_filter n0 /= mem_cat.
    apply/orP; right; apply/orP; right; apply/orP; left; apply/mapP; exists q => //.
    by rewrite mem_filter dq qd sz_degree.
  + case: (eqVneq (rem p h) zero) => [-> //|n0].
    case: (posnP (degree p)) => [dp|dp].
      have := sz_rem q0 le; move: dp (q0) le; rewrite (den_degree ok) -sz_eq0.
      case: (sz h) (sz p) => [|k] [|[|l]] // _ _; rewrite ltnS leqn0 => /eqP ->.
      by rewrite ltnS leqn0 sz_eq0 (negbTE n0).
    rewrite E; apply/orP; right; rewrite !mem_cat mem_filter n0 /= mem_cat.
    apply/orP; right; apply/orP; right; apply/orP; right; apply/mapP; exists p => //.
    by rewrite mem_filter dp pd sz_degree.
  + by apply: inn; exact: r.
Qed.

Lemma sequence_inv n ps done todo s : seq_inv ps done todo ->
  muchnik_sequence A n done todo = Ok s -> seq_inv ps s [::].
Proof.
elim: n done todo => // n IH done [|h rest] inv; first by case=> <-.
rewrite sequence_step; case: ifP => [hd|/negbT hd].
  by apply: IH; exact: seq_inv_skip inv.
by apply: IH; exact: seq_inv_new inv.
Qed.

Definition sequence n ps := muchnik_sequence A n (sortedset (key_lt A) [:: zero]) ps.

Lemma sequence_ok ps : exists s N, forall n, (N <= n)%N -> sequence n ps = Ok s.
Proof.
have [|N [s E]] := @sequence_finishes [:: zero] ps; first by rewrite inE.
by exists s, N => n; exact: sequence_mono E.
Qed.

Lemma sequence_spec n ps s : sequence n ps = Ok s ->
  [/\ uniq s, by_degree s, {subset ps <= s}, closed_seq A den s &
      forall p, p \in s <-> generated A den ps p].
Proof.
move/(sequence_inv (seq_inv_start ps)) => [z u d g i t e r]; rewrite cats0 in g i t e r.
have cl : closed_seq A den s by split=> // p q ps' qs; rewrite den_eq0; exact: r.
split=> // p; split; first by apply: g.
case: cl => c1 c2 c3 c4; elim=> [|q|q _|q _|q q' _ h1 _ h2]; [exact: c1|exact: i|exact: c2|exact: c3|exact: c4].
Qed.

(** The scaled leading coefficient is an iterated derivative. *)
Lemma lc_row_in s p : closed_seq A den s -> p \in s ->
  a_times A (a_LC A p) (fac (degree p)) \in s.
Proof.
move=> [z _ e _] ps.
rewrite -(den_last ok); elim: (degree p) => // k; exact: e.
Qed.

End Seq.

(** When equal polynomials are equal objects the last derivative is the scaled
    leading coefficient. *)
Lemma last_of_inj (P : eqType) (K : realDomainType) (A : algebra P K) (C : idomainType) (den : P -> {poly C}) :
  injective den -> (forall p, a_degree A p = (size (den p)).-1) ->
  (forall p, den (a_LC A p) = (lead_coef (den p))%:P) ->
  (forall p n, den (a_times A p n) = den p *+ n) ->
  (forall p, den (a_derivative A p) = (den p)^`()) ->
  forall p, iter (a_degree A p) (a_derivative A) p = a_times A (a_LC A p) (fac (a_degree A p)).
Proof.
move=> inj dd dl dt de p; apply: inj; rewrite dt dl.
have it k : den (iter k (a_derivative A) p) = (den p)^`(k) by elim: k => [//|k IH]; rewrite iterS de IH derivnS.
rewrite it dd; set Q := den p; have facE k : fac k = k`! by elim: k => //= k ->; rewrite factS.
rewrite facE; apply/polyP => i; rewrite coef_derivn coefMn coefC.
case: i => [|i] /=; first by rewrite addn0 ffactnn lead_coefE.
by rewrite mul0rn nth_default ?mul0rn // addnS; case: (size Q) => //= k; slia.
Qed.
