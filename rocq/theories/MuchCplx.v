(** complex_extend and complex_full: the meaning of the tables. *)
From mathcomp Require Import all_ssreflect all_algebra all_real_closed.
From mathcomp.zify Require Import zify.
From Verif Require Import Py MuchModel MuchSpec MuchSeq MuchDiag MuchStep MuchSem MuchReal MuchFull MuchMult MuchCStep.

Set Implicit Arguments.
Unset Strict Implicit.
Unset Printing Implicit Defensive.
Import GRing.Theory Num.Theory Order.TTheory.
Local Open Scope ring_scope.

Section Complex.
Variables (P : eqType) (K : realDomainType) (A : algebra P K).
Variables (C : idomainType) (den : P -> {poly C}).
Hypothesis ok : algebra_contract A den.
Variable setiter : seq P -> seq P.
Hypothesis order : set_order setiter.
Implicit Types (D : diagram P [eqType of nat]).

Local Notation zero := (a_zero A).
Local Notation degree := (a_degree A).
Local Notation der := (a_derivative A).
Local Notation rem p q := (a_pseudo_div A p q).2.
Local Notation lcrow p := (a_times A (a_LC A p) (fac (degree p))).
Local Notation sz p := (size (den p)).

Section Sem.
Variables (F : closedFieldType) (ev : {rmorphism C -> F}).
Hypothesis char0 : [char F] =i pred0.
Let E p : {poly F} := map_poly ev (den p).
Let lc p : F := ev (lead_coef (den p)).

Lemma cE_zero : E zero = 0.
Proof. by rewrite /E (den_zero ok) rmorph0. Qed.

Lemma cE_tail p : lc p = 0 -> E (a_tail A p) = E p.
Proof. by move=> h; rewrite /E (den_tail ok) rmorphB /= map_polyZ /= -/(lc p) h scale0r subr0. Qed.

Lemma cE_size p : lc p != 0 -> size (E p) = sz p.
Proof. exact: size_map_poly_id0. Qed.

Lemma cE_lead p : lc p != 0 -> lead_coef (E p) = lc p.
Proof. by move=> h; rewrite /E lead_coef_map_id0 ?rmorph0. Qed.

Lemma cE_der p : E (der p) = (E p)^`().
Proof. by rewrite /E (den_derivative ok) deriv_map. Qed.

Lemma natf_neq0 n : (0 < n)%N -> (n%:R : F) != 0.
Proof. by case: n => // n _; exact: nat_neq0. Qed.

Lemma cE_lcrow p : (E (lcrow p) == 0) = (lc p == 0).
Proof.
rewrite /E (den_times ok) rmorphMn /= (den_LC ok) map_polyC -polyCMn polyC_eq0 -mulr_natr mulf_eq0.
by rewrite (negbTE (natf_neq0 (fac_gt0 _))) orbF.
Qed.

Lemma cE_der_neq0 p : lc p != 0 -> (1 < sz p)%N -> E (der p) != 0.
Proof.
move=> l0 p1; apply/eqP => /(congr1 (fun Q : {poly F} => Q`_(sz p).-2)).
rewrite cE_der coef_deriv coef0; have -> : (sz p).-2.+1 = (size (E p)).-1 by rewrite cE_size //; lia.
rewrite -lead_coefE cE_lead // -mulr_natr => /eqP; rewrite mulf_eq0 (negbTE l0) /=.
by apply/negP/natf_neq0; rewrite cE_size //; lia.
Qed.

Definition gen (Q : {poly F}) : int := if Q == 0 then 0 else 1.

(** The table [D] with the points [xs] for its columns 1, 2, ... *)
Record csem D n (xs : seq F) : Prop := {
  cs_shape : cinv A D n;
  cs_size : n = (size xs).+1;
  cs_uniq : uniq xs;
  cs_gen : forall q, q \in rows D -> vd D q 0%N = gen (E q);
  cs_pt : forall q i, q \in rows D -> (i < size xs)%N -> vd D q i.+1 = nz (E q).[xs`_i];
  cs_roots : forall q x, q \in rows D -> E q != 0 -> (E q).[x] = 0 -> x \in xs
}.

Lemma nz_eq0 (v : F) : (nz v == 0) = (v == 0).
Proof. by rewrite /nz; case: (v == 0). Qed.
Lemma gen_eq0 Q : (gen Q == 0) = (Q == 0).
Proof. by rewrite /gen; case: (Q == 0). Qed.

Lemma fresh (xs : seq F) : exists x, x \notin xs.
Proof.
have : \prod_(x <- xs) ('X - x%:P) != 0 by rewrite monic_neq0 ?monic_prod_XsubC.
by case/closed_nonrootP => x; rewrite root_prod_XsubC; exists x.
Qed.

Lemma csem_table D n xs s : csem D n xs -> rows D =i s -> zero_table den ev s D.
Proof.
move=> cs rE; have inv := cs_shape cs; have nE := cs_size cs.
have fresh_col x : x \notin xs -> forall q, q \in s -> cell D q 0%N = Ok (nz (value den ev q x)).
  move=> nx q; rewrite -rE => hq; rewrite (cell_row inv hq) ?(cv_pos inv) // (cs_gen cs hq) /value -/(E q).
  congr Ok; rewrite /gen /nz; case: (eqVneq (E q) 0) => [->|q0]; first by rewrite horner0 eqxx.
  by case: eqP => // /(cs_roots cs hq q0) hx; move: nx; rewrite hx.
have pt_col i : (i < size xs)%N -> forall q, q \in s -> cell D q i.+1 = Ok (nz (value den ev q xs`_i)).
  by move=> hi q; rewrite -rE => hq; rewrite (cell_row inv hq) ?nE ?ltnS // (cs_pt cs hq).
exists (iota 0 n); split.
- by move=> q; rewrite -rE; exact: (cv_cols inv).
- case=> [|i]; rewrite mem_iota nE //=; first by have [x nx] := fresh xs; exists x; exact: fresh_col.
  by rewrite add0n ltnS => hi; exists xs`_i; exact: pt_col.
- move=> x; case: (boolP (x \in xs)) => [hx|nx]; last first.
    by exists 0%N; [rewrite mem_iota (cv_pos inv)|exact: fresh_col].
  exists (index x xs).+1; first by rewrite mem_iota nE /= add0n ltnS index_mem.
  by move=> q hq; rewrite pt_col ?index_mem // nth_index.
Qed.

Section One.
Variables (D : diagram P [eqType of nat]) (p : P) (n : nat) (xs : seq F).
Hypothesis rd : ready A den D p.
Hypothesis cs : csem D n xs.

Let inv := cs_shape cs.

Lemma isroot_pt i q : (i < size xs)%N -> q \in rows D ->
  isroot D 0%N i.+1 q = (E q != 0) && ((E q).[xs`_i] == 0).
Proof.
by move=> hi hq; rewrite /isroot (cs_pt cs) // (cs_gen cs) // nz_eq0 gen_eq0 andbC.
Qed.

Lemma first_root i z : (i < size xs)%N -> z \in rows D -> isroot D 0%N i.+1 z ->
  (forall q, q \in rows D -> isroot D 0%N i.+1 q -> (degree z <= degree q)%N) -> lc z != 0.
Proof.
move=> hi hz rz mn; apply/eqP => l0.
have ht : a_tail A z \in rows D by apply: (rd_tail rd); rewrite inE hz orbT.
move: (rz); rewrite isroot_pt // => /andP[z0 zy].
have zn : z != zero by apply: contraNneq z0 => ->; rewrite cE_zero.
have := mn _ ht; rewrite isroot_pt // cE_tail // z0 zy => /(_ isT).
have := sz_tail ok zn; rewrite !(den_degree ok).
have n1 : (1 < sz z)%N.
  rewrite ltnNge; apply/negP => /size1_polyC Ek.
  by move: l0 z0; rewrite /lc /E Ek lead_coefC map_polyC /= => ->; rewrite eqxx.
by move: n1; lia.
Qed.

Lemma valE i : (i < size xs)%N -> val A setiter D p i.+1 = nz (E p).[xs`_i].
Proof.
move=> hi; have hc : (0 < i.+1 < n)%N by rewrite (cs_size cs).
have [hz rz mn _] := zero_ofP order rd inv hc.
have hrem := zero_of_rem order rd inv hc.
rewrite /val; set z := zero_of _ _ _ _ _ in hz rz mn hrem *.
have lz := first_root hi hz rz mn.
move: (rz); rewrite isroot_pt // => /andP[z0 /eqP zy].
have dz : den z != 0 by apply: contraNneq z0; rewrite /E => ->; rewrite rmorph0.
rewrite (cs_pt cs) //; have [u Eu _] := den_pseudo_div ok dz (rd_le rd hz).
have <- : lc z ^+ (sz p - sz z).+1 * (E p).[xs`_i] = (E (rem p z)).[xs`_i].
  have /(congr1 (fun Q => Q.[xs`_i])) := congr1 (map_poly ev) Eu.
  by rewrite rmorphD rmorphM /= map_polyZ /= rmorphX hornerZ hornerD hornerM -/(E z) zy mulr0 add0r.
by rewrite /nz mulf_eq0 expf_eq0 (negbTE lz) andbF.
Qed.

Lemma mcountE i k r m : (i < size xs)%N -> r \in p :: rows D -> mult (E r) xs`_i m.+1 -> (m <= k)%N ->
  mcount A D i.+1 k r = m.
Proof.
move=> hi; elim: k r m => [|k IH] r m hr mu /=; first by rewrite leqn0 => /eqP.
have hd := rd_der rd hr; have := mult_deriv char0 mu; rewrite -cE_der => mu'.
rewrite (cs_pt cs) // nz_eq0; case: m mu mu' => [|m] mu mu' le; first by rewrite (mult0 mu').
by rewrite (multS mu') eqxx /= (IH _ m) // inE hd orbT.
Qed.

Lemma rcountE i rs : (i < size xs)%N -> lc p != 0 -> E p = fromroots (lc p) rs ->
  rcount A setiter D p i.+1 = count_mem xs`_i rs.
Proof.
move=> hi l0 Ep; have := mult_count rs xs`_i l0; rewrite -Ep /rcount valE // nz_eq0.
case Ec: (count_mem _ _) => [|m] mu; first by rewrite (negbTE (mult0 mu)).
rewrite (multS mu) eqxx (mcountE _ _ mu) ?mem_head //.
have := mult_size mu; rewrite cE_size // (den_degree ok); lia.
Qed.

Lemma newcolsE rs : lc p != 0 -> E p = fromroots (lc p) rs ->
  newcols A setiter D p n = size (outside xs rs).
Proof.
move=> l0 Ep; rewrite size_outside ?(cs_uniq cs) // /newcols (den_degree ok).
have -> : (sz p).-1 = size rs by rewrite -cE_size // Ep size_fromroots.
congr (_ - sumn _)%N; rewrite (cs_size cs) /=.
apply: (@eq_from_nth _ 0%N) => [|i]; rewrite !size_map size_iota // => hi.
by rewrite (nth_map 0%N) ?size_iota // (nth_map 0) // nth_iota // add1n (rcountE hi l0 Ep).
Qed.

Lemma complex_step_sem : exists D' n' xs',
  [/\ complex_step A setiter D p = Ok D', rows D' =i p :: rows D & csem D' n' xs'].
Proof.
have pn := rd_new rd; have hl := rd_lc rd (mem_head _ _); have ht := rd_tail rd (mem_head _ _).
have [D' [n' [St rE sh _]]] := complex_step_shape order rd inv.
have vlc : (vd D (lcrow p) 0%N == 0) = (lc p == 0) by rewrite (cs_gen cs) // gen_eq0 cE_lcrow.
have nq q : q \in rows D -> (q == p) = false by exact: (neq_row rd).
have n'E k : (forall c, c \in cols D' zero -> (c < k)%N) -> (forall c, (c < k)%N -> c \in cols D' zero) -> n' = k.
  move=> h1 h2; have zr : zero \in rows D' by case: (cv_zero sh).
  have memc c : (c \in cols D' zero) = (c < n')%N by rewrite (cv_cols sh zr) mem_iota.
  apply/eqP; rewrite eqn_leq; apply/andP; split; rewrite leqNgt; apply/negP => lt.
    by have := h1 k; rewrite memc lt ltnn => /(_ isT).
  by have := h2 n' lt; rewrite memc ltnn.
have zr : zero \in rows D by case: (cv_zero inv).
have zcol c : (c \in cols D zero) = (c < n)%N by rewrite (cv_cols inv zr) mem_iota.
case: (eqVneq (lc p) 0) => [l0|l0].
  have v0 : vd D (lcrow p) 0%N = 0 by apply/eqP; rewrite vlc l0.
  have [D2 [St2 h2 _]] := complex_step_copy setiter rd inv v0.
  move: St2; rewrite St => -[ED]; subst D2.
  have ep : n' = n.
    by apply: n'E => c; rewrite -zcol => /cols_cell[v Ev]; apply/cols_cell; exists v; rewrite -Ev h2 nq.
  subst n'; exists D', n, xs; split=> //.
  have vE q c : q \in p :: rows D -> vd D' q c = vd D (if q == p then a_tail A p else q) c.
    by move=> _; rewrite /vd h2; case: ifP.
  have EE q : q \in p :: rows D -> E q = E (if q == p then a_tail A p else q).
    by move=> _; case: eqP => [->|//]; rewrite cE_tail.
  have rw q : q \in p :: rows D -> (if q == p then a_tail A p else q) \in rows D.
    by rewrite inE; case: eqP.
  split=> //; [exact: cs_size cs|exact: cs_uniq cs| | |].
  - by move=> q; rewrite rE => hq; rewrite vE // EE // (cs_gen cs) // rw.
  - by move=> q i; rewrite rE => hq hi; rewrite vE // EE // (cs_pt cs) // rw.
  - by move=> q x; rewrite rE => hq; rewrite EE // => h3 h4; exact: cs_roots cs _ _ (rw q hq) h3 h4.
have v0 : vd D (lcrow p) 0%N != 0 by rewrite vlc.
have [D2 [St2 h2 _]] := complex_stepE order rd inv v0.
move: St2; rewrite St => -[ED]; subst D2.
have [rs Ep] := fromrootsP (E p); rewrite cE_lead // in Ep.
have nc := newcolsE l0 Ep; have nE := cs_size cs; rewrite nc nE in h2.
set ys := outside xs rs in nc h2.
have ep : n' = ((size xs).+1 + size ys)%N.
  apply: n'E => c.
    move/cols_cell => [v]; rewrite h2 inE zr orbT nq //; case: ifP => [/andP[]//|_].
    by move/cell_cols; rewrite zcol nE => h; apply: leq_trans h _; exact: leq_addr.
  move=> hc; apply/cols_cell; rewrite h2 inE zr orbT nq // hc andbT; case: leqP => h; last by eexists.
  by exists (vd D zero c); rewrite (cell_row inv) // nE.
have hder : der p \in rows D by apply: (rd_der rd); exact: mem_head.
have Ed := cE_der_neq0 l0 (rd_size rd).
have rs_root x : ((E p).[x] == 0) = (x \in rs) by rewrite {1}Ep fromroots_root.
have ys_mem x : (x \in ys) = (x \notin xs) && (x \in rs) by rewrite mem_filter.
exists D', n', (xs ++ ys); split=> //; split=> //.
- by rewrite size_cat ep.
- rewrite cat_uniq (cs_uniq cs) /=; apply/andP; split.
    by apply/hasPn => x; rewrite ys_mem => /andP[].
  apply: (uniq_outside char0 l0) => x; rewrite -Ep -cE_der; exact: (cs_roots cs).
- move=> q; rewrite rE => hq; rewrite /vd h2 hq /=; case: (eqVneq q p) hq => [-> _|ne].
    by rewrite /gen -size_poly_eq0 cE_size //; case: (sz p) (rd_size rd).
  by rewrite inE (negbTE ne) => hq; exact: (cs_gen cs).
- move=> q i; rewrite rE size_cat => hq hi; rewrite nth_cat /vd h2 hq.
  rewrite ltnS addSn ltnS hi andbT; case: (ltnP i (size xs)) => hx.
    case: (eqVneq q p) hq => [-> _|ne]; last by rewrite inE (negbTE ne) => hq; exact: (cs_pt cs).
    by rewrite /= ?ltnS ?hx; exact: valE.
  have : ys`_(i - size xs) \in ys by rewrite mem_nth // ltn_subLR.
  set y := ys`_ _; rewrite ys_mem => /andP[yx yr].
  case: (eqVneq q p) hq => [-> _|ne]; first by rewrite /nz rs_root yr.
  rewrite inE (negbTE ne) => hq; rewrite (cs_gen cs) // gen_eq0 /nz.
  case: (eqVneq (E q) 0) => [->|q0]; first by rewrite horner0 eqxx.
  by case: eqP => // /(cs_roots cs hq q0) h; move: yx; rewrite h.
- move=> q x; rewrite rE mem_cat => hq q0 qx.
  case: (eqVneq q p) hq => [Eq _|ne]; last by rewrite inE (negbTE ne) => hq; rewrite (cs_roots cs hq q0 qx).
  by rewrite ys_mem -rs_root -Eq qx eqxx andbT orbN.
Qed.
End One.
End Sem.

Section Seq.
Variable s : seq P.
Hypothesis cl : closed_seq A den s.
Hypothesis srt : by_degree A s.
Hypothesis us : uniq s.

Lemma cextend_shape D n done todo : nonconst_frag A s = done ++ todo ->
  rows D =i constant_frag A s ++ done -> cinv A D n ->
  exists D' n', [/\ complex_extend A setiter D todo = Ok D', rows D' =i s, cinv A D' n' &
    forall q, q \in rows D -> cell D' q 0%N = cell D q 0%N].
Proof.
elim: todo D n done => [|p todo IH] D n done Es rE inv.
  exists D, n; split=> // q; rewrite rE -(mem_frags ok s) Es cats0 //.
have rd := prefix_ready ok cl srt us Es rE; rewrite /complex_extend /=.
have [D' [n' [-> h1 h2 h3]]] := complex_step_shape order rd inv.
rewrite bind_ok -/(complex_extend A setiter D' todo).
have [|||D2 [n2 [h4 h5 h6 h7]]] := IH D' n' (rcons done p) => //.
- by rewrite cat_rcons.
- by move=> q; rewrite h1 inE rE !mem_cat mem_rcons inE orbCA.
by exists D2, n2; split=> // q hq; rewrite h7 ?h3 // h1 inE hq orbT.
Qed.

Variables (F : closedFieldType) (ev : {rmorphism C -> F}).
Hypothesis char0 : [char F] =i pred0.

Lemma cextend_sem D n xs done todo : nonconst_frag A s = done ++ todo ->
  rows D =i constant_frag A s ++ done -> csem ev D n xs ->
  exists D' n' xs', [/\ complex_extend A setiter D todo = Ok D', rows D' =i s & csem ev D' n' xs'].
Proof.
elim: todo D n xs done => [|p todo IH] D n xs done Es rE inv.
  exists D, n, xs; split=> // q; rewrite rE -(mem_frags ok s) Es cats0 //.
have rd := prefix_ready ok cl srt us Es rE; rewrite /complex_extend /=.
have [D' [n' [xs' [-> h1 h2]]]] := complex_step_sem char0 rd inv.
rewrite bind_ok; apply: (IH D' n' xs' (rcons done p)) => //; first by rewrite cat_rcons.
by move=> q; rewrite h1 inE rE !mem_cat mem_rcons inE orbCA.
Qed.
End Seq.
End Complex.
