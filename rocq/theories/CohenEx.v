(** Runs of the model of cohenhorm.py on polynomials in x with a parameter y. *)
From Coq Require Import ZArith String.
From mathcomp Require Import all_ssreflect all_algebra all_real_closed.
From mathcomp.zify Require Import ssrZ zify.
From Verif Require Import Py VtsInst MuchModel MuchSpec MuchSeq MuchReal MuchInst MuchFull MuchEx.
From Verif Require Import CohenModel CohenSpec CohenExp CohenSem.

Set Implicit Arguments.
Unset Strict Implicit.
Unset Printing Implicit Defensive.
Import GRing.Theory Num.Theory Order.TTheory.
Local Open Scope ring_scope.

(** *** Every parameter value is covered. *)
Lemma expand_context_cases (P : eqType) (K : realDomainType) (A : algebra P K) (C : idomainType)
    (den : P -> {poly C}) : algebra_contract A den -> scalars_exact A den -> forall con polies,
  exists N h es, (forall n, (N <= n)%N -> expand_context A n [:: [::]] con polies 0 = Ok (h, es)) /\
  forall (R : rcfType) (ev : {rmorphism C -> R}), sign_ok A den ev ->
    count (fun e => consistent den ev e.1.1) es = consistent den ev con /\
    forall e, List.In e es -> consistent den ev e.1.1 -> forall p, p \in polies ->
    exists q, [/\ dget (hget h e.2) p = Ok q, q \in e.1.2,
      map_poly ev (den q) = map_poly ev (den p) &
      q = a_zero A \/ ev (lead_coef (den q)) != 0].
Proof.
move=> ok scal con polies; pose N := (size polies + \max_(p <- polies) size (den p)).+1.
have [||||||h [es [E [hl eo ct]]]] := @expand_ok _ _ _ _ _ ok (fun=> Logic.True) _ N [:: [::]] con polies 0 => //.
- by rewrite /N ltnS leq_addr.
- move=> p hp; rewrite /N ltnS leq_add2l (big_rem p) //=; exact: leq_maxl.
exists N, h, es; split=> [n le|R ev sgn]; first exact: expand_mono le E.
split=> [|e he ce p hp]; first exact: (ct (Point sgn)).
have [q Eq [r hq]] := entry_pick (eo e he) hp; exists q; split=> //.
  by rewrite (reduces_E ok (v := Point sgn) ce r).
case: (reduces_end ok r) => [|d]; [by left|right].
exact: (determined_lc ok scal (v := Point sgn) ce d).
Qed.

(** *** Sorted sets. *)
Definition by_deg (p q : Pxy) : bool := deg algxy q < deg algxy p.
Definition deg_set (l : seq Pxy) : seq Pxy := sortedset by_deg l.
Definition deg_plus (l : seq Pxy) (p : Pxy) : seq Pxy := ss_add by_deg l p.

Lemma deg_set_contract : degree_sets algxy deg_set deg_plus.
Proof.
have srt s x : sorted (fun p q => deg algxy q <= deg algxy p) s ->
    sorted (fun p q => deg algxy q <= deg algxy p) (deg_plus s x).
  have tr : transitive (fun p q : Pxy => deg algxy q <= deg algxy p) by move=> a b c h1 h2; exact: le_trans h2 h1.
  rewrite /deg_plus /ss_add; case: ifP => // _ {}; elim: s => //= y s IH; case: ifP => [h|/negbT h] hs /=.
    by rewrite (ltW h).
  rewrite (path_sortedE tr); apply/andP; split; last exact: IH (path_sorted hs).
  apply/allP => z; rewrite mem_insert inE => /orP[/eqP->|zs]; first by rewrite leNgt.
  by move: hs; rewrite (path_sortedE tr) => /andP[/allP/(_ _ zs)].
split.
- move=> l; rewrite /deg_set /sortedset; have : uniq (@nil Pxy) by [].
  by elim: l [::] => //= x l IH a u; apply: IH; exact: uniq_add.
- by move=> l; exact: mem_sortedset.
- move=> l; rewrite /deg_set /sortedset; have : sorted (fun p q => deg algxy q <= deg algxy p) (@nil Pxy) by [].
  by elim: l [::] => //= x l IH a u; apply: IH; exact: srt.
- by move=> l p; exact: uniq_add.
- by move=> l p; exact: mem_add.
Qed.

Lemma idx_scalars : scalars_exact algxy idx.
Proof.
split; last by move=> p /size1_polyC E; apply: idx_inj; rewrite (den_LC idx_contract) E lead_coefC.
move=> p; rewrite /const -[a_has_variable _ _]/((1 < size (p : {poly Cy}))%N || (1 < size (cy p 0))%N).
move=> /size1_polyC E; rewrite negb_or -!leqNgt => /andP[_ /size1_polyC E'].
rewrite -[a_sign _ _]/(sgz (cy p 0)`_0); split; first by case: sgzP.
move=> /eqP; rewrite sgz_eq0 => /eqP s0; apply: idx_inj.
by rewrite (den_zero idx_contract) E -(cyE p 0) E' s0.
Qed.

(** *** Runs. *)
Definition showe (r : res (heap Pxy * seq (entry Pxy))) :=
  if r is Ok (h, es) then Some [seq ([seq (rd x.1, x.2) | x <- e.1.1], map rd e.1.2) | e : entry Pxy <- es]
  else None.
Definition run n l e g := ch_real_full algxy deg_set deg_plus id n l e g.
Definition showc (r : res (seq (seq Pxy * seq Pxy * seq Pxy))) :=
  if r is Ok d then Some [seq (map rd c.1.1, map rd c.1.2, map rd c.2) | c <- d] else None.

Lemma showc_ok r d : showc r = Some d -> exists2 dnf, r = Ok dnf &
  d = [seq (map rd c.1.1, map rd c.1.2, map rd c.2) | c <- dnf].
Proof. by case: r => [dnf|//] [<-]; exists dnf. Qed.

Local Open Scope Z_scope.
(** y x^2 + 1, y x, y x^2, x + 1, 0, 5, 2y and 4y^2. *)
Definition px_yx2 : Pxy := px [:: [:: 1]; [::]; [:: 0; 1]].
Definition px_yx : Pxy := px [:: [::]; [:: 0; 1]].
Definition px_yxx : Pxy := px [:: [::]; [::]; [:: 0; 1]].
Definition px_xp1 : Pxy := px [:: [:: 1]; [:: 1]].
Definition px_0 : Pxy := px [::].
Definition px_5 : Pxy := px [:: [:: 5]].
Definition px_2y : Pxy := px [:: [:: 0; 2]].
Definition px_4y2 : Pxy := px [:: [:: 0; 0; 4]].

(** y x^2 + 1 becomes 1 when y is zero. *)
Lemma yx2_run : showe (expand_context algxy 10 [:: [::]] [::] [:: px_yx2; px_x] 0) = Some
  [:: ([:: ([:: [:: 0; 1]], (-1)%R)], [:: [:: [::]; [:: 1]]; [:: [:: 1]; [::]; [:: 0; 1]]]);
      ([:: ([:: [:: 0; 1]], 0%R)], [:: [:: [::]; [:: 1]]; [:: [:: 1]]]);
      ([:: ([:: [:: 0; 1]], 1%R)], [:: [:: [::]; [:: 1]]; [:: [:: 1]; [::]; [:: 0; 1]]])].
Proof. by vm_compute. Qed.
Local Close Scope Z_scope.

(** *** A table of x and x + 1, from which x is dropped. *)
Definition r6 (k : nat) : rat := k%:R / 6%:R.
Definition row6 (a b c d e f g : int) : dict [eqType of rat] int :=
  [:: (0, a); (r6 1, b); (r6 2, c); (r6 3, d); (r6 4, e); (r6 5, f); (1, g)].
Definition tab_x : diagram Pxy [eqType of rat] :=
  [:: (px_x, row6 (-1) (-1) (-1) (-1) 0 1 1); (px_xp1, row6 (-1) (-1) 0 1 1 1 1)].

Lemma tab_rows : rows tab_x =i [:: px_x; px_xp1].
Proof. by []. Qed.

Section Tab.
Variables (R : rcfType) (y : R).

Lemma E_px l : map_poly (evy y) (idx (px l)) = Poly [seq horner_rec [seq zr R k | k <- c] y | c <- l].
Proof.
rewrite /idx /px mkxE map_Poly_id0 ?rmorph0 // -map_comp; congr Poly; apply: eq_map => c.
by rewrite /= /mky mkE /horner_eval map_Poly_id0 ?rmorph0 // horner_Poly.
Qed.

Lemma E_x : map_poly (evy y) (idx px_x) = 'X.
Proof.
rewrite E_px /= mul0r add0r; apply/polyP => i; rewrite !coef_cons coefX coefC.
by case: i => [|[|[|i]]].
Qed.

Lemma E_xp1 : map_poly (evy y) (idx px_xp1) = 'X + 1.
Proof.
rewrite E_px /= mul0r add0r; apply/polyP => i; rewrite !coef_cons coefD coefX coef1 coefC.
by case: i => [|[|[|i]]]; rewrite ?add0r ?addr0.
Qed.

Lemma tab_faithful : faithful idx (evy y) [:: px_x; px_xp1] tab_x.
Proof.
exists [:: -1; 0]; exists [:: r6 1; r6 3; r6 5], [:: r6 2; r6 4]; split.
- split=> //; first by rewrite /= ltrN10.
- have perm : [:: 0; r6 1; r6 2; r6 3; r6 4; r6 5; 1] =i [:: 0, 1 & [:: r6 1; r6 3; r6 5] ++ [:: r6 2; r6 4]].
    by apply: perm_mem; vm_compute.
  by move=> q; rewrite !inE => /orP[]/eqP-> c; rewrite -perm.
- move=> q; rewrite !inE => /orP[]/eqP->; rewrite ?E_x ?E_xp1 /sign_minf /sign_pinf.
    by rewrite lead_coefX size_polyX sgz1.
  by rewrite -[1]opprK -polyCN lead_coefXsubC size_XsubC sgz1.
- move=> q i; rewrite !inE /value => /orP[]/eqP->; rewrite ?E_x ?E_xp1; case: i => [|[|i]] // _;
    by rewrite ?hornerD ?hornerX ?hornerC /= ?addNr ?add0r ?sgzN ?sgz1 ?sgz0; vm_compute.
- move=> q i z; rewrite !inE /value => hq le [lo hi].
  case: i le lo hi => [|[|[|//]]] _ lo hi.
  + have h := hi 0%N isT isT; rewrite /= in h; have h0 : z < 0 by rewrite (lt_trans h) // ltrN10.
    have h1 : z + 1 < 0 by rewrite -ltr_subr_addr sub0r.
    by case/orP: hq => /eqP->; rewrite ?E_x ?E_xp1 ?hornerD ?hornerX ?hornerC ltr0_sgz.
  + have h := lo 0%N isT; have h0 := hi 1%N isT isT; rewrite /= in h h0.
    have h1 : 0 < z + 1 by rewrite -ltr_subl_addr sub0r.
    by case/orP: hq => /eqP->; rewrite ?E_x ?E_xp1 ?hornerD ?hornerX ?hornerC ?(ltr0_sgz h0) ?(gtr0_sgz h1).
  + have h0 := lo 1%N isT; rewrite /= in h0; have h1 : 0 < z + 1 by rewrite addr_gt0 ?ltr01.
    by case/orP: hq => /eqP->; rewrite ?E_x ?E_xp1 ?hornerD ?hornerX ?hornerC gtr0_sgz.
Qed.
End Tab.

(** *** Wrong results. *)
Lemma run_ok n l e g d : (if run n l e g is Ok d' then d' == d else false) -> run n l e g = Ok d.
Proof. by case: (run n l e g) => [d' /eqP->|]. Qed.

Lemma run_err n l e g s : (if run n l e g is Err (Exc s') then String.eqb s' s else false) = true ->
  run n l e g = Err (Exc s).
Proof. by case: (run n l e g) => [//|[]] // s' /String.eqb_eq->. Qed.

Section Wrong.
Variables (R : rcfType).
Notation sat y := (real_sat idx (evy (y : R))).
Notation holds y := (real_clause_holds idx (evy (y : R))).

Lemma cvalue_y (y : R) : cvalue idx (evy y) px_y = y.
Proof.
have : map_poly (evy y) (idx px_y) = _ := E_px y _; move=> /(congr1 (fun p : {poly R} => p`_0)).
by rewrite coef_map /cvalue /= => ->; rewrite coef_cons /= mul0r !add0r mul1r addr0.
Qed.

(** y x = 0 has solutions when y = 0. *)
Lemma lost_refuted : exists lesser equalities greater dnf,
  run 20 lesser equalities greater = Ok dnf /\
  (exists x, sat 0 lesser equalities greater x) /\ ~ (exists2 c, c \in dnf & holds 0 c).
Proof.
exists [::], [:: px_yx], [::], [:: ([:: px_y], [::], [::]); ([::], [::], [:: px_y])].
split; first by apply: run_ok; vm_compute.
split; first by exists 0; split=> // p; rewrite inE => /eqP->; rewrite value_px /= !(mul0r, mulr0, add0r, addr0).
case=> c; rewrite !inE => /orP[]/eqP-> [h1 _ h2].
  by have := h1 px_y (mem_head _ _); rewrite cvalue_y ltxx.
by have := h2 px_y (mem_head _ _); rewrite cvalue_y ltxx.
Qed.

(** x < 0, y x^2 + 1 = 0 and y = 0 has none. *)
Lemma invented_refuted : exists lesser equalities greater dnf,
  [/\ run 20 lesser equalities greater = Ok dnf, forall y x : R, ~ sat y lesser equalities greater x &
      exists2 c, c \in dnf & holds 0 c].
Proof.
exists [:: px_x], [:: px_yx2; px_y], [::], [:: ([:: px_2y; px_4y2], [:: px_y], [::]);
  ([:: px_2y], [:: px_y], [:: px_4y2]); ([::], [:: px_y; px_2y], [::]);
  ([:: px_4y2], [:: px_y], [:: px_2y]); ([::], [:: px_y], [:: px_2y; px_4y2])].
split; first by apply: run_ok; vm_compute.
  move=> y x [_ h _]; have := h px_y; rewrite !inE eqxx orbT => /(_ isT).
  rewrite value_px /= !(mul0r, mulr0, add0r, addr0) mul1r => y0.
  by have := h px_yx2 (mem_head _ _); rewrite value_px y0 /= !(mul0r, mulr0, add0r, addr0) => /eqP; rewrite oner_eq0.
exists ([::], [:: px_y; px_2y], [::]); first by rewrite !inE eqxx !orbT.
split=> // p; rewrite !inE => /orP[]/eqP->; first by rewrite cvalue_y.
have : map_poly (evy (0 : R)) (idx px_2y) = _ := E_px 0 _; move=> /(congr1 (fun p : {poly R} => p`_0)).
by rewrite coef_map /cvalue /= => ->; rewrite coef_cons /= mulr0 addr0.
Qed.

(** The empty problem, and 0 = 0, 5 > 0. *)
Lemma empty_refuted (y : R) : run 20 [::] [::] [::] = Ok [::] /\ exists x, sat y [::] [::] [::] x.
Proof. by split=> //; exists 0. Qed.

Lemma zero_refuted (y : R) : run 20 [::] [:: px_0] [:: px_5] = Ok [::] /\ exists x, sat y [::] [:: px_0] [:: px_5] x.
Proof.
split; first by apply: run_ok; vm_compute.
exists 0; split=> // p; rewrite inE => /eqP->; rewrite value_px //= !(mul0r, mulr0, add0r, addr0).
by rewrite ltr0z.
Qed.

(** y x^2 = 0 raises. *)
Lemma raise_refuted (y : R) : run 20 [::] [:: px_yxx] [::] = Err (Exc "no key") /\ exists x, sat y [::] [:: px_yxx] [::] x.
Proof.
split; last by exists 0; split=> // p; rewrite inE => /eqP->; rewrite value_px /= !(mul0r, mulr0, add0r, addr0).
apply: run_err; vm_compute; reflexivity.
Qed.
End Wrong.
