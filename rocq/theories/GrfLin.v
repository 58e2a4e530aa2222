(** The sample points of several variables, when the polynomials of every level
    are linear in the variable of the level. *)
From mathcomp Require Import all_ssreflect all_algebra.
From mathcomp.zify Require Import zify.
From mathcomp.real_closed Require Import polyrcf.
From Coq Require Import String Permutation.
From Verif Require Import Py GrfModel GrfCad GrfSpec GrfFacts GrfCheck GrfLoop GrfRun GrfLine GrfCadFacts.

Set Implicit Arguments.
Unset Strict Implicit.
Unset Printing Implicit Defensive.
Import GRing.Theory Num.Theory Order.Theory.
Local Open Scope ring_scope.

(** ** Specification *)
Section LinSpec.
Variables (R : realDomainType) (L : lib R) (K : rcfType) (inj : R -> K).
Variables (val : P L -> (var -> K) -> K) (uval : U L -> {poly K}).
Local Notation asg := (dict [eqType of var] R).
Implicit Types (p q : P L) (x v : var) (e : var -> K) (d : asg).

(** What is assumed of coefficients, resultants, discriminants, substitution
    and roots. *)
Record lin_ok : Prop := LinOk {
  lin_coef : forall p x e, val p e = \sum_(k < (degree p x).+1) val (coefficient p x k) e * e x ^+ k;
  lin_coef_vars : forall p x k v, v \in variables (coefficient p x k) -> v \in variables p /\ v != x;
  lin_lead : forall p x, let c := coefficient p x (degree p x) in (0 < degree p x)%N ->
    is_constant c || (c == lt_term c) -> exists e, val c e != 0;
  lin_res : forall p q x, degree p x = 1%N -> degree q x = 1%N -> exists2 c : K, c \in [:: 1; -1] &
    forall e, val (resultant p q x) e =
      c * (val (coefficient p x 1) e * val (coefficient q x 0) e - val (coefficient p x 0) e * val (coefficient q x 1) e);
  lin_res_vars : forall p q x v, v \in variables (resultant p q x) ->
    ((v \in variables p) || (v \in variables q)) /\ v != x;
  lin_disc_vars : forall p x v, v \in variables (discriminant p x) -> v \in variables p /\ v != x;
  lin_subst : forall p d e, agrees inj d e -> val (substitute p d) e = val p e;
  lin_subst_vars : forall p d v, v \in variables (substitute p d) -> v \in variables p /\ ~~ dmem d v;
  lin_subst_degree : forall p d v, ~~ dmem d v -> (degree (substitute p d) v <= degree p v)%N;
  lin_gen_degree : forall v, degree (gen L v) v = 1%N;
  lin_gen_nonconst : forall v, ~~ is_constant (gen L v);
  (* p.roots() finds the root of a linear polynomial *)
  lin_roots : forall q v u, ~~ is_constant q -> all (pred1 v) (variables q) -> (degree q v <= 1)%N ->
    univariate q = Ok u -> rational_roots inj uval u;
  (* no interval without a root *)
  lin_intervals : forall us, (forall u z, List.In u us -> ~~ root (uval u) z) -> root_intervals us = [::]
}.

(** The projection sets of a list of polynomials in [n] variables: those above
    the bottom are linear in the variable of their level; those above the next
    to the bottom have a constant leading coefficient, too; those at the bottom
    have rational roots only. *)
Definition level (ord : seq var) (sets : seq (seq (P L))) (l : nat) : Prop :=
  forall p, p \in nth [::] sets l -> (degree p (nth 0%N ord l) <= 1)%N /\
    ((1 < l)%N -> degree p (nth 0%N ord l) = 1%N -> is_constant (coefficient p (nth 0%N ord l) 1)).
Definition bottom (sets : seq (seq (P L))) : Prop :=
  forall p u, p \in nth [::] sets 0 -> univariate p = Ok u -> rational_roots inj uval u.
Definition solvable (n : nat) (top : seq (P L)) : Prop :=
  let ord := compute_proj_ord (filter_proj_set top) (iota 0 n) in
  forall sets, proj_levels ord n.-1 (filter_proj_set top) = Ok sets ->
    bottom sets /\ forall l, (0 < l < n)%N -> level ord sets l.

(** A class of polynomials in [n] variables that contains those of a run. *)
Variable C : pred (P L).
Record solvable_class (n : nat) : Prop := SolvableClass {
  sclass_vars : forall p, C p -> all (fun v => (v < n)%N) (variables p);
  sclass_gen : forall p v, C p -> v \in variables p -> C (gen L v);
  sclass_solvable : forall top, all C top -> solvable n top
}.

(** ** Linear arithmetic *)

(** What is assumed of degrees. *)
Record degree_ok : Prop := DegreeOk {
  td_degree : forall p x, (degree p x <= total_degree p)%N;
  td_coef : forall p x, (total_degree p <= 1)%N -> (total_degree (coefficient p x (degree p x)) <= 1)%N;
  td_lead : forall p x, (total_degree p <= 1)%N -> degree p x = 1%N -> is_constant (coefficient p x 1);
  td_res : forall p q x, (total_degree p <= 1)%N -> (total_degree q <= 1)%N -> (total_degree (resultant p q x) <= 1)%N;
  td_disc : forall p x, (total_degree p <= 1)%N -> (total_degree (discriminant p x) <= 1)%N;
  td_gen : forall v, (total_degree (gen L v) <= 1)%N
}.
(** Linear polynomials in [n] variables. *)
Definition linear (n : nat) (p : P L) : bool :=
  (total_degree p <= 1)%N && all (fun v => (v < n)%N) (variables p).
End LinSpec.

(** ** Linear functions with the same signs of the coefficients *)
Section Transfer.
Variable K : realFieldType.
Implicit Types (x y t : K) (s : seq K).

Lemma between (lo up : seq K) : (forall x y, x \in lo -> y \in up -> x < y) ->
  exists t, (forall x, x \in lo -> x < t) /\ (forall y, y \in up -> t < y).
Proof.
have top : forall s : seq K, s <> [::] -> exists2 m, m \in s & forall x, x \in s -> x <= m.
  elim=> // x s IH _; case: (eqVneq s [::]) => [->|/eqP/IH[m ms H]].
    by exists x; rewrite ?mem_head // => y; rewrite inE => /eqP ->.
  case: (leP m x) => [mx|/ltW xm].
    by exists x; rewrite ?mem_head // => y; rewrite inE => /predU1P[->//|/H/le_trans]; apply.
  by exists m; rewrite ?inE ?ms ?orbT // => y; rewrite inE => /predU1P[->//|/H].
have bot : forall s : seq K, s <> [::] -> exists2 m, m \in s & forall x, x \in s -> m <= x.
  elim=> // x s IH _; case: (eqVneq s [::]) => [->|/eqP/IH[m ms H]].
    by exists x; rewrite ?mem_head // => y; rewrite inE => /eqP ->.
  case: (leP x m) => [mx|/ltW xm].
    by exists x; rewrite ?mem_head // => y; rewrite inE => /predU1P[->//|/H]; exact: le_trans.
  by exists m; rewrite ?inE ?ms ?orbT // => y; rewrite inE => /predU1P[->//|/H].
move=> H; case: (eqVneq lo [::]) => [E|/eqP/top[a al Ha]].
  case: (eqVneq up [::]) => [E'|/eqP/bot[b bu Hb]]; first by exists 0; rewrite E E'.
  by exists (b - 1); rewrite E; split=> // y /Hb; apply: lt_le_trans; rewrite gtr_addl oppr_lt0 ltr01.
case: (eqVneq up [::]) => [E'|/eqP/bot[b bu Hb]].
  by exists (a + 1); rewrite E'; split=> // y /Ha h; apply: (le_lt_trans h); rewrite ltr_addl ltr01.
have ab := H _ _ al bu; have [h1 h2] := (midf_lt ab); exists ((a + b) / 2%:R).
by split=> x; [move/Ha/le_lt_trans; apply|move/Hb; exact: lt_le_trans].
Qed.

Record two_lines := Lines { l_a : K; l_b : K; r_a : K; r_b : K }.
Implicit Types f g : two_lines.
Definition same_det f g : Prop :=
  Num.sg (l_a f * l_b g - l_b f * l_a g) = Num.sg (r_a f * r_b g - r_b f * r_a g).

Lemma sg_line (a b x : K) : a != 0 -> Num.sg (a * x + b) = Num.sg a * Num.sg (x - (- b / a)).
Proof. by move=> a0; rewrite -sgrM mulrBr mulrCA divff // mulr1 opprK. Qed.

Lemma sg_roots (a b c d : K) : a != 0 -> c != 0 ->
  Num.sg (- b / a - (- d / c)) = Num.sg a * Num.sg c * Num.sg (a * d - b * c).
Proof.
move=> a0 c0; have -> : - b / a - (- d / c) = (a * d - b * c) / (a * c).
  have ac := mulf_neq0 a0 c0; apply: (mulIf ac); rewrite divfK // !mulNr opprK mulrDl.
  rewrite mulNr [b / a * _]mulrA divfK // [a * c]mulrC [d / c * _]mulrA divfK // addrC.
  by rewrite [d * a]mulrC.
by rewrite sgrM sgrV sgrM mulrC.
Qed.

(** Any position [y] relative to the lines on the right is one [t] relative to
    the lines on the left. *)
Lemma lin_transfer (T : eqType) (F : T -> two_lines) (l : seq T) y :
  (forall i, i \in l -> Num.sg (l_a (F i)) = Num.sg (r_a (F i))) ->
  (forall i, i \in l -> r_a (F i) = 0 -> Num.sg (l_b (F i)) = Num.sg (r_b (F i))) ->
  (forall i j, i \in l -> j \in l -> r_a (F i) != 0 -> r_a (F j) != 0 -> same_det (F i) (F j)) ->
  exists t, forall i, i \in l -> Num.sg (l_a (F i) * t + l_b (F i)) = Num.sg (r_a (F i) * y + r_b (F i)).
Proof.
move=> Ha Hb Hd; pose lr f := - l_b f / l_a f; pose rr f := - r_b f / r_a f.
have l0 i : i \in l -> (l_a (F i) == 0) = (r_a (F i) == 0) by move=> /Ha E; rewrite -sgr_eq0 E sgr_eq0.
have ord i j : i \in l -> j \in l -> r_a (F i) != 0 -> r_a (F j) != 0 ->
    Num.sg (lr (F i) - lr (F j)) = Num.sg (rr (F i) - rr (F j)).
  move=> il jl i0 j0; rewrite !sg_roots ?l0 // (Ha i il) (Ha j jl); congr (_ * _).
  exact: Hd.
pose m := [seq i <- l | r_a (F i) != 0].
suff [t Ht] : exists t, forall i, i \in m -> Num.sg (t - lr (F i)) = Num.sg (y - rr (F i)).
  exists t => i il; case: (eqVneq (r_a (F i)) 0) => [z|nz].
    have /eqP z' : l_a (F i) == 0 by rewrite l0 // z.
    by rewrite z z' !mul0r !add0r; exact: Hb.
  by rewrite !sg_line ?l0 // Ht ?mem_filter ?nz // Ha.
have mem i : i \in m -> i \in l /\ r_a (F i) != 0 by rewrite mem_filter => /andP[].
case: (boolP (has (fun i => y == rr (F i)) m)) => [/hasP[k /mem[kl k0] /eqP ->]|/hasPn no].
  by exists (lr (F k)) => i /mem[il i0]; exact: ord.
pose lo := [seq lr (F i) | i <- m & rr (F i) < y]; pose up := [seq lr (F i) | i <- m & y < rr (F i)].
have [|t [tl tu]] := @between lo up.
  move=> u v /mapP[i]; rewrite mem_filter => /andP[iy /mem[il i0]] -> /mapP[j].
  rewrite mem_filter => /andP[jy /mem[jl j0]] ->; have := ord i j il jl i0 j0.
  by move=> E; rewrite -subr_lt0 -sgr_lt0 E sgr_lt0 subr_lt0 (lt_trans iy jy).
exists t => i im; have := no i im; rewrite neq_lt => /orP[lt|gt].
  have : t < lr (F i) by apply: tu; apply/mapP; exists i => //; rewrite mem_filter lt im.
  by rewrite -subr_lt0 => /ltr0_sg ->; rewrite ltr0_sg // subr_lt0.
have : lr (F i) < t by apply: tl; apply/mapP; exists i => //; rewrite mem_filter gt im.
by rewrite -subr_gt0 => /gtr0_sg ->; rewrite gtr0_sg // subr_gt0.
Qed.
End Transfer.

Section Lift.
Variables (R : realDomainType) (L : lib R) (O : oracle L).
Local Notation poly := (P L).
Local Notation asg := (dict [eqType of var] R).
Variables (K : rcfType) (inj : R -> K) (val : poly -> (var -> K) -> K) (uval : U L -> {poly K}).
Hypotheses (LB : lib_ok inj val) (LC : cad_ok val uval) (LL : line_ok O inj uval) (LN : lin_ok inj val uval).
Implicit Types (p q : poly) (x v : var) (e a : var -> K) (d : asg).

(** ** The projection sets *)
Lemma pygetE (T : Type) (x0 x : T) (l : seq T) i : pyget l i = Ok x -> (i < size l)%N /\ nth x0 l i = x.
Proof. by rewrite /pyget; elim: l i => [|y l IH] [|i] //= E; [case: E|exact: IH]. Qed.
Lemma pyget_nth (T : Type) (x0 : T) (l : seq T) i : (i < size l)%N -> pyget l i = Ok (nth x0 l i).
Proof. by rewrite /pyget; elim: l i => [|y l IH] [|i] //= E; exact: IH. Qed.

Lemma projP (ord : seq var) i (ps : seq poly) sets : proj_levels ord i ps = Ok sets ->
  [/\ size sets = i.+1, nth [::] sets i = ps &
    forall l, (l < i)%N -> nth [::] sets l = bm_proj (nth 0%N ord l.+1) (nth [::] sets l.+1)].
Proof.
elim: i ps sets => [|i IH] ps sets /=; first by case=> <-.
move=> H; case: (bind_inv H) => x Ex {H} H; case: (bind_inv H) => l0 El {H} [<-].
have [S0 Nl Hl] := IH _ _ El; rewrite size_rcons S0; split=> //.
  by rewrite nth_rcons S0 ltnn eqxx.
have [_ xE] := pygetE 0%N Ex.
move=> l; rewrite ltnS leq_eqVlt => /predU1P[->|lt].
  by rewrite !nth_rcons S0 ltnSn ltnn eqxx Nl xE.
by rewrite !nth_rcons S0 ltnS (ltnW lt) ltnS lt; exact: Hl.
Qed.

Lemma pure_vars p v : v \in variables (pure_poly_base p) -> v \in variables p.
Proof.
rewrite /pure_poly_base; case: eqP => // _; case Ev : (variables p) => [|v1 [|v2 vs]]; rewrite ?Ev //.
by rewrite (variables_gen LC).
Qed.
Lemma filter_vars (ps : seq poly) q v : q \in filter_proj_set ps -> v \in variables q ->
  exists2 p, p \in ps & v \in variables p.
Proof.
rewrite mem_undup => /mapP[p]; rewrite mem_filter => /andP[_ pps] -> /pure_vars vp; by exists p.
Qed.
Lemma filter_nonconst (ps : seq poly) q : q \in filter_proj_set ps -> ~~ is_constant q.
Proof.
rewrite mem_undup => /mapP[p]; rewrite mem_filter => /andP[nc _] ->.
by rewrite /pure_poly_base; case: eqP => // _; case: (variables p) => [|v [|v' vs]] //; exact: lin_gen_nonconst LN _.
Qed.

(** What the projection is made of. *)
Definition raw_proj x (ps0 : seq poly) : seq poly :=
  let ps := undup ps0 in
  undup ((if (1 < size ps)%N then flatten [seq [seq resultant p1 p2 x | p2 <- ps & p1 != p2] | p1 <- ps] else [::])
    ++ [seq discriminant p x | p <- ps] ++ [seq coefficient p x (degree p x) | p <- ps]).
Lemma bm_projE x ps : bm_proj x ps = filter_proj_set (raw_proj x ps).
Proof. by []. Qed.

Lemma raw_lead x (ps : seq poly) p : p \in ps -> coefficient p x (degree p x) \in raw_proj x ps.
Proof. by move=> pI; rewrite mem_undup !mem_cat (map_f (fun p => _ p x _)) ?orbT // mem_undup. Qed.
Lemma raw_res x (ps : seq poly) p q : p \in ps -> q \in ps -> p != q -> resultant p q x \in raw_proj x ps.
Proof.
move=> pI qI pq; rewrite mem_undup mem_cat.
have -> : (1 < size (undup ps))%N.
  have : p \in undup ps by rewrite mem_undup.
  have : q \in undup ps by rewrite mem_undup.
  case: (undup ps) => [|y [|z l]] //; rewrite !mem_seq1 => /eqP Eq /eqP E.
  by rewrite E Eq eqxx in pq.
apply/orP; left; apply/flatten_mapP; exists p; rewrite ?mem_undup //.
by apply: (map_f (fun q => resultant p q x)); rewrite mem_filter pq mem_undup.
Qed.
Lemma raw_vars x (ps : seq poly) q v : q \in raw_proj x ps -> v \in variables q ->
  v != x /\ exists2 p, p \in ps & v \in variables p.
Proof.
rewrite mem_undup !mem_cat => /or3P[].
- case: ifP => // _ /flatten_mapP[p1]; rewrite mem_undup => p1I /mapP[p2]; rewrite mem_filter mem_undup => /andP[_ p2I] ->.
  by case/(lin_res_vars LN) => /orP[] vI vx; split=> //; [exists p1|exists p2].
- by move=> /mapP[p]; rewrite mem_undup => pI -> /(lin_disc_vars LN)[vp vx]; split=> //; exists p.
- by move=> /mapP[p]; rewrite mem_undup => pI -> /(lin_coef_vars LN)[vp vx]; split=> //; exists p.
Qed.

(** ** One level up *)
Definition upd e x (t : K) : var -> K := fun v => if v == x then t else e v.

Lemma val_upd p e x t : x \notin variables p -> val p (upd e x t) = val p e.
Proof. by move=> xp; apply: (val_vars LB) => v vp; rewrite /upd; case: eqP => // E; rewrite -E vp in xp. Qed.

Local Notation A p x := (coefficient p x 1).
Local Notation B p x := (coefficient p x 0).
Lemma coef_upd p e x t k : val (coefficient p x k) (upd e x t) = val (coefficient p x k) e.
Proof. by apply: val_upd; apply/negP => /(lin_coef_vars LN)[_]; rewrite eqxx. Qed.

Lemma val_deg0 p x e : degree p x = 0%N -> val p e = val (B p x) e.
Proof. by move=> D; rewrite (lin_coef LN p x e) D big_ord_recl big_ord0 /= expr0 mulr1 addr0. Qed.
Lemma val_deg1 p x e : degree p x = 1%N -> val p e = val (A p x) e * e x + val (B p x) e.
Proof.
by move=> D; rewrite (lin_coef LN p x e) D !big_ord_recl big_ord0 /= expr0 mulr1 addr0 expr1 addrC.
Qed.

(** The signs of a set are those at the point [a]. *)
Definition tracks a (ps : seq poly) e : Prop := forall p, p \in ps -> Num.sg (val p e) = Num.sg (val p a).
(** Where the leading coefficient of a polynomial vanishes the other one has the
    sign at [a]. *)
Definition tracks_rest a x (ps : seq poly) e : Prop :=
  forall p, p \in ps -> degree p x = 1%N -> val (A p x) a = 0 -> Num.sg (val (B p x) e) = Num.sg (val (B p x) a).

Lemma raise a e x (ps : seq poly) : (forall p, p \in ps -> (degree p x <= 1)%N) ->
  tracks a (bm_proj x ps) e -> tracks_rest a x ps e -> exists t, tracks a ps (upd e x t).
Proof.
move=> D T Tr; have S q : q \in raw_proj x ps -> Num.sg (val q e) = Num.sg (val q a).
  exact: (@filter_signs _ _ _ _ _ LC).
pose F p := if degree p x == 1%N then Lines (val (A p x) e) (val (B p x) e) (val (A p x) a) (val (B p x) a)
            else Lines 0 (val (B p x) e) 0 (val (B p x) a).
have deg p : p \in ps -> degree p x = 0%N \/ degree p x = 1%N.
  by move/D; case: (degree p x) => [|[|k]]; auto.
have [p pI|p pI|p q pI qI|t Ht] := @lin_transfer _ _ F ps (a x).
- rewrite /F; case: eqP => [E|//] /=; have := S _ (raw_lead x pI); by rewrite E.
- rewrite /F; case: eqP => [E|ne] /=; first exact: Tr.
  by case: (deg p pI) => // E _; have := S _ (raw_lead x pI); rewrite E.
- rewrite /F; case: ifP => [/eqP Ep|_]; last by rewrite /= eqxx.
  case: ifP => [/eqP Eq|_]; last by rewrite /= eqxx.
  move=> _ _; rewrite /same_det /=; case: (eqVneq p q) => [->|pq].
    by rewrite [val (B q x) e * _]mulrC [val (B q x) a * _]mulrC !subrr.
  have [c cI Ec] := lin_res LN Ep Eq; have := S _ (raw_res x pI qI pq); rewrite !Ec !sgrM.
  have c0 : Num.sg c != 0 by rewrite sgr_eq0; move: cI; rewrite !inE => /orP[]/eqP ->; rewrite ?oppr_eq0 oner_eq0.
  exact: (mulfI c0).
exists t => p pI; have := Ht p pI; rewrite /F; case: (deg p pI) => E; rewrite E /=.
  by rewrite !mul0r !add0r !(val_deg0 _ E) coef_upd.
by rewrite !(val_deg1 _ E) !coef_upd /upd eqxx.
Qed.

(** ** The levels of a sample *)
Section Levels.
Variables (n : nat) (top : seq poly) (sets : seq (seq poly)).
Let top' := filter_proj_set top.
Let ord := compute_proj_ord top' (iota 0 n).
Local Notation S l := (nth [::] sets l).
Local Notation x l := (nth 0%N ord l).
Hypothesis n0 : (0 < n)%N.
Hypothesis Ep : proj_levels ord n.-1 top' = Ok sets.
Hypothesis Vt : forall p, p \in top -> all (fun v => (v < n)%N) (variables p).
Hypothesis Sb : bottom inj uval sets.
Hypothesis Sl : forall l, (0 < l < n)%N -> level ord sets l.

Lemma ord_size : size ord = n.
Proof. by rewrite (perm_size (proj_ord_perm _ _)) size_iota. Qed.
Lemma ord_uniq : uniq ord.
Proof. by rewrite (perm_uniq (proj_ord_perm _ _)) iota_uniq. Qed.
Lemma ord_mem v : (v \in ord) = (v < n)%N.
Proof. by rewrite (perm_mem (proj_ord_perm _ _)) mem_iota. Qed.

Lemma set_top : S n.-1 = top'.
Proof. by have [_ ->] := projP Ep. Qed.
Lemma set_next l : (l.+1 < n)%N -> S l = bm_proj (x l.+1) (S l.+1).
Proof. by have [_ _ H] := projP Ep => lt; apply: H; lia. Qed.

Lemma next_fresh l : (l.+1 < n)%N -> x l.+1 \notin take l.+1 ord.
Proof.
move=> lt; apply/negP => /(nthP 0%N)[i]; rewrite size_takel ?ord_size ?(ltnW lt) // => il.
rewrite nth_take // => /eqP; rewrite nth_uniq ?ord_size ?ord_uniq //; first by rewrite ltn_eqF.
exact: ltn_trans lt.
Qed.
Lemma next_mem l v : (l.+1 < n)%N -> (v \in take l.+2 ord) = (v == x l.+1) || (v \in take l.+1 ord).
Proof. by move=> lt; rewrite (take_nth 0%N) ?ord_size // mem_rcons inE. Qed.

Lemma set_vars l p v : (l < n)%N -> p \in S l -> v \in variables p -> v \in take l.+1 ord.
Proof.
move: {2}(n.-1 - l)%N (erefl (n.-1 - l)%N) => k.
elim: k l p v => [|k IH] l p v E ln.
  have -> : l = n.-1 by lia.
  rewrite set_top prednK // -ord_size take_size => /filter_vars H /H[q /Vt/allP Vq /Vq].
  by rewrite ord_mem.
have ln1 : (l.+1 < n)%N by lia.
rewrite set_next // bm_projE => /filter_vars H /H[q qI /(raw_vars qI)[vx [p' p'I vp']]].
have := IH l.+1 p' v ltac:(lia) ln1 p'I vp'; by rewrite next_mem // (negbTE vx).
Qed.

(** Signs of a level depend on its variables. *)
Lemma tracks_ext a l e e' : (l < n)%N -> (forall v, v \in take l.+1 ord -> e v = e' v) ->
  tracks a (S l) e -> tracks a (S l) e'.
Proof.
by move=> ln E T p pI; rewrite -(T p pI); congr Num.sg; apply: (val_vars LB) => v vp; rewrite E // (set_vars ln pI).
Qed.

(** At the bottom the coefficients matter, too. *)
Definition good a l e : Prop :=
  tracks a (S l) e /\ (l = 0%N -> (1 < n)%N -> tracks_rest a (x 1) (S 1) e).

Lemma upd_same e v t w : w != v -> upd e v t w = e w.
Proof. by rewrite /upd => /negbTE ->. Qed.

Lemma lead_rest a l e : (1 < l < n)%N -> tracks_rest a (x l) (S l) e.
Proof.
move=> /andP[l1 ln] p pI D z; have [|_ H] := @Sl l _ p pI; first by lia.
have c := H l1 D; have := @lin_lead _ _ _ _ _ _ LN p (x l); rewrite /= D c => /(_ isT isT)[e' /eqP[]].
by rewrite (val_const LC e' a c).
Qed.

Lemma climb1 a l e : (l.+1 < n)%N -> good a l e -> exists t, good a l.+1 (upd e (x l.+1) t).
Proof.
move=> ln [T Tr]; have [|||t Ht] := @raise a e (x l.+1) (S l.+1).
- by move=> p /(Sl _)[|//]; lia.
- by rewrite -set_next.
- case: l ln T Tr => [|l] ln T Tr; first exact: Tr.
  exact: lead_rest.
by exists t.
Qed.

Lemma climb a l e : (l < n)%N -> good a l e ->
  exists2 e', good a n.-1 e' & forall v, v \in take l.+1 ord -> e' v = e v.
Proof.
move: {2}(n.-1 - l)%N (erefl (n.-1 - l)%N) => k; elim: k l e => [|k IH] l e E ln G.
  by have El : l = n.-1 by [lia]; rewrite -El; exists e.
have ln1 : (l.+1 < n)%N by lia.
have [t Gt] := climb1 ln1 G; have [|e' Ge' He'] := IH l.+1 _ _ ln1 Gt; first by lia.
exists e' => // v vl; rewrite He' ?next_mem ?vl ?orbT // upd_same //.
by apply: contraNneq (next_fresh ln1) => <-.
Qed.

(** ** Fibres *)
Lemma rational_iso us : (forall u, List.In u us -> rational_roots inj uval u) ->
  isolated inj uval (no_rational us).
Proof.
move=> Ra; have no u z : List.In u (no_rational us) -> ~~ root (uval u) z.
  by move=> Fu; have [Iu] := In_filterP Fu; case Er : (roots u) => // _; apply/negP => /(Ra u Iu)[b [m []]]; rewrite Er.
have E := lin_intervals LN no; split.
- by move=> i m; rewrite E.
- by move=> i m z z'; rewrite E.
- by move=> z [u /(no u z)/negbTE ->].
Qed.

Lemma mapM_In (ps : seq poly) us u : mapM (@univariate R L) ps = Ok us -> List.In u us ->
  exists2 q, q \in ps & univariate q = Ok u.
Proof.
elim: ps us => [|q l IHl] us /=; first by case=> <-.
move=> H; case: (bind_inv H) => u' Eu' {H} H; case: (bind_inv H) => us' Eus {H} [<-] [<-|Iu].
  by exists q; rewrite ?mem_head.
by have [q' qI Eq'] := IHl _ Eus Iu; exists q' => //; rewrite inE qI orbT.
Qed.
Lemma mapM_mem (ps : seq poly) us q : mapM (@univariate R L) ps = Ok us -> q \in ps ->
  exists2 u, List.In u us & univariate q = Ok u.
Proof.
move=> + qI; move: qI; elim: ps us => // p l IH us; rewrite inE /= => I H.
case: (bind_inv H) => u Eu {H} H; case: (bind_inv H) => us' Eus {H} [<-].
case/predU1P: I => [->|I]; first by exists u => //; left.
by have [u' Iu' Eu'] := IH us' I Eus; exists u' => //; right.
Qed.

Local Notation dict_of pt := (@sp_dict R ord pt).
Lemma dict_mem pt v : (size pt <= n)%N -> dmem (dict_of pt) v = (v \in take (size pt) ord).
Proof.
rewrite -ord_size /dmem /sp_dict; suff H (o : seq var) : (size pt <= size o)%N -> map fst (zip o pt) = take (size pt) o.
  by move/H ->.
elim: o pt => [|w o IH] [|b pt] //= s; by rewrite IH.
Qed.

Lemma dget_rcons (pt : seq R) c v y : (size pt < n)%N -> dget (dict_of (rcons pt c)) v = Ok y ->
  (v = x (size pt) /\ y = c) \/ dget (dict_of pt) v = Ok y.
Proof.
rewrite -ord_size /sp_dict; elim: ord pt => [|w o IH] [|b pt] //= s.
  by case: o {IH s} => [|? ?] /=; case: eqP => // -> [<-]; left.
case: eqP => [_|_]; [by right|exact: IH].
Qed.
Lemma dget_mem (d : asg) v y : dget d v = Ok y -> dmem d v.
Proof.
rewrite /dmem; elim: d => [|[w z] d IH] //=; rewrite inE /dget /=; case: (eqVneq v w) => //= _; exact: IH.
Qed.

Lemma agrees_upd pt e t : (size pt < n)%N -> agrees inj (dict_of pt) e ->
  agrees inj (dict_of pt) (upd e (x (size pt)) t).
Proof.
move=> s A v y Ed; have /dget_mem := Ed; rewrite dict_mem ?(ltnW s) // => vI.
rewrite upd_same; first exact: A.
case: pt s vI {Ed A} => [|b pt] //= s vI; first by move: vI; rewrite take0.
by apply: contraTneq vI => ->; exact: next_fresh.
Qed.
Lemma agrees_rcons pt e c : (size pt < n)%N -> agrees inj (dict_of pt) e ->
  agrees inj (dict_of (rcons pt c)) (upd e (x (size pt)) (inj c)).
Proof.
move=> s A v y /(dget_rcons s)[[-> ->]|Ed]; first by rewrite /upd eqxx.
exact: agrees_upd.
Qed.

Variables (num : nat) (ambient : seq (atom L)).
Hypothesis num0 : (0 < num)%N.

(** A point of level [l] that stands for [a]. *)
Definition stands a l pt : Prop := exists e, [/\ size pt = l.+1, agrees inj (dict_of pt) e & good a l e].

Lemma base_stands w a ris v : iso_root_intvls (S 0) = Ok ris -> v = x 0 ->
  exists2 s, s \in sector_sps O w ris 1 ambient v & stands a 0 [:: s].
Proof.
move=> Er Ev; have [us Eu] : exists us, mapM (@univariate R L) (S 0) = Ok us.
  by case: (bind_inv Er) => us Eu _; exists us.
have Ra u : List.In u us -> rational_roots inj uval u by move/(mapM_In Eu) => [q /Sb H]; exact: H.
have [s Is [Ss Rs]] := line_complete_root LL w ambient v (a (x 0)) (ltn0Sn 0) Eu Er (rational_iso Ra) Ra.
exists s => //; exists (upd a (x 0) (inj s)).
have V q : q \in S 0 -> all (pred1 (x 0)) (variables q).
  move=> qI; apply/allP => u /(set_vars n0 qI); rewrite (take_nth 0%N) ?ord_size // take0 /= inE; exact: id.
split=> //; first by apply: (@agrees_rcons [::]) => // u y; rewrite /sp_dict; case: ord.
split.
  move=> q qI; have [u Iu Eq] := mapM_mem Eu qI; have Vq := V q qI.
  by rewrite !(val_univariate LC _ Eq Vq) /upd eqxx; apply/esym; exact: Ss.
move=> _ n1 p pI D z; suff Ex : a (x 0) = inj s.
  congr Num.sg; apply: (val_vars LB) => u uB; rewrite /upd; case: eqP => // ->; exact/esym.
apply: Rs; set c := coefficient p (x 1) 1 in z.
have cI : c \in raw_proj (x 1) (S 1) by have := raw_lead (x 1) pI; rewrite D.
have L0 : is_constant c || (c == lt_term c) -> exists e', val c e' != 0.
  by have := @lin_lead _ _ _ _ _ _ LN p (x 1); rewrite /= D => /(_ isT).
have nc : ~~ is_constant c.
  apply/negP => cc; have [|e' /eqP[]] := L0; first by rewrite cc.
  by rewrite (val_const LC e' a cc) z.
have qI : pure_poly_base c \in S 0.
  by rewrite set_next // bm_projE mem_undup; apply/mapP; exists c => //; rewrite mem_filter nc.
have [u Iu Eq] := mapM_mem Eu qI; exists u => //; apply/rootP; rewrite -(val_univariate LC a Eq (V _ qI)).
move: z; rewrite /pure_poly_base; case: eqP => // El; case Ev' : (variables c) => [|v1 [|v2 vs]] //.
have [k [m [m0 Ec]]] := val_pure LC El Ev'; rewrite (val_gen LC) Ec => /eqP.
rewrite mulf_eq0 expf_eq0 m0 /= => /orP[/eqP k0|/eqP //].
have [|e'] := L0; first by rewrite -El eqxx orbT.
by rewrite Ec k0 mul0r eqxx.
Qed.

Lemma fibre_stands w a l pt ris v : (l.+1 < n)%N -> stands a l pt -> v = x l.+1 ->
  iso_root_intvls (filter_proj_set [seq substitute p (dict_of pt) | p <- S l.+1]) = Ok ris ->
  exists2 c, c \in sector_sps O w ris num ambient v & stands a l.+1 (rcons pt c).
Proof.
move=> ln [e [Sp A G]] -> Er; have [t [Tt _]] := climb1 ln G; set d := dict_of pt in Er A *.
set qs := filter_proj_set _ in Er; have [us Eu] : exists us, mapM (@univariate R L) qs = Ok us.
  by case: (bind_inv Er) => us Eu _; exists us.
have ptn : (size pt < n)%N by rewrite Sp.
have V p v' : p \in S l.+1 -> v' \in variables (substitute p d) -> v' = x l.+1.
  move=> pI /(lin_subst_vars LN)[vp]; rewrite dict_mem ?(ltnW ptn) // Sp.
  by have := set_vars ln pI vp; rewrite next_mem // => /predU1P[//|->].
have Q q : q \in qs -> [/\ ~~ is_constant q, all (pred1 (x l.+1)) (variables q) & (degree q (x l.+1) <= 1)%N].
  move=> qI; split; first exact: filter_nonconst qI.
    by apply/allP => v' /(filter_vars qI)[p' /mapP[p pI ->]] /(V _ _ pI) ->; rewrite /= eqxx.
  move: qI; rewrite mem_undup => /mapP[p']; rewrite mem_filter => /andP[_ /mapP[p pI ->]] ->.
  have Dp : (degree (substitute p d) (x l.+1) <= 1)%N.
    have [|H _] := @Sl l.+1 _ p pI; first by lia.
    apply: leq_trans H; apply: (lin_subst_degree LN); rewrite dict_mem ?(ltnW ptn) // Sp; exact: next_fresh.
  rewrite /pure_poly_base; case: eqP => // _; case Ev' : (variables _) => [|v1 [|v2 vs]] //.
  by have -> : v1 = x l.+1 by [apply: (V p) => //; rewrite Ev' mem_head]; rewrite (lin_gen_degree LN).
have Ra u : List.In u us -> rational_roots inj uval u.
  by move/(mapM_In Eu) => [q /Q[nc Vq Dq]] Eq; exact: (lin_roots LN nc Vq Dq Eq).
have [s Is Ss] := line_complete LL w ambient (x l.+1) t num0 Eu Er (rational_iso Ra) Ra.
exists s => //; exists (upd e (x l.+1) (inj s)); split.
- by rewrite size_rcons Sp.
- by have := @agrees_rcons pt e s ptn A; rewrite Sp.
split=> // p pI; rewrite -(Tt p pI).
have Au y : agrees inj d (upd e (x l.+1) y) by have := @agrees_upd pt e y ptn A; rewrite Sp.
rewrite -!(lin_subst LN p (Au _)).
apply: (@filter_signs _ _ _ _ _ LC [seq substitute p d | p <- S l.+1]); last exact: map_f.
move=> q qI; have [_ Vq _] := Q q qI; have [u Iu Eq] := mapM_mem Eu qI.
by rewrite !(val_univariate LC _ Eq Vq) /upd eqxx; apply/esym; exact: Ss.
Qed.

(** ** Lifting *)
Variable g : goal L.
Hypothesis Wg : goal_wf g.
Hypothesis Tg : forall p, p \in apoly (main_goal g) :: [seq apoly h | h <- goal_hyps g] -> p \in top.

Lemma good_signs a e : good a n.-1 e -> forall p, p \in top -> Num.sg (val p a) = Num.sg (val p e).
Proof.
move=> [T _]; apply: (@filter_signs _ _ _ _ _ LC) => q qI; apply/esym; apply: T; by rewrite set_top.
Qed.

(** A point cut by the partial evaluation of the goal. *)
Lemma cut_true a l pt : (l < n)%N -> stands a l pt -> eval_goal g (dict_of pt) = Ok true -> goal_true val g a.
Proof.
move=> ln [e [Sp A G]] Et; have [e' G' He'] := climb ln G.
rewrite (@goal_sg _ _ _ val g a e') => [|p pI]; last by apply: good_signs => //; exact: Tg.
apply: (eval_goal_sound LB Wg) Et => v y Ed; have /dget_mem := Ed; rewrite dict_mem Sp // => vI.
by rewrite He' //; exact: A.
Qed.

Lemma stack_stands w a l pt out : (l.+1 < n)%N -> stands a l pt ->
  stack_over_cell O w ord sets l (Some g) num ambient pt = Ok out ->
  goal_true val g a \/ exists2 pt', pt' \in out & stands a l.+1 pt'.
Proof.
move=> ln St; rewrite /stack_over_cell => H; case: (bind_inv H) => next En {H} H.
case: (bind_inv H) => t Et {H}; case: t Et => [Et _|_ H]; first by left; apply: cut_true St Et; exact: ltnW.
case: (bind_inv H) => ris Er {H} H; case: (bind_inv H) => v Ev {H} [<-]; right.
have [_ En'] := pygetE [::] En; have [_ Ev'] := pygetE 0%N Ev; rewrite -En' in Er.
have [c cI Sc] := fibre_stands w ln St (esym Ev') Er.
by exists (rcons pt c) => //; apply/mapP; exists c.
Qed.

Lemma cells_stand w i a l cells pt out : (l.+1 < n)%N -> pt \in cells -> stands a l pt ->
  lift_cells O w i ord sets l (Some g) num ambient cells = Ok out ->
  goal_true val g a \/ exists2 pt', pt' \in out & stands a l.+1 pt'.
Proof.
move=> ln + St; elim: cells i out => [//|c cells IH] i out; rewrite inE => I /= H.
case: (bind_inv H) => st Est {H} H; case: (bind_inv H) => sts Ests {H} [<-].
case/predU1P: I => [Ec|I].
  rewrite -Ec in Est; case: (stack_stands ln St Est) => [|[pt' I Sp]]; [by left|right].
  by exists pt' => //; rewrite mem_cat I.
case: (IH _ _ I Ests) => [|[pt' I' Sp]]; [by left|right].
by exists pt' => //; rewrite mem_cat I' orbT.
Qed.

Lemma levels_stand w a k l cells pt out : (l + k < n)%N -> pt \in cells -> stands a l pt ->
  lift_levels O w k l ord sets (Some g) num ambient cells = Ok out ->
  goal_true val g a \/ exists2 pt', pt' \in out & stands a (l + k) pt'.
Proof.
elim: k l cells pt => [|k IH] l cells pt lk I St /=.
  by case=> <-; right; rewrite addn0; exists pt.
move=> H; case: (bind_inv H) => cs Ec {H} H.
have [|?|[pt' I' St']] := cells_stand _ I St Ec; [by lia|by left|].
by rewrite addnS -addSn; apply: (IH l.+1 _ pt') H; rewrite ?mem_sort //; lia.
Qed.
End Levels.

(** ** The sample is complete *)
Lemma sample_complete n num w og (top : seq poly) ambient ds t :
  (0 < num)%N -> sample_pt_dicts O n num w og top ambient = Ok (ds, t) ->
  (forall p, p \in top -> all (fun v => (v < n)%N) (variables p)) -> solvable inj uval n top ->
  (forall g, og = Some g -> goal_wf g /\
     forall p, p \in apoly (main_goal g) :: [seq apoly h | h <- goal_hyps g] -> p \in top) ->
  forall a, (exists2 g, og = Some g & goal_true val g a) \/
    exists d e, [/\ List.In d ds, agrees inj d e, forall v, (v < n)%N -> dmem d v &
      forall p, p \in top -> Num.sg (val p a) = Num.sg (val p e)].
Proof.
move=> num0; rewrite /sample_pt_dicts; set ord := compute_proj_ord _ _ => H Vt So Hg a.
case: (bind_inv H) => sets Es {H} H; case: (bind_inv H) => base Eb {H} H.
case: (bind_inv H) => ris Er {H} H; case: (bind_inv H) => v Ev {H} H.
case: (bind_inv H) => pts Ep {H} [<- _].
have [Sb Sl] := So sets Es; have [_ Eb'] := pygetE [::] Eb; have [v0 Ev'] := pygetE 0%N Ev.
have n0 : (0 < n)%N by rewrite (ord_size n top) in v0.
rewrite -Eb' in Er.
have [s sI Ss] := base_stands n0 Es Vt Sb ambient [:: 0%N & w] a Er (esym Ev').
have cI : [:: s] \in [seq [:: c] | c <- sector_sps O [:: 0%N & w] ris 1 ambient v] by apply/mapP; exists s.
have fin pt : pt \in pts -> stands n top sets a n.-1 pt ->
    exists d e, [/\ List.In d [seq sp_dict ord pt | pt <- pts], agrees inj d e, forall v, (v < n)%N -> dmem d v &
      forall p, p \in top -> Num.sg (val p a) = Num.sg (val p e)].
  move=> I [e [Sp A G]]; exists (sp_dict ord pt), e; split=> //.
  - move: I; elim: pts {Ep} => //= c l IH; rewrite inE => /predU1P[->|/IH X]; by [left|right].
  - move=> u un; rewrite dict_mem Sp prednK //; have := ord_size n top; rewrite -/ord => {1}<-.
    by rewrite take_size ord_mem.
  - exact: good_signs G.
case: og Ep Hg => [g|] Ep Hg.
  have [Wg Tg] := Hg g erefl.
  have [|Gt|[pt I St]] := levels_stand n0 Es Vt Sl num0 Wg Tg _ cI Ss Ep; first by rewrite add0n ltn_predL.
    by left; exists g.
  by right; exact: fin I St.
right; move: Ep fin; case: n.-1 => [|m] Ep fin.
  by case: Ep => Ep; apply: (fin [:: s]); [rewrite -Ep|exact: Ss].
case: (bind_inv Ep) => cs; case: [seq [:: c] | c <- _] cI => [//|c cells] _ /= H.
by case: (bind_inv H) => st; rewrite /stack_over_cell => H'; case: (bind_inv H').
Qed.

(** ** Runs *)
Variables (n : nat) (C : pred poly).
Hypothesis SC : solvable_class inj uval C n.

(** What is needed of a sequent: its polynomials are in the class, its atoms
    know their variables, and no hypothesis is an equation. *)
Definition in_lin (s : decide L) : bool :=
  [&& all (fun b : atom L => C (apoly b) && atom_wf b) (main_goal (dgoal s) :: goal_hyps (dgoal s) ++ hyps s),
      gb (dgoal s) == [::] & all (fun h => ~~ is_eqn h) (hyps s)].

Lemma promotes_lin s s' : promotes s s' -> in_lin s -> in_lin s'.
Proof.
case=> h [Eg P _]; rewrite /in_lin /= !all_cat -!(all_C_perm _ P) /=.
move=> /and3P[/and3P[Cm Cg /andP[Ch Cs]] /eqP G0 /andP[ne nes]].
move: Eg ne; rewrite /add_goal_hyp /is_eqn G0; case: (aop h) => // + _; rewrite !bind_ok => -[<-] /=.
all: by rewrite Cm all_cat Cg Cs nes /= Ch ?eqxx.
Qed.

Lemma filter_class_lin (ps : seq poly) : all C ps -> all C (filter_proj_set ps).
Proof.
move=> /allP A; apply/allP => q; rewrite mem_undup => /mapP[p]; rewrite mem_filter => /andP[_ /A Cp] ->.
rewrite /pure_poly_base; case: eqP => // _; case Ev : (variables p) => [|v [|v' vs]] //.
by apply: (sclass_gen SC Cp); rewrite Ev mem_head.
Qed.

Variable solve : nat -> seq constraint -> seq nat -> res (nat -> bool).

Lemma check_lin_sound num fuel partial k eps cs (top : seq poly) s r s' : (0 < num)%N ->
  check O solve (sample_pt_dicts O n num) fuel partial k eps cs top s = Ok (r, s') ->
  all C top -> in_lin s -> forall e, goal_true val (dgoal s') e.
Proof.
move=> num0; elim: fuel cs top s r s' => [|fuel IH] cs top s r s' //=.
set top' := top ++ _; move=> H; case: (bind_inv H) => -[ds t] Es {H} H Ct Is e.
have [Cm Ch Wg] : [/\ C (apoly (main_goal (dgoal s))), all C [seq apoly h | h <- goal_hyps (dgoal s)] &
    goal_wf (dgoal s)].
  move: Is; rewrite /in_lin /= all_cat => /and3P[/and3P[/andP[-> Wm] Cg _] _ _].
  split=> //; first by rewrite all_map; apply: sub_all Cg => h /andP[].
  by rewrite /goal_wf /= Wm; apply: sub_all Cg => h /andP[].
have Ct' : all C top' by rewrite all_cat Ct /= Cm.
have Ctt : all C t.
  move: Es; rewrite /sample_pt_dicts => H'; case: (bind_inv H') => x1 _ {H'} H'.
  case: (bind_inv H') => x2 _ {H'} H'; case: (bind_inv H') => x3 _ {H'} H'; case: (bind_inv H') => x4 _ {H'} H'.
  by case: (bind_inv H') => x5 _ {H'} [_ <-]; exact: filter_class_lin.
have inT p : p \in apoly (main_goal (dgoal s)) :: [seq apoly h | h <- goal_hyps (dgoal s)] -> p \in top'.
  by move=> pI; rewrite mem_cat pI orbT.
case: (bind_inv H) => -[o ob] Eb {H} /=; case: ob Eb => [bads|] Eb; last first.
  case=> _ <- /=.
  have [p /(allP Ct')| | |[g Eg Gt]|[d [e' [Id A Md Sg]]]] := sample_complete num0 Es _ _ _ e.
  - exact: (sclass_vars SC).
  - exact: (sclass_solvable SC).
  - by move=> g; case: (partial) => // -[<-].
  - by move: Eg; case: (partial) => // -[->].
  rewrite (@goal_sg _ _ _ _ _ e e') => [|p pI]; last by apply: Sg; exact: inT.
  apply: (@eval_goal_full _ _ _ _ _ LB _ d) => //; last exact: (all_bads_none Eb).
  by move=> p pI; apply/allP => v vp; apply: Md; have /allP := sclass_vars SC (allP Ct' _ (inT _ pI)); exact.
have run1 : forall s2, promotes (Decide (hyps s) (dgoal s) o) s2 -> promotes s s2.
  by move=> s2 [h [P1 P2 P3]]; exists h.
case: cs => [l|] H.
  case: (bind_inv H) => -[[s2 inter] l'] /interactP/run1 P {H} H.
  by case: (bind_inv H) => -[r2 s3] /IH/(_ Ctt (promotes_lin P Is)) X {H} [_ <-]; exact: X.
case: (bind_inv H) => s2 /autoP/run1 P {H} H.
by case: (bind_inv H) => -[r2 s3] /IH/(_ Ctt (promotes_lin P Is)) X {H} [_ <-]; exact: X.
Qed.

Lemma check_lin_valid num fuel partial k eps cs s r s' : (0 < num)%N -> goal_hyps (dgoal s) = [::] ->
  check O solve (sample_pt_dicts O n num) fuel partial k eps cs [::] s = Ok (r, s') ->
  in_lin s -> forall e, sequent_true val s e.
Proof.
move=> num0 G0 Ec Ic e; have [Rr _] := check_result Ec.
have B0 : gb (dgoal s) = [::] by case/and3P: Ic => _ /eqP.
by apply: (run_sound LB G0 B0 Rr); exact: (check_lin_sound num0 Ec).
Qed.
End Lift.

Section Linear.
Variables (R : realDomainType) (L : lib R) (K : rcfType) (inj : R -> K).
Variables (val : P L -> (var -> K) -> K) (uval : U L -> {poly K}).
Hypotheses (LC : cad_ok val uval) (LN : lin_ok inj val uval) (LD : degree_ok L).
Implicit Types (p q : P L).

Lemma filter_td (ps : seq (P L)) : (forall p, p \in ps -> (total_degree p <= 1)%N) ->
  forall q, q \in filter_proj_set ps -> (total_degree q <= 1)%N.
Proof.
move=> H q; rewrite mem_undup => /mapP[p]; rewrite mem_filter => /andP[_ /H tp] ->.
by rewrite /pure_poly_base; case: eqP => // _; case: (variables p) => [|v [|v' vs]] //; exact: td_gen.
Qed.
Lemma proj_td x (ps : seq (P L)) : (forall p, p \in ps -> (total_degree p <= 1)%N) ->
  forall q, q \in bm_proj x ps -> (total_degree q <= 1)%N.
Proof.
move=> H; rewrite bm_projE; apply: filter_td => q; rewrite mem_undup !mem_cat => /or3P[].
- case: ifP => // _ /flatten_mapP[p1]; rewrite mem_undup => /H h1 /mapP[p2]; rewrite mem_filter mem_undup => /andP[_ /H h2] ->.
  exact: td_res.
- by move=> /mapP[p]; rewrite mem_undup => /H h ->; exact: td_disc.
- by move=> /mapP[p]; rewrite mem_undup => /H h ->; exact: td_coef.
Qed.

Lemma linear_class n : solvable_class inj uval (linear n) n.
Proof.
split.
- by move=> p /andP[].
- by move=> p v /andP[_ /allP V] /V vn; rewrite /linear td_gen // (variables_gen LC) /= vn.
move=> top /allP Ct; rewrite /solvable; set ord := compute_proj_ord _ _ => sets Es.
have Vt p : p \in top -> all (fun v => (v < n)%N) (variables p) by move/Ct/andP=> [].
have Tt p : p \in top -> (total_degree p <= 1)%N by move/Ct/andP=> [].
have [Sz St Sn] := projP Es.
have Td l p : (l <= n.-1)%N -> p \in nth [::] sets l -> (total_degree p <= 1)%N.
  move: {2}(n.-1 - l)%N (erefl (n.-1 - l)%N) => k; elim: k l p => [|k IH] l p E ln.
    have -> : l = n.-1 by lia.
    by rewrite St; exact: filter_td.
  rewrite Sn; last by lia.
  by apply: proj_td => q; apply: IH; lia.
split=> [p u pI Eu|l /andP[l0 ln] p pI]; last first.
  have tp := Td l p ltac:(lia) pI; split; first exact: leq_trans (td_degree LD _ _) tp.
  by move=> _ D; exact: td_lead.
have [l Sl] : exists l, nth [::] sets 0 = filter_proj_set l.
  by case E : n.-1 => [|m]; [exists top; rewrite -St E|rewrite Sn ?E // bm_projE; eexists].
apply: (lin_roots LN (v := nth 0%N ord 0)) Eu.
- by rewrite Sl in pI; exact: (filter_nonconst LN pI).
- apply/allP => v vp; case: (posnP n) => [n0|n0]; last first.
    by have := set_vars LC LN n0 Es Vt n0 pI vp; rewrite (take_nth 0%N) ?ord_size // take0 /= inE.
  have E0 : n.-1 = 0%N by rewrite n0.
  rewrite E0 in St; rewrite St in pI; have [p' /Vt/allP V /V] := filter_vars LC pI vp.
  by rewrite n0.
- exact: leq_trans (td_degree LD _ _) (Td 0%N p isT pI).
Qed.
End Linear.

Section LinearRun.
Variables (R : realDomainType) (L : lib R) (O : oracle L) (K : rcfType) (inj : R -> K).
Variables (val : P L -> (var -> K) -> K) (uval : U L -> {poly K}).
Hypotheses (LB : lib_ok inj val) (LC : cad_ok val uval) (LL : line_ok O inj uval) (LN : lin_ok inj val uval).
Hypothesis LD : degree_ok L.

Lemma check_linear_valid n num solve fuel partial k eps cs (s : decide L) r s' : (0 < num)%N ->
  goal_hyps (dgoal s) = [::] ->
  check O solve (sample_pt_dicts O n num) fuel partial k eps cs [::] s = Ok (r, s') ->
  in_lin (linear n) s -> forall e, sequent_true val s e.
Proof. exact: (check_lin_valid LB LC LL LN (linear_class LC LN LD n)). Qed.
End LinearRun.
