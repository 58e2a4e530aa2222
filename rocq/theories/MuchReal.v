(** real_full: from tables to the returned clauses. *)
From mathcomp Require Import all_ssreflect all_algebra all_real_closed.
From mathcomp.zify Require Import zify.
From Verif Require Import Py MuchModel MuchSpec MuchSeq MuchRoot MuchDiag MuchStep MuchSem.

Set Implicit Arguments.
Unset Strict Implicit.
Unset Printing Implicit Defensive.
Import GRing.Theory Num.Theory Order.TTheory.
Local Open Scope ring_scope.

Section Extend.
Variables (P : eqType) (K : realDomainType) (A : algebra P K).
Variables (C : idomainType) (den : P -> {poly C}).
Hypothesis ok : algebra_contract A den.
Variable setiter : seq P -> seq P.
Hypothesis order : set_order setiter.
Implicit Types (D : diagram P [eqType of rat]).

Local Notation zero := (a_zero A).
Local Notation degree := (a_degree A).
Local Notation rem p q := (a_pseudo_div A p q).2.
Local Notation lcrow p := (a_times A (a_LC A p) (fac (degree p))).
Local Notation sz p := (size (den p)).

Section Seq.
Variable s : seq P.
Hypothesis cl : closed_seq A den s.
Hypothesis srt : by_degree A s.
Hypothesis us : uniq s.

Lemma mem_const q : (q \in constant_frag A s) = (q \in s) && (sz q <= 1)%N.
Proof. by rewrite mem_filter (den_div ok) andbC. Qed.
Lemma mem_nonconst q : (q \in nonconst_frag A s) = (q \in s) && (1 < sz q)%N.
Proof. by rewrite mem_filter (den_div ok) -ltnNge andbC. Qed.

Lemma sorted_nonconst : by_degree A (nonconst_frag A s).
Proof. exact: (sorted_filter (@by_degree_trans _ _ A)). Qed.

Lemma lower (T : eqType) (D : diagram P T) done p todo q : nonconst_frag A s = done ++ p :: todo ->
  rows D =i constant_frag A s ++ done -> q \in s -> (sz q < sz p)%N -> q \in rows D.
Proof.
move=> Es rE qs lt; rewrite rE mem_cat mem_const qs /=.
case: (leqP (sz q) 1) => //= q1.
have : q \in nonconst_frag A s by rewrite mem_nonconst qs.
rewrite Es mem_cat => /orP[//|]; rewrite inE => /orP[/eqP E|qt].
  by move: lt; rewrite E ltnn.
have := sorted_nonconst; rewrite /by_degree (sorted_pairwise (@by_degree_trans _ _ A)) Es.
rewrite pairwise_cat /= => /and3P[_ _ /andP[/allP/(_ _ qt) le _]].
have p0 : p \in nonconst_frag A s by rewrite Es mem_cat mem_head orbT.
by move: p0 lt le; rewrite mem_nonconst !(den_degree ok) => /andP[_]; lia.
Qed.

Lemma prefix_ready (T : eqType) (D : diagram P T) done p todo : nonconst_frag A s = done ++ p :: todo ->
  rows D =i constant_frag A s ++ done -> ready A den D p.
Proof.
move=> Es rE; have low := lower Es rE; have [c0 c1 c2 c3] := cl.
have pn : p \in nonconst_frag A s by rewrite Es mem_cat mem_head orbT.
have /andP[ps p1] : (p \in s) && (1 < sz p)%N by rewrite -mem_nonconst.
have p0 : p != zero by rewrite -(sz_eq0 ok); case: (sz p) p1.
have sub z : z \in rows D -> z \in s.
  rewrite rE mem_cat mem_const => /orP[/andP[]//|zd].
  have : z \in nonconst_frag A s by rewrite Es mem_cat zd.
  by rewrite mem_nonconst => /andP[].
have le z : z \in rows D -> (sz z <= sz p)%N.
  rewrite rE mem_cat mem_const => /orP[/andP[_ /leq_trans->//]|zd]; first exact: ltnW.
  have := sorted_nonconst; rewrite /by_degree (sorted_pairwise (@by_degree_trans _ _ A)) Es.
  rewrite pairwise_cat => /and3P[/allrelP/(_ z p zd (mem_head _ _)) h _ _].
  exact: (degree_sz ok).
have zr : zero \in rows D.
  by rewrite rE mem_cat mem_const c0 (den_zero ok) size_poly0.
have sub' z : z \in p :: rows D -> z \in s by rewrite inE => /orP[/eqP->//|/sub].
have le' z : z \in p :: rows D -> (sz z <= sz p)%N by rewrite inE => /orP[/eqP->//|/le].
split=> //.
- rewrite rE mem_cat mem_const ps leqNgt p1 /=.
  have : uniq (nonconst_frag A s) by exact: filter_uniq.
  rewrite Es cat_uniq => /and3P[_ /hasPn/(_ p) h _]; apply: h; exact: mem_head.
- move=> z zr' z0; apply: low; first by apply: c3; rewrite ?(sub z) ?(den_eq0 ok) ?le.
  exact: leq_trans (sz_rem ok z0 (le _ zr')) (le _ zr').
- move=> z /sub' zs; rewrite rE mem_cat mem_const (lc_row_in ok cl zs) /=.
  rewrite (den_times ok) (den_LC ok) -polyCMn size_polyC; by case: eqP.
- move=> z zr'; case: (eqVneq z zero) => [->|z0].
    suff -> : a_tail A zero = zero by [].
    by apply: (den_zero_only ok); rewrite (den_tail ok) (den_zero ok) lead_coef0 scale0r subr0.
  apply: low; first exact/c1/sub'.
  exact: leq_trans (sz_tail ok z0) (le' _ zr').
- move=> z zr'; case: (eqVneq z zero) => [->|z0].
    suff -> : a_derivative A zero = zero by [].
    by apply: (den_zero_only ok); rewrite (den_derivative ok) (den_zero ok) deriv0.
  apply: low; first exact/c2/sub'.
  exact: leq_trans (sz_der ok z0) (le' _ zr').
Qed.

Lemma mem_frags : constant_frag A s ++ nonconst_frag A s =i s.
Proof.
by move=> q; rewrite mem_cat mem_const mem_nonconst -andb_orr ltnNge orbN andbT.
Qed.

Lemma extend_shape D prs done todo : nonconst_frag A s = done ++ todo ->
  rows D =i constant_frag A s ++ done -> sinv A D prs ->
  real_extend A setiter D todo = Err DiagramExc \/
  exists D' prs', [/\ real_extend A setiter D todo = Ok D', rows D' =i s, sinv A D' prs' &
    forall q, q \in rows D -> cell D' q 0 = cell D q 0].
Proof.
elim: todo D prs done => [|p todo IH] D prs done Es rE inv.
  right; exists D, prs; split=> // q; rewrite rE -mem_frags Es cats0 //.
have rd := prefix_ready Es rE; rewrite /real_extend /=.
have [->|[D' [prs' [-> h1 h2 h3]]]] := real_step_shape ok order rd inv; first by left.
rewrite bind_ok -/(real_extend A setiter D' todo); have [|||->|[D2 [prs2 [h4 h5 h6 h7]]]] := IH D' prs' (rcons done p) => //.
- by rewrite cat_rcons.
- by move=> q; rewrite h1 inE rE !mem_cat mem_rcons inE orbCA.
- by left.
by right; exists D2, prs2; split=> // q hq; rewrite h7 ?h3 // h1 inE hq orbT.
Qed.

Variables (R : rcfType) (ev : {rmorphism C -> R}).
Local Notation tinv := (tinv A den ev).

Lemma extend_sem D prs done todo : nonconst_frag A s = done ++ todo ->
  rows D =i constant_frag A s ++ done -> tinv D prs ->
  exists D' prs', [/\ real_extend A setiter D todo = Ok D', rows D' =i s & tinv D' prs'].
Proof.
elim: todo D prs done => [|p todo IH] D prs done Es rE inv.
  exists D, prs; split=> // q; rewrite rE -mem_frags Es cats0 //.
have rd := prefix_ready Es rE; rewrite /real_extend /=.
have [D' [prs' [-> h1 h2]]] := real_step_sem ok order rd inv.
rewrite bind_ok; apply: (IH D' prs' (rcons done p)) => //; first by rewrite cat_rcons.
by move=> q; rewrite h1 inE rE !mem_cat mem_rcons inE orbCA.
Qed.
End Seq.


(** *** The tables that real_full starts from. *)
Definition put3 D q v := put (put (put D q 0 v) q (1 / 2%:R) v) q 1 v.

Lemma cell_put3 D q v q' c : cell (put3 D q v) q' c =
  if (q' == q) && (c \in cols3) then Ok v else cell D q' c.
Proof.
rewrite /put3 !cell_put !inE; case: (q' == q) => //=.
by case: (c == 1); case: (c == _ / _); case: (c == 0); rewrite ?orbT.
Qed.

Lemma rows_put3 D q v : rows (put3 D q v) =i q :: rows D.
Proof. by move=> q'; rewrite !(rows_put, inE); case: (q' == q). Qed.

Lemma assign3E D q v : assign3 D q v = put3 D q v.
Proof. by rewrite /assign3 /= diagram_copyE. Qed.

Lemma fold_put3 f l D :
  (forall q c, cell (foldl (fun D c => put3 D c (f c)) D l) q c =
     if (q \in l) && (c \in cols3) then Ok (f q) else cell D q c) /\
  rows (foldl (fun D c => put3 D c (f c)) D l) =i l ++ rows D.
Proof.
elim: l D => [|x l IH] D //=; have [h1 h2] := IH (put3 D x (f x)); split=> [q c|q].
  rewrite h1 cell_put3 inE; case: (eqVneq q x) => [->|] //=.
  by case: (x \in l); case: (c \in cols3).
by rewrite h2 mem_cat rows_put3 !inE mem_cat orbCA.
Qed.

(** Sign vectors. *)
Fixpoint words (n : nat) : seq (seq int) :=
  if n is n'.+1 then flatten [seq [seq v :: w | w <- words n'] | v <- [:: -1; 0; 1]] else [:: [::]].

Definition tabulate D (vf : seq P) (w : seq int) :=
  foldl (fun D x => put3 D x.1 x.2) D (zip vf w).

Lemma r_full_cat ds ds' vf : r_full_assignment (ds ++ ds') vf =
  r_full_assignment ds vf ++ @r_full_assignment P ds' vf.
Proof. by elim: vf ds ds' => //= c vf IH ds ds'; rewrite map_cat flatten_cat IH. Qed.

Lemma r_full_words D vf : r_full_assignment [:: D] vf = [seq tabulate D vf w | w <- words (size vf)].
Proof.
elim: vf D => [|c vf IH] D //=; rewrite cats0 -[[:: _; _; _]]/([:: _] ++ [:: _] ++ [:: _]) !r_full_cat !IH.
by rewrite !assign3E !map_cat -!map_comp.
Qed.

Lemma size_words n : size (words n) = (3 ^ n)%N.
Proof. by elim: n => //= n IH; rewrite !size_cat !size_map IH expnS !mulSn mul0n. Qed.

Lemma mem_words n w : (w \in words n) = (size w == n) && all (mem [:: -1; 0; 1 : int]) w.
Proof.
elim: n w => [|n IH] w; first by rewrite inE; case: w.
rewrite [words _]/= cats0 !mem_cat.
have mm v : (w \in [seq v :: w | w <- words n]) = (ohead w == Some v) && (behead w \in words n) && (w != [::]).
  apply/mapP/idP => [[u hu ->]|]; first by rewrite /= hu eqxx.
  by case: w => //= v' u /andP[/andP[/eqP[->] hu] _]; exists u.
rewrite !mm; case: w {mm} => [|v w] //=; rewrite !andbT !IH eqSS !inE.
have eqs k : (Some v == Some k) = (v == k) by apply/eqP/eqP => [[]|->].
rewrite !eqs -!andb_orl; by do ![case: (_ == _)|case: (all _ _)].
Qed.

Lemma uniq_words n : uniq (words n).
Proof.
elim: n => //= n IH; rewrite cats0 !cat_uniq !map_inj_uniq ?IH //; try by move=> ? ? [].
by rewrite !has_cat negb_or /=; do !(apply/andP; split); rewrite ?IH //; apply/hasPn => w /mapP[u _ ->];
  apply/mapP => -[? _ []].
Qed.

Lemma tabulateE D vf w : uniq vf -> size w = size vf ->
  (forall q c, cell (tabulate D vf w) q c =
     if (q \in vf) && (c \in cols3) then Ok (nth 0 w (index q vf)) else cell D q c) /\
  rows (tabulate D vf w) =i vf ++ rows D.
Proof.
rewrite /tabulate; elim: vf w D => [|x vf IH] [|v w] D //= /andP[nx u] [sw].
have [h1 h2] := IH w (put3 D x v) u sw; split=> [q c|q].
  rewrite h1 cell_put3 inE; case: (eqVneq q x) => [->|ne] //=.
  by rewrite (negbTE nx).
by rewrite h2 mem_cat rows_put3 !inE mem_cat orbCA.
Qed.

Section Start.
Variable s : seq P.
Hypothesis cl : closed_seq A den s.
Hypothesis us : uniq s.

Local Notation vf := (var_frag A s).

Definition root_diagram := r_assignment_all_zero A (sca_frag A s).
Definition start w := tabulate root_diagram vf w.
Definition sig (w : seq int) q : int := if q \in vf then nth 0 w (index q vf) else a_sign A q.

Lemma uniq_vf : uniq vf.
Proof. by do !apply: filter_uniq. Qed.

Lemma mem_vf q : (q \in vf) = (q \in constant_frag A s) && a_has_variable A q.
Proof. by rewrite mem_filter andbC. Qed.

Lemma root_diagramE :
  (forall q c, cell root_diagram q c =
     if (q \in sca_frag A s) && (c \in cols3) then Ok (a_sign A q) else Err KeyError) /\
  rows root_diagram =i sca_frag A s.
Proof.
have -> : root_diagram = foldl (fun D c => put3 D c (if a_has_variable A c then 0 else a_sign A c)) [::] (sca_frag A s).
  by [].
have [h1 h2] := fold_put3 (fun c => if a_has_variable A c then 0 else a_sign A c) (sca_frag A s) [::].
split=> [q c|q]; last by rewrite h2 mem_cat orbF.
rewrite h1; case: ifP => // /andP[]; rewrite mem_filter => /andP[/negbTE-> _] //.
Qed.

Lemma start_assigned w : size w = size vf -> assigned (constant_frag A s) (sig w) (start w).
Proof.
move=> sw; have [h1 h2] := tabulateE root_diagram uniq_vf sw; have [h3 h4] := root_diagramE.
split=> [q|q c hq]; first by rewrite h2 mem_cat h4 !mem_filter -andb_orl orbN.
rewrite h1 /sig; case hv: (q \in vf) => /=; last first.
  rewrite h3 mem_filter hq andbT; move: hv; rewrite mem_filter hq andbT => /negbT->; by case: ifP.
case: ifP => // hc; rewrite h3 hc andbF //.
Qed.

Lemma zero_const : zero \in constant_frag A s.
Proof. by case: cl => c0 _ _ _; rewrite mem_const c0 (den_zero ok) size_poly0. Qed.

Lemma sig_zero w : sig w zero = 0.
Proof. by rewrite /sig mem_vf (negbTE (zero_scalar ok)) andbF (zero_sign ok). Qed.

Lemma vd_assigned f D q c : assigned (constant_frag A s) f D -> q \in rows D -> c \in cols3 -> vd D q c = f q.
Proof. by move=> [h1 h2]; rewrite h1 => hq hc; rewrite /vd h2 // hc. Qed.

Lemma assigned_sinv f D : assigned (constant_frag A s) f D -> f zero = 0 -> sinv A D [:: (1 / 2%:R, 1)].
Proof.
move=> as_ f0; have [h1 h2] := as_; split=> //.
- move=> q; rewrite h1 => hq c; apply/cols_cell/idP => [[v]|hc]; first by rewrite h2 //; case: ifP.
  by exists (f q); rewrite h2 // hc.
- move=> c; rewrite inE => /eqP->; apply/hasPn => q hq.
  by rewrite /isroot !(vd_assigned as_) //; case: eqP.
- by split; [rewrite h1 zero_const|rewrite (vd_assigned as_) // h1 zero_const].
Qed.

Variables (R : rcfType) (ev : {rmorphism C -> R}).

Lemma assigned_tinv f D : assigned (constant_frag A s) f D ->
  (forall q, q \in constant_frag A s -> f q = sgz (cvalue den ev q)) ->
  tinv A den ev D [:: (1 / 2%:R, 1)].
Proof.
move=> as_ fE; have [h1 h2] := as_.
have qE q : q \in rows D -> map_poly ev (den q) = (cvalue den ev q)%:P.
  by rewrite h1 mem_const => /andP[_ /size1_polyC E]; rewrite {1}E map_polyC.
have sE q : q \in rows D -> f q = sgz (cvalue den ev q) by rewrite h1; exact: fE.
split.
- apply: (assigned_sinv as_); rewrite fE ?zero_const // /cvalue (den_zero ok) coef0 rmorph0 sgz0 //.
- exists [::] => y _ _ q hq; rewrite (vd_assigned as_) // qE // hornerC; exact: sE.
- move=> q hq; rewrite (vd_assigned as_) // /lsg qE // lead_coefC size_polyC sE //.
  by case: eqP => [->|_]; rewrite ?sgz0 ?mul0r ?mulr1.
- move=> q hq; rewrite (vd_assigned as_) // /usg qE // lead_coefC; exact: sE.
Qed.
End Start.

(** *** Loops over the tables. *)
Lemma extend_allE ds nonconst :
  (forall D, List.In D ds -> real_extend A setiter D nonconst = Err DiagramExc \/
     exists D', real_extend A setiter D nonconst = Ok D') ->
  exists2 out, extend_all A setiter ds nonconst = Ok out &
    forall D', List.In D' out <-> exists2 D, List.In D ds & real_extend A setiter D nonconst = Ok D'.
Proof.
elim: ds => [|D ds IH] h /=; first by exists [::] => // D'; split=> [//|[]].
have [|out Eo ho] := IH; first by move=> D1 h1; apply: h; right.
have [Er|[D1 Er]] := h D (or_introl erefl); rewrite Er.
  exists out; first by [].
  move=> D'; rewrite ho; split=> -[D2 h1 h2]; exists D2 => //; first by right.
  by case: h1 h2 => // <-; rewrite Er.
rewrite Eo bind_ok; exists (D1 :: out) => // D' /=; split.
  by move=> [<-|/ho[D2 h1 h2]]; [exists D; [left|]|exists D2; [right|]].
by move=> [D2 [<-|h1] h2]; [left; move: h2; rewrite Er => -[]|right; apply/ho; exists D2].
Qed.

Lemma keep_columnsE (T : eqType) (D : diagram P T) v cs p : (forall c, c \in cs -> c \in cols D p) ->
  keep_columns D v cs p = Ok [seq c <- cs | vd D p c == v].
Proof.
move=> h; rewrite /keep_columns (mapM_ok (g := fun c => (vd D p c == v, c))); last first.
  by move=> c /InP hc; rewrite cell_vd // h.
rewrite bind_ok; congr Ok.
by elim: cs {h} => //= c cs IH; case: ifP => _ /=; rewrite IH.
Qed.

Lemma keep_all (T : eqType) (D : diagram P T) v cs ps :
  (forall p, p \in ps -> forall c, c \in cs -> c \in cols D p) ->
  foldM (keep_columns D v) cs ps = Ok [seq c <- cs | all (fun p => vd D p c == v) ps].
Proof.
elim: ps cs => [|p ps IH] cs h /=; first by rewrite filter_predT.
rewrite keep_columnsE; last by apply: h; exact: mem_head.
rewrite bind_ok IH; last by move=> q hq c; rewrite mem_filter => /andP[_]; apply: h; rewrite inE hq orbT.
by rewrite -filter_predI; congr Ok; apply: eq_filter => c /=; rewrite andbC.
Qed.

Definition good_col l e g D c :=
  [&& all (fun p => vd D p c == 0) e, all (fun p => vd D p c == -1) l & all (fun p => vd D p c == 1) g].

Lemma good_realE l e g D : 
  (forall p, p \in l ++ e ++ g -> forall c, c \in cols D zero -> c \in cols D p) ->
  good_real A l e g D = Ok (has (good_col l e g D) (cols D zero)).
Proof.
move=> h; rewrite /good_real keep_all; last by move=> p hp; apply: h; rewrite !mem_cat hp !orbT.
rewrite bind_ok keep_all; last first.
  by move=> p hp c; rewrite mem_filter => /andP[_]; apply: h; rewrite mem_cat hp.
rewrite bind_ok keep_all; last first.
  by move=> p hp c; rewrite !mem_filter => /and3P[_ _]; apply: h; rewrite !mem_cat hp !orbT.
rewrite bind_ok -!filter_predI -has_predT has_filter filter_predT -has_filter; congr Ok; apply: eq_has => c /=.
by rewrite /good_col [RHS]andbC [_ && all _ l]andbC.
Qed.

Lemma filterME (T : Type) (f : T -> res bool) g l : (forall x, List.In x l -> f x = Ok (g x)) ->
  filterM f l = Ok [seq x <- l | g x].
Proof.
elim: l => //= x l IH h; rewrite h; last by left.
by rewrite bind_ok IH // => y hy; apply: h; right.
Qed.

Definition clause_of (vf : seq P) (f : P -> int) : seq P * seq P * seq P :=
  ([seq q <- vf | f q == -1], [seq q <- vf | f q == 0], [seq q <- vf | (f q != 0) && (f q != -1)]).

Lemma real_clauseE (vf : seq P) D f : (forall q, q \in vf -> cell D q 0 = Ok (f q)) ->
  real_clause vf D = Ok (if vf is [::] then None else Some (clause_of vf f)).
Proof.
move=> h; rewrite /real_clause (mapM_ok (g := fun q => (f q, q))); last first.
  by move=> q /InP hq; rewrite h.
have fE (b : int -> bool) : [seq x.2 | x <- [seq (f q, q) | q <- vf] & b x.1] = [seq q <- vf | b (f q)].
  by elim: (vf) => //= q l IH; case: ifP => _ /=; rewrite IH.
rewrite bind_ok (fE (fun v => v == 0)) (fE (fun v => v == -1)) (fE (fun v => (v != 0) && (v != -1))).
rewrite -/(clause_of vf f); congr Ok.
case E: (vf) => [//|q l]; rewrite -E ifN // size_eq0; apply/eqP => h0.
have : q \in ([::] : seq P); last by [].
rewrite -h0 !mem_cat !mem_filter {1 2 3}E mem_head !andbT.
by case: eqP => //= _; rewrite orbN.
Qed.

Lemma filter_In (T : Type) (p : T -> bool) (l : seq T) x : List.In x (filter p l) <-> List.In x l /\ p x.
Proof. exact: List.filter_In. Qed.

(** *** real_full. *)
Section Full.
Variables lesser equalities greater : seq P.
Let ps := lesser ++ equalities ++ greater.

Local Notation good D := (has (good_col lesser equalities greater D) (cols D zero)).

(** What real_full computes, sign vector by sign vector. *)
Lemma real_full_shape n s : sequence A n ps = Ok s ->
  let vf := var_frag A s in
  let ext w := real_extend A setiter (start s w) (nonconst_frag A s) in
  exists dnf b,
  [/\ real_full A setiter n lesser equalities greater = Ok (dnf, b),
      forall c, c \in dnf <-> vf <> [::] /\ exists w D, [/\ w \in words (size vf), ext w = Ok D, good D &
        c = clause_of vf (sig s w)] &
      b <-> exists w D, [/\ w \in words (size vf), ext w = Ok D & good D]].
Proof.
move=> Es vf ext; have [us srt sub cl _] := sequence_spec ok Es.
have sw w : w \in words (size vf) -> size w = size vf by rewrite mem_words => /andP[/eqP].
have shape w : w \in words (size vf) -> ext w = Err DiagramExc \/ exists D' prs',
    [/\ ext w = Ok D', rows D' =i s, sinv A D' prs' & forall q, q \in vf -> cell D' q 0 = Ok (sig s w q)].
  move=> hw; have as_ := start_assigned us (sw _ hw).
  have inv := assigned_sinv cl as_ (sig_zero s w).
  have rE : rows (start s w) =i constant_frag A s ++ [::] by move=> q; rewrite cats0; case: as_ => ->.
  have [E0|[D' [prs' [h1 h2 h3 h4]]]] := extend_shape cl srt us (done := [::]) erefl rE inv; first by left.
  right; exists D', prs'; split=> // q; rewrite mem_vf => /andP[hq _].
  by case: as_ => h5 h6; rewrite h4 ?h5 // h6.
rewrite /real_full -/ps -/(sequence A n ps) Es bind_ok -/(root_diagram s) r_full_words -/vf.
have [|out -> ho] := extend_allE (ds := [seq tabulate (root_diagram s) vf w | w <- words (size vf)]) (nonconst := nonconst_frag A s).
  move=> D /List.in_map_iff[w [<- /InP hw]].
  by have [h|[D' [_ [h _ _ _]]]] := shape w hw; [left|right; exists D'].
have hout D : List.In D out <-> exists2 w, w \in words (size vf) & ext w = Ok D.
  rewrite ho; split=> [[D1 /List.in_map_iff[w [<- /InP hw]] h]|[w hw h]]; first by exists w.
  by exists (start s w) => //; apply/List.in_map_iff; exists w; split=> //; exact/InP.
rewrite bind_ok (filterME (g := fun D => good D)); last first.
  move=> D /hout[w hw E]; have [|[D' [prs' [E' h2 h3 _]]]] := shape w hw; first by rewrite E.
  move: E'; rewrite E => -[ED]; subst D'; apply: good_realE => p hp c.
  have zr : zero \in rows D by rewrite h2; case: cl.
  have pr : p \in rows D by rewrite h2; exact: sub.
  by rewrite (sv_cols h3 zr) (sv_cols h3 pr).
rewrite bind_ok; set gd := filter _ _.
have hgd D : List.In D gd <-> exists w, [/\ w \in words (size vf), ext w = Ok D & good D].
  rewrite filter_In hout; split=> [[[w h1 h2] h3]|[w [h1 h2 h3]]]; first by exists w.
  by split=> //; exists w.
pose f D q : int := vd D q 0.
rewrite (mapM_ok (g := fun D => if vf is [::] then None else Some (clause_of vf (f D)))); last first.
  move=> D /hgd[w [hw E _]]; have [|[D' [prs' [E' _ _ h4]]]] := shape w hw; first by rewrite E.
  move: E'; rewrite E => -[ED]; subst D'; apply: real_clauseE => q hq.
  by rewrite /f /vd h4.
rewrite bind_ok; eexists _, _; split; first by [].
- move=> c; rewrite -[c \in _]/(c \in pmap id _); case: (eqVneq vf [::]) => [E0|n0].
    rewrite [X in pmap id X](_ : _ = nseq (size gd) None).
      by split=> [|[]//]; elim: (size gd).
    by rewrite E0; elim: (gd) => //= ? ? ->.
  rewrite [X in pmap id X](_ : _ = map Some (map (fun D => clause_of vf (f D)) gd)); last first.
    by rewrite -map_comp; apply: eq_map => D; case: (vf) n0.
  have -> : forall T (l : seq T), pmap id (map Some l) = l by move=> T; elim=> //= x l ->.
  have fE w D : w \in words (size vf) -> ext w = Ok D -> clause_of vf (f D) = clause_of vf (sig s w).
    move=> hw E; have [|[D' [prs' [E' _ _ h4]]]] := shape w hw; first by rewrite E.
    move: E'; rewrite E => -[ED]; subst D'.
    have eqf q : q \in vf -> f D q = sig s w q by move=> hq; rewrite /f /vd h4.
    by rewrite /clause_of; congr (_, _, _); apply: eq_in_filter => q /eqf->.
  split=> [/InP/List.in_map_iff[D [<- /hgd[w [h1 h2 h3]]]]|[_ [w [D [h1 h2 h3 ->]]]]].
    by split; [exact/eqP|exists w, D; split=> //; exact: fE].
  apply/InP/List.in_map_iff; exists D; rewrite (fE w) //; split=> //.
  by apply/hgd; exists w.
- have -> : (0 < size gd)%N <-> exists D, List.In D gd.
    by case: (gd) => [|D l]; split=> //; [case=> D []|exists D; left].
  split=> [[D /hgd[w [h1 h2 h3]]]|[w [D [h1 h2 h3]]]]; first by exists w, D.
  by exists D; apply/hgd; exists w.
Qed.

Section At.
Variables (R : rcfType) (ev : {rmorphism C -> R}).

Lemma table_sat s D : sign_table den ev s D -> zero \in s -> {subset ps <= s} ->
  good D <-> exists x, real_sat den ev lesser equalities greater x.
Proof.
move=> [cs [h1 h2 h3]] zs sub.
have vE c x q : (forall q, q \in s -> cell D q c = Ok (sgz (value den ev q x))) -> q \in s ->
    vd D q c = sgz (value den ev q x) by move=> h hq; exact: vd_ok (h q hq).
have sl p : p \in lesser -> p \in s by move=> h; apply: sub; rewrite !mem_cat h.
have se p : p \in equalities -> p \in s by move=> h; apply: sub; rewrite !mem_cat h orbT.
have sg p : p \in greater -> p \in s by move=> h; apply: sub; rewrite !mem_cat h !orbT.
have colE c x : (forall q, q \in s -> cell D q c = Ok (sgz (value den ev q x))) ->
    good_col lesser equalities greater D c <-> real_sat den ev lesser equalities greater x.
  move=> h; split=> [/and3P[/allP e /allP l /allP g]|[l e g]].
    split=> p hp; [have := l _ hp|have := e _ hp|have := g _ hp].
    - by rewrite (vE _ _ _ h (sl _ hp)); case: (sgzP (value den ev p x)).
    - by rewrite (vE _ _ _ h (se _ hp)) sgz_eq0 => /eqP.
    - by rewrite (vE _ _ _ h (sg _ hp)); case: (sgzP (value den ev p x)).
  apply/and3P; split; apply/allP => p hp.
  - by rewrite (vE _ _ _ h (se _ hp)) sgz_eq0 e.
  - by rewrite (vE _ _ _ h (sl _ hp)) ltr0_sgz // l.
  - by rewrite (vE _ _ _ h (sg _ hp)) gtr0_sgz // g.
split=> [/hasP[c hc gc]|[x sx]].
  by rewrite h1 // in hc; have [x hx] := h2 c hc; exists x; apply/(colE c x hx).
by have [c hc hx] := h3 x; apply/hasP; exists c; [rewrite h1|apply/(colE c x hx)].
Qed.

Hypothesis sok : sign_ok A den ev.

(** The sign vector of a parameter value. *)
Definition signs_at s := [seq sgz (cvalue den ev q) | q <- var_frag A s].

Lemma signs_at_word s : signs_at s \in words (size (var_frag A s)).
Proof.
rewrite mem_words size_map eqxx; apply/allP => v /mapP[q _ ->].
by case: (sgzP (cvalue den ev q)); rewrite !inE eqxx ?orbT.
Qed.

Definition matching s w := forall q, q \in constant_frag A s -> sig s w q = sgz (cvalue den ev q).

Lemma sca_sign s q : q \in constant_frag A s -> q \notin var_frag A s -> a_sign A q = sgz (cvalue den ev q).
Proof.
move=> hq; rewrite mem_vf hq /= => nv; apply: sok => //.
by move: hq; rewrite mem_const => /andP[].
Qed.

Lemma matching_signs s : uniq s -> matching s (signs_at s).
Proof.
move=> us q hq; rewrite /sig; case: ifP => [hv|/negbT]; last exact: sca_sign.
by rewrite (nth_map q) ?index_mem // nth_index.
Qed.

(** Extending the table of a matching vector. *)
Lemma extend_matching n s w : sequence A n ps = Ok s -> size w = size (var_frag A s) -> matching s w ->
  exists2 D, real_extend A setiter (start s w) (nonconst_frag A s) = Ok D & sign_table den ev s D.
Proof.
move=> Es sw m; have [us srt sub cl _] := sequence_spec ok Es.
have as_ := start_assigned us sw.
have inv := assigned_tinv cl as_ m.
have rE : rows (start s w) =i constant_frag A s ++ [::] by move=> q; rewrite cats0; case: as_ => ->.
have [D [prs [h1 h2 h3]]] := extend_sem cl srt us (done := [::]) erefl rE inv.
by exists D => //; exact: tinv_table h3 h2.
Qed.

Lemma clause_matching s w : w \in words (size (var_frag A s)) -> uniq s ->
  real_clause_holds den ev (clause_of (var_frag A s) (sig s w)) <-> matching s w.
Proof.
rewrite mem_words => /andP[/eqP sw /allP hw] us; split=> [[/= l e g] q hq|m].
  case hv: (q \in var_frag A s); last by rewrite /sig hv; apply: (sca_sign hq); rewrite hv.
  have : sig s w q \in [:: -1; 0; 1 : int].
    by rewrite /sig hv; apply/hw/mem_nth; rewrite sw index_mem.
  rewrite !inE => /or3P[]/eqP E.
  - by rewrite E ltr0_sgz //; apply: l; rewrite mem_filter E hv.
  - by rewrite E e ?sgz0 // mem_filter E hv.
  - by rewrite E gtr0_sgz //; apply: g; rewrite mem_filter E hv.
have vq q : q \in var_frag A s -> sig s w q = sgz (cvalue den ev q).
  by rewrite mem_vf => /andP[/m].
by split=> q /=; rewrite mem_filter => /andP[h /vq E]; move: h; rewrite E; case: (sgzP (cvalue den ev q)).
Qed.

Lemma real_full_correct n s dnf b : sequence A n ps = Ok s -> var_frag A s <> [::] ->
  real_full A setiter n lesser equalities greater = Ok (dnf, b) ->
  (exists x, real_sat den ev lesser equalities greater x) <->
  (exists2 c, c \in dnf & real_clause_holds den ev c).
Proof.
move=> Es nv Ef; have [dnf' [b' [Ef' hd _]]] := real_full_shape Es.
move: Ef'; rewrite Ef => -[E1 _]; subst dnf'; have [us srt sub [zs _ _ _] _] := sequence_spec ok Es.
split=> [sx|[c /hd[_ [w [D [hw hx gd ->]]]]]].
  have hw := signs_at_word s; have m := matching_signs us.
  have [|D Ex tb] := extend_matching Es _ m; first by rewrite size_map.
  exists (clause_of (var_frag A s) (sig s (signs_at s))); last exact/clause_matching.
  apply/hd; split=> //; exists (signs_at s), D; split=> //.
  exact/(table_sat tb zs sub).
move/(clause_matching hw us) => m.
have [|D' Ex tb] := extend_matching Es _ m; first by move: hw; rewrite mem_words => /andP[/eqP].
move: Ex; rewrite hx => -[E]; subst D'.
exact/(table_sat tb zs sub).
Qed.

(** Without parameters. *)
Lemma real_full_closed n s dnf b : sequence A n ps = Ok s -> var_frag A s = [::] ->
  real_full A setiter n lesser equalities greater = Ok (dnf, b) ->
  dnf = [::] /\ (b <-> exists x, real_sat den ev lesser equalities greater x).
Proof.
move=> Es nv Ef; have [dnf' [b' [Ef' hd hb]]] := real_full_shape Es.
move: Ef'; rewrite Ef => -[E1 E2]; subst dnf' b'; have [us srt sub [zs _ _ _] _] := sequence_spec ok Es.
split.
  by case: (dnf) hd => // c l /(_ c); rewrite mem_head => -[/(_ isT)[]].
have m := matching_signs us.
have [|D Ex tb] := extend_matching Es _ m; first by rewrite size_map.
rewrite -(table_sat tb zs sub) hb; split=> [[w [D' [hw Ex' g]]]|g].
  have E : w = signs_at s by move: hw; rewrite nv inE /signs_at nv => /eqP.
  by subst w; move: Ex'; rewrite Ex => -[->].
by exists (signs_at s), D; split=> //; exact: signs_at_word.
Qed.

(** The printed verdict is true of satisfiable problems. *)
Lemma real_full_verdict n s dnf b : sequence A n ps = Ok s ->
  real_full A setiter n lesser equalities greater = Ok (dnf, b) ->
  (exists x, real_sat den ev lesser equalities greater x) -> b.
Proof.
move=> Es Ef sx; have [dnf' [b' [Ef' _ hb]]] := real_full_shape Es.
move: Ef'; rewrite Ef => -[_ E2]; subst b'; have [us srt sub [zs _ _ _] _] := sequence_spec ok Es.
have m := matching_signs us.
have [|D Ex tb] := extend_matching Es _ m; first by rewrite size_map.
apply/hb; exists (signs_at s), D; split=> //; first exact: signs_at_word.
exact/(table_sat tb zs sub).
Qed.
End At.
End Full.
End Extend.
