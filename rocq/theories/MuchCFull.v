(** complex_full: from tables to the returned clauses. *)
From mathcomp Require Import all_ssreflect all_algebra all_real_closed.
From mathcomp.zify Require Import zify.
From Verif Require Import Py MuchModel MuchSpec MuchSeq MuchDiag MuchStep MuchSem MuchReal MuchFull MuchMult MuchCStep MuchCplx.

Set Implicit Arguments.
Unset Strict Implicit.
Unset Printing Implicit Defensive.
Import GRing.Theory Num.Theory Order.TTheory.
Local Open Scope ring_scope.

Section Full.
Variables (P : eqType) (K : realDomainType) (A : algebra P K).
Variables (C : idomainType) (den : P -> {poly C}).
Hypothesis ok : algebra_contract A den.
Variable setiter : seq P -> seq P.
Hypothesis order : set_order setiter.
Implicit Types (D : diagram P [eqType of nat]).

Local Notation zero := (a_zero A).
Local Notation cput := (fun D c v => put (diagram_copy D) c (0%N : [eqType of nat]) v).

(** *** The tables that complex_full starts from. *)
Section Start.
Variable s : seq P.
Hypothesis cl : closed_seq A den s.
Hypothesis us : uniq s.
Local Notation vf := (var_frag A s).

Definition csca q : int := if q == zero then 0 else 1.
Definition csig (w : seq int) q : int := if q \in vf then nth 0 w (index q vf) else csca q.
Definition cstart w : diagram P [eqType of nat] := fill cput (c_assignment_all_zero A (sca_frag A s)) vf w.

Lemma fold_put f l D :
  let D' := foldl (fun D c => put D c (0%N : [eqType of nat]) (f c)) D l in
  [/\ forall q c, cell D' q c = if (q \in l) && (c == 0%N) then Ok (f q) else cell D q c,
      rows D' =i l ++ rows D & wf D -> wf D'].
Proof.
elim: l D => [|x l IH] D //=; have [h1 h2 h3] := IH (put D x 0%N (f x)); split=> [q c|q|w].
- rewrite h1 cell_put inE; case: (eqVneq q x) => [->|] //=.
  by case: (x \in l); case: (c == 0%N).
- by rewrite h2 mem_cat rows_put !inE mem_cat orbCA.
- exact/h3/wf_put.
Qed.

Lemma fill_rows D l w : size w = size l -> rows (fill cput D l w) =i l ++ rows D.
Proof.
rewrite /fill; elim: l w D => [|x l IH] [|v w] D //= [sw] q.
by rewrite IH // mem_cat diagram_copyE rows_put !inE mem_cat orbCA.
Qed.

Lemma fill_wf D l w : wf D -> wf (fill cput D l w).
Proof.
rewrite /fill; elim: (zip l w) D => //= x xs IH D h; apply: IH; rewrite diagram_copyE.
exact: wf_put.
Qed.

Lemma cstart_assigned w : size w = size vf -> cassigned (constant_frag A s) (csig w) (cstart w).
Proof.
move=> sw; pose f c : int := if c == zero then 0 else if a_has_variable A c then 0 else 1.
have E : c_assignment_all_zero A (sca_frag A s) = foldl (fun D c => put D c 0%N (f c)) [::] (sca_frag A s).
  rewrite /c_assignment_all_zero; elim: (sca_frag A s) [::] => //= x l IH D; rewrite IH /f.
  by case: (x == zero); case: (a_has_variable A x).
have [h1 h2 h3] := fold_put f (sca_frag A s) [::]; rewrite -E in h1 h2 h3.
have h4 : assigns [:: 0%N : [eqType of nat]] vf w (c_assignment_all_zero A (sca_frag A s)) (cstart w).
  apply: fillE => // [D c v q x|]; last exact: uniq_vf.
  by rewrite diagram_copyE cell_put inE.
split.
- by move=> q; rewrite /cstart fill_rows // mem_cat h2 cats0 !mem_filter -andb_orl orbN.
- by apply: fill_wf; exact: h3.
move=> q c hq; rewrite h4 /csig inE; case hv: (q \in vf) => /=; last first.
  have /negbT nv := hv; rewrite mem_filter hq andbT in nv.
  by rewrite h1 mem_filter hq nv /f /csca (negbTE nv); case: (c == 0%N).
case: (eqVneq c 0%N) => // c0; rewrite h1 (negbTE c0) andbF //.
Qed.

Lemma cassigned_cinv f D : cassigned (constant_frag A s) f D -> f zero = 0 -> cinv A D 1.
Proof.
move=> [h1 h2 h3] f0; have zc := zero_const ok cl; split=> //.
- move=> q; rewrite h1 => hq c; rewrite mem_iota; apply/cols_cell/idP => [[v]|].
    by rewrite h3 //; case: c.
  by case: c => // _; exists (f q); rewrite h3.
- by rewrite h1 zc; split=> //; rewrite /vd h3 // eqxx.
- by case=> [|c].
Qed.

Lemma csig_zero w : csig w zero = 0.
Proof. by rewrite /csig mem_vf (negbTE (zero_scalar ok)) andbF /csca eqxx. Qed.

Variables (F : closedFieldType) (ev : {rmorphism C -> F}).

Lemma cassigned_csem f D : cassigned (constant_frag A s) f D ->
  (forall q, q \in constant_frag A s -> f q = nz (cvalue den ev q)) ->
  csem A den ev D 1 [::].
Proof.
move=> as_ fE; have [h1 h2 h3] := as_.
have qE q : q \in rows D -> map_poly ev (den q) = (cvalue den ev q)%:P.
  by rewrite h1 (mem_const ok) => /andP[_ /size1_polyC E]; rewrite {1}E map_polyC.
split=> //.
- apply: (cassigned_cinv as_); rewrite fE ?(zero_const ok cl) // /cvalue (den_zero ok) coef0 rmorph0 /nz eqxx //.
- move=> q hq; rewrite qE // /gen polyC_eq0 /vd h3 -?h1 //= fE -?h1 //.
- move=> q x hq; rewrite qE // polyC_eq0 hornerC => n0 E; by rewrite E eqxx in n0.
Qed.
End Start.

Definition good_ccol e i D c := all (fun p => vd D p c == 0) e && all (fun p => vd D p c == 1) i.

Lemma good_complexE e i D :
  (forall p, p \in e ++ i -> forall c, c \in cols D zero -> c \in cols D p) ->
  good_complex A e i D = Ok (has (good_ccol e i D) (cols D zero)).
Proof.
move=> h; rewrite /good_complex keep_all; last by move=> p hp; apply: h; rewrite mem_cat hp.
rewrite bind_ok keep_all; last first.
  by move=> p hp c; rewrite mem_filter => /andP[_]; apply: h; rewrite mem_cat hp orbT.
rewrite bind_ok -!filter_predI -has_predT has_filter filter_predT -has_filter; congr Ok; apply: eq_has => c /=.
by rewrite /good_ccol andbC.
Qed.

Definition cclause_of (vf : seq P) (f : P -> int) : seq P * seq P :=
  ([seq q <- vf | f q == 0], [seq q <- vf | f q != 0]).

Lemma complex_clauseE (vf : seq P) D f : (forall q, q \in vf -> cell D q 0%N = Ok (f q)) ->
  complex_clause vf D = Ok (if vf is [::] then None else Some (cclause_of vf f)).
Proof.
move=> h; rewrite /complex_clause (mapM_ok (g := fun q => (f q, q))); last first.
  by move=> q /InP hq; rewrite h.
have fE (b : int -> bool) : [seq x.2 | x <- [seq (f q, q) | q <- vf] & b x.1] = [seq q <- vf | b (f q)].
  by elim: (vf) => //= q l IH; case: ifP => _ /=; rewrite IH.
rewrite bind_ok (fE (fun v => v == 0)) (fE (fun v => v != 0)).
rewrite -/(cclause_of vf f); congr Ok.
case E: (vf) => [//|q l]; rewrite -E ifN // size_eq0; apply/eqP => h0.
have : q \in ([::] : seq P); last by [].
by rewrite -h0 !mem_cat !mem_filter {1 2}E mem_head !andbT orbN.
Qed.

Section Problem.
Variables equalities inequalities : seq P.
Let ps := equalities ++ inequalities.

Local Notation good D := (has (good_ccol equalities inequalities D) (cols D zero)).
Local Notation words := (vectors [:: 0; 1]).

Lemma c_full_words D vf : c_full_assignment [:: D] vf = [seq fill cput D vf w | w <- words (size vf)].
Proof.
rewrite -branchE; have -> : forall ds, c_full_assignment ds vf = branch cput [:: 0; 1] ds vf.
  by elim: vf => //= c vf IH ds; rewrite IH.
by [].
Qed.

Lemma complex_full_shape n s : sequence A n ps = Ok s ->
  let vf := var_frag A s in
  let ext w := complex_extend A setiter (cstart s w) (nonconst_frag A s) in
  exists dnf b,
  [/\ complex_full A setiter n equalities inequalities = Ok (dnf, b),
      forall c, c \in dnf <-> vf <> [::] /\ exists w D, [/\ w \in words (size vf), ext w = Ok D, good D &
        c = cclause_of vf (csig s w)] &
      b <-> exists w D, [/\ w \in words (size vf), ext w = Ok D & good D]].
Proof.
move=> Es vf ext; have [us srt sub cl _] := sequence_spec ok Es.
have sw w : w \in words (size vf) -> size w = size vf by move/vectorsP => [].
have shape w : w \in words (size vf) -> exists D' n',
    [/\ ext w = Ok D', rows D' =i s, cinv A D' n' & forall q, q \in vf -> cell D' q 0%N = Ok (csig s w q)].
  move=> hw; have as_ := cstart_assigned us (sw _ hw).
  have inv := cassigned_cinv cl as_ (csig_zero s w).
  have [h5 h6 h7] := as_.
  have rE : rows (cstart s w) =i constant_frag A s ++ [::] by move=> q; rewrite cats0.
  have [D' [n' [h1 h2 h3 h4]]] := cextend_shape ok order cl srt us (done := [::]) erefl rE inv.
  exists D', n'; split=> // q; rewrite mem_vf => /andP[hq _].
  by rewrite h4 ?h5 // h7.
rewrite /complex_full -/ps -/(sequence A n ps) Es bind_ok c_full_words -/vf.
pose exd w := if ext w is Ok D then D else [::].
have -> : mapM (fun D => complex_extend A setiter D (nonconst_frag A s))
     [seq fill cput (c_assignment_all_zero A (sca_frag A s)) vf w | w <- words (size vf)] =
     Ok [seq exd w | w <- words (size vf)].
  have: {subset words (size vf) <= words (size vf)} by [].
  elim: {1 3 4}(words (size vf)) => //= w l IH sb.
  have hw : w \in words (size vf) by apply: sb; rewrite mem_head.
  have [D' [n' [E _ _ _]]] := shape w hw.
  rewrite -/(cstart s w) -/(ext w) /exd E bind_ok IH ?bind_ok //.
  by move=> v hv; apply: sb; rewrite inE hv orbT.
set out := map _ _.
have hout D : List.In D out <-> exists2 w, w \in words (size vf) & ext w = Ok D.
  split=> [/List.in_map_iff[w [<- /InP hw]]|[w hw h]].
    by exists w => //; rewrite /exd; have [D' [n' [-> _ _ _]]] := shape w hw.
  by apply/List.in_map_iff; exists w; split; [rewrite /exd h|exact/InP].
rewrite bind_ok (filterME (g := fun D => good D)); last first.
  move=> D /hout[w hw E]; have [D' [n' [E' h2 h3 _]]] := shape w hw.
  move: E'; rewrite E => -[ED]; subst D'; apply: good_complexE => p hp c.
  have zr : zero \in rows D by rewrite h2; case: cl.
  have pr : p \in rows D by rewrite h2; exact: sub.
  by rewrite (cv_cols h3 zr) (cv_cols h3 pr).
rewrite bind_ok; set gd := filter _ _.
have hgd D : List.In D gd <-> exists w, [/\ w \in words (size vf), ext w = Ok D & good D].
  rewrite filter_In hout; split=> [[[w h1 h2] h3]|[w [h1 h2 h3]]]; first by exists w.
  by split=> //; exists w.
pose f D q : int := vd D q 0%N.
rewrite (mapM_ok (g := fun D => if vf is [::] then None else Some (cclause_of vf (f D)))); last first.
  move=> D /hgd[w [hw E _]]; have [D' [n' [E' _ _ h4]]] := shape w hw.
  move: E'; rewrite E => -[ED]; subst D'; apply: complex_clauseE => q hq.
  by rewrite /f /vd h4.
rewrite bind_ok; eexists _, _; split; first by [].
- move=> c; rewrite -[c \in _]/(c \in pmap id _); case: (eqVneq vf [::]) => [E0|n0].
    rewrite [X in pmap id X](_ : _ = nseq (size gd) None).
      by split=> [|[]//]; elim: (size gd).
    by rewrite E0; elim: (gd) => //= ? ? ->.
  rewrite [X in pmap id X](_ : _ = map Some (map (fun D => cclause_of vf (f D)) gd)); last first.
    by rewrite -map_comp; apply: eq_map => D; case: (vf) n0.
  have -> : forall T (l : seq T), pmap id (map Some l) = l by move=> T; elim=> //= x l ->.
  have fE w D : w \in words (size vf) -> ext w = Ok D -> cclause_of vf (f D) = cclause_of vf (csig s w).
    move=> hw E; have [D' [n' [E' _ _ h4]]] := shape w hw.
    move: E'; rewrite E => -[ED]; subst D'.
    have eqf q : q \in vf -> f D q = csig s w q by move=> hq; rewrite /f /vd h4.
    by rewrite /cclause_of; congr (_, _); apply: eq_in_filter => q /eqf->.
  split=> [/InP/List.in_map_iff[D [<- /hgd[w [h1 h2 h3]]]]|[_ [w [D [h1 h2 h3 ->]]]]].
    by split; [exact/eqP|exists w, D; split=> //; exact: fE].
  apply/InP/List.in_map_iff; exists D; rewrite (fE w) //; split=> //.
  by apply/hgd; exists w.
- have -> : (0 < size gd)%N <-> exists D, List.In D gd.
    by case: (gd) => [|D l]; split=> //; [case=> D []|exists D; left].
  split=> [[D /hgd[w [h1 h2 h3]]]|[w [D [h1 h2 h3]]]]; first by exists w, D.
  by exists D; apply/hgd; exists w.
Qed.

Section At.
Variables (F : closedFieldType) (ev : {rmorphism C -> F}).
Hypothesis char0 : [char F] =i pred0.

Lemma ctable_sat s D : zero_table den ev s D -> zero \in s -> {subset ps <= s} ->
  good D <-> exists x, complex_sat den ev equalities inequalities x.
Proof.
move=> [cs [h1 h2 h3]] zs sub.
have vE c x q : (forall q, q \in s -> cell D q c = Ok (nz (value den ev q x))) -> q \in s ->
    vd D q c = nz (value den ev q x) by move=> h hq; exact: vd_ok (h q hq).
have se p : p \in equalities -> p \in s by move=> h; apply: sub; rewrite !mem_cat h.
have si p : p \in inequalities -> p \in s by move=> h; apply: sub; rewrite !mem_cat h orbT.
have colE c x : (forall q, q \in s -> cell D q c = Ok (nz (value den ev q x))) ->
    good_ccol equalities inequalities D c <-> complex_sat den ev equalities inequalities x.
  move=> h; split=> [/andP[/allP e /allP i]|[e i]].
    split=> p hp; [have := e _ hp|have := i _ hp].
    - by rewrite (vE _ _ _ h (se _ hp)) nz_eq0 => /eqP.
    - by rewrite (vE _ _ _ h (si _ hp)) /nz; case: (eqVneq (value den ev p x) 0) => // /eqP.
  apply/andP; split; apply/allP => p hp.
  - by rewrite (vE _ _ _ h (se _ hp)) nz_eq0 e.
  - by rewrite (vE _ _ _ h (si _ hp)) /nz; case: (eqVneq (value den ev p x) 0) => // /(i p hp).
split=> [/hasP[c hc gc]|[x sx]].
  by rewrite h1 // in hc; have [x hx] := h2 c hc; exists x; apply/(colE c x hx).
by have [c hc hx] := h3 x; apply/hasP; exists c; [rewrite h1|apply/(colE c x hx)].
Qed.

Hypothesis sok : scalars_ok A den ev.

Definition zeros_at s := [seq nz (cvalue den ev q) | q <- var_frag A s].

Lemma zeros_at_word s : zeros_at s \in words (size (var_frag A s)).
Proof.
apply/vectorsP; split; first by rewrite size_map.
by move=> v /mapP[q _ ->]; rewrite /nz !inE; case: (cvalue den ev q == 0).
Qed.

Definition cmatching s w := forall q, q \in constant_frag A s -> csig s w q = nz (cvalue den ev q).

Lemma sca_nz s q : q \in constant_frag A s -> q \notin var_frag A s -> csca q = nz (cvalue den ev q).
Proof.
move=> hq; rewrite mem_vf hq /= => nv; rewrite /csca /nz; case: (eqVneq q zero) => [->|q0].
  by rewrite /cvalue (den_zero ok) coef0 rmorph0 eqxx.
rewrite ifN //; apply: sok => //; last by rewrite (den_eq0 ok).
by move: hq; rewrite (mem_const ok) => /andP[].
Qed.

Lemma cmatching_zeros s : uniq s -> cmatching s (zeros_at s).
Proof.
move=> us q hq; rewrite /csig; case: ifP => [hv|/negbT]; last exact: sca_nz.
by rewrite (nth_map q) ?index_mem // nth_index.
Qed.

Lemma cextend_matching n s w : sequence A n ps = Ok s -> size w = size (var_frag A s) -> cmatching s w ->
  exists2 D, complex_extend A setiter (cstart s w) (nonconst_frag A s) = Ok D & zero_table den ev s D.
Proof.
move=> Es sw m; have [us srt sub cl _] := sequence_spec ok Es.
have as_ := cstart_assigned us sw.
have inv := cassigned_csem cl as_ m.
have rE : rows (cstart s w) =i constant_frag A s ++ [::] by move=> q; rewrite cats0; case: as_ => ->.
have [D [n' [xs [h1 h2 h3]]]] := cextend_sem ok order cl srt us char0 (done := [::]) erefl rE inv.
by exists D => //; exact: csem_table h3 h2.
Qed.

Lemma cclause_matching s w : w \in words (size (var_frag A s)) -> uniq s ->
  complex_clause_holds den ev (cclause_of (var_frag A s) (csig s w)) <-> cmatching s w.
Proof.
move=> /vectorsP[sw hw] us; split=> [[/= e i] q hq|m].
  case hv: (q \in var_frag A s); last by rewrite /csig hv; apply: (sca_nz hq); rewrite hv.
  have : csig s w q \in [:: 0; 1 : int].
    by rewrite /csig hv; apply/hw/mem_nth; rewrite sw index_mem.
  rewrite !inE => /orP[]/eqP E; rewrite E /nz.
  - by rewrite e ?eqxx // mem_filter E hv.
  - by case: eqP => // /i; rewrite mem_filter E hv => /(_ isT).
have vq q : q \in var_frag A s -> csig s w q = nz (cvalue den ev q).
  by rewrite mem_vf => /andP[/m].
by split=> q /=; rewrite mem_filter => /andP[h /vq E]; move: h; rewrite E nz_eq0; move/eqP.
Qed.

Lemma complex_full_correct n s dnf b : sequence A n ps = Ok s -> var_frag A s <> [::] ->
  complex_full A setiter n equalities inequalities = Ok (dnf, b) ->
  (exists x, complex_sat den ev equalities inequalities x) <->
  (exists2 c, c \in dnf & complex_clause_holds den ev c).
Proof.
move=> Es nv Ef; have [dnf' [b' [Ef' hd _]]] := complex_full_shape Es.
move: Ef'; rewrite Ef => -[E1 _]; subst dnf'; have [us srt sub [zs _ _ _] _] := sequence_spec ok Es.
split=> [sx|[c /hd[_ [w [D [hw hx gd ->]]]]]].
  have hw := zeros_at_word s; have m := cmatching_zeros us.
  have [|D Ex tb] := cextend_matching Es _ m; first by rewrite size_map.
  exists (cclause_of (var_frag A s) (csig s (zeros_at s))); last exact/cclause_matching.
  apply/hd; split=> //; exists (zeros_at s), D; split=> //.
  exact/(ctable_sat tb zs sub).
move/(cclause_matching hw us) => m.
have [|D' Ex tb] := cextend_matching Es _ m; first by case/vectorsP: hw.
move: Ex; rewrite hx => -[E]; subst D'.
exact/(ctable_sat tb zs sub).
Qed.

Lemma complex_full_closed n s dnf b : sequence A n ps = Ok s -> var_frag A s = [::] ->
  complex_full A setiter n equalities inequalities = Ok (dnf, b) ->
  b <-> exists x, complex_sat den ev equalities inequalities x.
Proof.
move=> Es nv Ef; have [dnf' [b' [Ef' hd hb]]] := complex_full_shape Es.
move: Ef'; rewrite Ef => -[E1 E2]; subst dnf' b'; have [us srt sub [zs _ _ _] _] := sequence_spec ok Es.
have m := cmatching_zeros us.
have [|D Ex tb] := cextend_matching Es _ m; first by rewrite size_map.
rewrite -(ctable_sat tb zs sub) hb; split=> [[w [D' [hw Ex' g]]]|g].
  have E : w = zeros_at s by move: hw; rewrite nv inE /zeros_at nv => /eqP.
  by subst w; move: Ex'; rewrite Ex => -[->].
by exists (zeros_at s), D; split=> //; exact: zeros_at_word.
Qed.

Lemma complex_full_verdict n s dnf b : sequence A n ps = Ok s ->
  complex_full A setiter n equalities inequalities = Ok (dnf, b) ->
  (exists x, complex_sat den ev equalities inequalities x) -> b.
Proof.
move=> Es Ef sx; have [dnf' [b' [Ef' _ hb]]] := complex_full_shape Es.
move: Ef'; rewrite Ef => -[_ E2]; subst b'; have [us srt sub [zs _ _ _] _] := sequence_spec ok Es.
have m := cmatching_zeros us.
have [|D Ex tb] := cextend_matching Es _ m; first by rewrite size_map.
apply/hb; exists (zeros_at s), D; split=> //; first exact: zeros_at_word.
exact/(ctable_sat tb zs sub).
Qed.
End At.

(** *** As MuchProps states it. *)
Lemma complex_full_ok : exists N dnf b s, forall n, (N <= n)%N ->
    complex_full A setiter n equalities inequalities = Ok (dnf, b) /\ sequence A n ps = Ok s.
Proof.
have [s [N h]] := sequence_ok ok ps.
have [dnf [b [E _ _]]] := complex_full_shape (h N (leqnn N)).
exists N, dnf, b, s => n le; have hn := h n le; split=> //.
by move: E; rewrite /complex_full -!/(sequence A _ _) hn h.
Qed.

Lemma complex_full_equivalent : has_parameters A den (equalities ++ inequalities) ->
  exists N dnf b,
    (forall n, (N <= n)%N -> complex_full A setiter n equalities inequalities = Ok (dnf, b)) /\
    forall (F : closedFieldType) (ev : {rmorphism C -> F}), [char F] =i pred0 -> scalars_ok A den ev ->
      (exists x, complex_sat den ev equalities inequalities x) <->
      (exists2 c, c \in dnf & complex_clause_holds den ev c).
Proof.
move=> hp; have [N [dnf [b [s h]]]] := complex_full_ok.
exists N, dnf, b; split=> [n /h[]//|F ev char0 sok]; have [E Es] := h N (leqnn N).
exact: (complex_full_correct char0 sok Es (proj1 (parameters_frag ok Es) hp) E).
Qed.

Lemma complex_full_decides : ~ has_parameters A den (equalities ++ inequalities) ->
  exists N b,
    (forall n, (N <= n)%N -> complex_full A setiter n equalities inequalities = Ok ([::], b)) /\
    forall (F : closedFieldType) (ev : {rmorphism C -> F}), [char F] =i pred0 -> scalars_ok A den ev ->
      b <-> exists x, complex_sat den ev equalities inequalities x.
Proof.
move=> hp; have [N [dnf [b [s h]]]] := complex_full_ok.
have [E Es] := h N (leqnn N).
have nv : var_frag A s = [::] by case V: (var_frag A s) => [//|p l]; case: hp; apply/(parameters_frag ok Es); rewrite V.
have d0 : dnf = [::].
  have [dnf' [b' [Ef' hd _]]] := complex_full_shape Es.
  move: Ef'; rewrite E => -[E1 _]; subst dnf'.
  by case: (dnf) hd => // c l /(_ c); rewrite mem_head nv => -[/(_ isT)[]].
exists N, b; subst dnf; split=> [n /h[]//|F ev char0 sok].
exact: (complex_full_closed char0 sok Es nv E).
Qed.

Lemma complex_full_no_miss : exists N dnf b,
    (forall n, (N <= n)%N -> complex_full A setiter n equalities inequalities = Ok (dnf, b)) /\
    forall (F : closedFieldType) (ev : {rmorphism C -> F}), [char F] =i pred0 -> scalars_ok A den ev ->
      (exists x, complex_sat den ev equalities inequalities x) -> b.
Proof.
have [N [dnf [b [s h]]]] := complex_full_ok.
exists N, dnf, b; split=> [n /h[]//|F ev char0 sok]; have [E Es] := h N (leqnn N).
exact: (complex_full_verdict char0 sok Es E).
Qed.
End Problem.

(** complex_extend on tables of constants. *)
Section Table.
Variables (s : seq P) (f : P -> int) (D : diagram P [eqType of nat]).
Hypotheses (cl : closed_seq A den s) (us : uniq s)
  (srt : sorted (fun p q => (a_degree A p <= a_degree A q)%N) s)
  (as_ : cassigned [seq p <- s | const den p] f D).

Let rE : rows D =i constant_frag A s ++ [::].
Proof. by move=> q; rewrite cats0 (const_filter ok); case: as_ => ->. Qed.

Lemma cextend_realizable (F : closedFieldType) (ev : {rmorphism C -> F}) : [char F] =i pred0 ->
  (forall q, q \in s -> const den q -> f q = nz (cvalue den ev q)) ->
  exists2 D', complex_extend A setiter D [seq p <- s | ~~ const den p] = Ok D' & zero_table den ev s D'.
Proof.
move=> char0 fE; rewrite -(nonconst_filter ok); have as2 := as_; rewrite -(const_filter ok) in as2.
have inv : csem A den ev D 1 [::].
  apply: (cassigned_csem cl as2) => q; rewrite (const_filter ok) mem_filter => /andP[c qs]; exact: fE.
have [D' [n [xs [h1 h2 h3]]]] := cextend_sem ok order cl srt us char0 (done := [::]) erefl rE inv.
by exists D' => //; exact: csem_table h3 h2.
Qed.

Lemma cextend_any : f (a_zero A) = 0 ->
  exists2 D', complex_extend A setiter D [seq p <- s | ~~ const den p] = Ok D' & rows D' =i s.
Proof.
move=> f0; rewrite -(nonconst_filter ok); have as2 := as_; rewrite -(const_filter ok) in as2.
have inv := cassigned_cinv cl as2 f0.
by have [D' [n [h1 h2 _ _]]] := cextend_shape ok order cl srt us (done := [::]) erefl rE inv; exists D'.
Qed.
End Table.
End Full.
