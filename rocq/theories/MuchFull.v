(** The facts about muchnik.py in the form in which MuchProps states them. *)
From Coq Require Import ZArith.
From mathcomp Require Import all_ssreflect all_algebra all_real_closed.
From Verif Require Import Py VtsInst MuchModel MuchSpec MuchSeq MuchDiag MuchStep MuchSem MuchReal MuchInst.

Set Implicit Arguments.
Unset Strict Implicit.
Unset Printing Implicit Defensive.
Import GRing.Theory Num.Theory Order.TTheory.
Local Open Scope ring_scope.

Section Full.
Variables (P : eqType) (K : realDomainType) (A : algebra P K).
Variables (C : idomainType) (den : P -> {poly C}).
Hypothesis ok : algebra_contract A den.
Variable setiter : seq P -> seq P.
Hypothesis order : set_order setiter.

Lemma const_filter s : constant_frag A s = [seq p <- s | const den p].
Proof. by apply: eq_filter => p; rewrite (den_div ok). Qed.
Lemma nonconst_filter s : nonconst_frag A s = [seq p <- s | ~~ const den p].
Proof. by apply: eq_filter => p; rewrite (den_div ok). Qed.

Lemma parameters_frag n ps s : sequence A n ps = Ok s ->
  has_parameters A den ps <-> var_frag A s <> [::].
Proof.
move=> /(sequence_spec ok)[_ _ _ _ gen]; split=> [[p [g c h]] E|].
  have : p \in var_frag A s by rewrite /var_frag const_filter !mem_filter h c; apply/gen.
  by rewrite E.
case E: (var_frag A s) => [//|p l] _; exists p.
have : p \in var_frag A s by rewrite E mem_head.
by rewrite /var_frag const_filter !mem_filter => /and3P[h c /gen g].
Qed.

(** real_full finishes, with the same result from some fuel on. *)
Lemma real_full_ok lesser equalities greater :
  exists N dnf b s, forall n, (N <= n)%N ->
    real_full A setiter n lesser equalities greater = Ok (dnf, b) /\
    sequence A n (lesser ++ equalities ++ greater) = Ok s.
Proof.
have [s [N h]] := sequence_ok ok (lesser ++ equalities ++ greater).
have [dnf [b [E _ _]]] := real_full_shape ok order (h N (leqnn N)).
exists N, dnf, b, s => n le; have hn := h n le; split=> //.
by move: E; rewrite /real_full -!/(sequence A _ _) hn h.
Qed.

Lemma real_full_equivalent lesser equalities greater :
  has_parameters A den (lesser ++ equalities ++ greater) ->
  exists N dnf b,
    (forall n, (N <= n)%N -> real_full A setiter n lesser equalities greater = Ok (dnf, b)) /\
    forall (R : rcfType) (ev : {rmorphism C -> R}), sign_ok A den ev ->
      (exists x, real_sat den ev lesser equalities greater x) <->
      (exists2 c, c \in dnf & real_clause_holds den ev c).
Proof.
move=> hp; have [N [dnf [b [s h]]]] := real_full_ok lesser equalities greater.
exists N, dnf, b; split=> [n /h[]//|R ev sok]; have [E Es] := h N (leqnn N).
exact: (real_full_correct ok order sok Es (proj1 (parameters_frag Es) hp) E).
Qed.

Lemma real_full_decides lesser equalities greater :
  ~ has_parameters A den (lesser ++ equalities ++ greater) ->
  exists N b,
    (forall n, (N <= n)%N -> real_full A setiter n lesser equalities greater = Ok ([::], b)) /\
    forall (R : rcfType) (ev : {rmorphism C -> R}), sign_ok A den ev ->
      b <-> exists x, real_sat den ev lesser equalities greater x.
Proof.
move=> hp; have [N [dnf [b [s h]]]] := real_full_ok lesser equalities greater.
have [E Es] := h N (leqnn N).
have nv : var_frag A s = [::] by case V: (var_frag A s) => [//|p l]; case: hp; apply/(parameters_frag Es); rewrite V.
have d0 : dnf = [::].
  have [dnf' [b' [Ef' hd _]]] := real_full_shape ok order Es.
  move: Ef'; rewrite E => -[E1 _]; subst dnf'.
  by case: (dnf) hd => // c l /(_ c); rewrite mem_head nv => -[/(_ isT)[]].
exists N, b; subst dnf; split=> [n /h[]//|R ev sok].
by case: (real_full_closed ok order sok Es nv E).
Qed.

Lemma real_full_no_miss lesser equalities greater :
  exists N dnf b,
    (forall n, (N <= n)%N -> real_full A setiter n lesser equalities greater = Ok (dnf, b)) /\
    forall (R : rcfType) (ev : {rmorphism C -> R}), sign_ok A den ev ->
      (exists x, real_sat den ev lesser equalities greater x) -> b.
Proof.
have [N [dnf [b [s h]]]] := real_full_ok lesser equalities greater.
exists N, dnf, b; split=> [n /h[]//|R ev sok]; have [E Es] := h N (leqnn N).
exact: (real_full_verdict ok order sok Es E).
Qed.

(** muchnik_sequence. *)
Lemma sequence_closed ps : exists N s,
  (forall n, (N <= n)%N -> muchnik_sequence A n (sortedset (key_lt A) [:: a_zero A]) ps = Ok s) /\
  [/\ uniq s, {subset ps <= s}, closed_seq A den s & forall p, p \in s <-> generated A den ps p].
Proof.
have [s [N h]] := sequence_ok ok ps; exists N, s; split=> //.
by have [u _ i c g] := sequence_spec ok (h N (leqnn N)).
Qed.

(** real_extend on tables of constants. *)
Section Table.
Variables (s : seq P) (f : P -> int) (D : diagram P [eqType of rat]).
Hypotheses (cl : closed_seq A den s) (us : uniq s)
  (srt : sorted (fun p q => (a_degree A p <= a_degree A q)%N) s)
  (as_ : assigned [seq p <- s | const den p] f D).

Let rE : rows D =i constant_frag A s ++ [::].
Proof. by move=> q; rewrite cats0 const_filter; case: as_ => ->. Qed.

Lemma extend_realizable (R : rcfType) (ev : {rmorphism C -> R}) :
  (forall q, q \in s -> const den q -> f q = sgz (cvalue den ev q)) ->
  exists2 D', real_extend A setiter D [seq p <- s | ~~ const den p] = Ok D' & sign_table den ev s D'.
Proof.
move=> fE; rewrite -nonconst_filter; have as2 := as_; rewrite -const_filter in as2.
have inv : tinv A den ev D [:: (1 / 2%:R, 1)].
  apply: (assigned_tinv ok cl as2) => q; rewrite const_filter mem_filter => /andP[c qs]; exact: fE.
have [D' [prs [h1 h2 h3]]] := extend_sem ok order cl srt us (done := [::]) erefl rE inv.
by exists D' => //; exact: tinv_table h3 h2.
Qed.

Lemma extend_any : f (a_zero A) = 0 ->
  real_extend A setiter D [seq p <- s | ~~ const den p] = Err DiagramExc \/
  exists2 D', real_extend A setiter D [seq p <- s | ~~ const den p] = Ok D' & rows D' =i s.
Proof.
move=> f0; rewrite -nonconst_filter; have as2 := as_; rewrite -const_filter in as2.
have inv := assigned_sinv ok cl as2 f0.
by have [->|[D' [prs [h1 h2 _ _]]]] := extend_shape ok order cl srt us (done := [::]) erefl rE inv;
  [left|right; exists D'].
Qed.
End Table.
End Full.

(** *** Full assignments. *)
Section Branch.
Variables (P T : eqType) (f : diagram P T -> P -> int -> diagram P T) (vals : seq int) (cs : seq T).
Hypothesis uv : uniq vals.
Hypothesis cs0 : cs <> [::].
Hypothesis fE : forall D c v q x, cell (f D c v) q x = if (q == c) && (x \in cs) then Ok v else cell D q x.

Fixpoint branch (ds : seq (diagram P T)) (vf : seq P) :=
  if vf is c :: rest then branch (flatten [seq [seq f D c v | v <- vals] | D <- ds]) rest else ds.
Fixpoint vectors (n : nat) : seq (seq int) :=
  if n is n'.+1 then [seq v :: w | v <- vals, w <- vectors n'] else [:: [::]].
Definition fill D vf w := foldl (fun D x => f D x.1 x.2) D (zip vf w).

Lemma branch_flatten ds vf : branch ds vf = flatten [seq branch [:: D] vf | D <- ds].
Proof.
have cat xs ys : branch (xs ++ ys) vf = branch xs vf ++ branch ys vf.
  by elim: vf xs ys => //= c vf IH xs ys; rewrite map_cat flatten_cat IH.
elim: ds => [|D ds IH]; last by rewrite -cat1s cat IH.
by elim: (vf).
Qed.

Lemma branchE D vf : branch [:: D] vf = [seq fill D vf w | w <- vectors (size vf)].
Proof.
elim: vf D => [|c vf IH] D //=; rewrite cats0 branch_flatten map_allpairs -map_comp.
by congr flatten; apply: eq_map => v /=; rewrite IH; apply: eq_map.
Qed.

Lemma size_vectors n : size (vectors n) = (size vals ^ n)%N.
Proof. by elim: n => //= n IH; rewrite size_allpairs IH expnS. Qed.

Lemma vectorsP n w : w \in vectors n <-> vector vals n w.
Proof.
rewrite /vector; elim: n w => [|n IH] w.
  by rewrite inE; split=> [/eqP->|[/size0nil->]].
split=> [/allpairsP[[v u] [/= hv /IH[su hu] ->]]|].
  by split=> [|x]; rewrite /= ?su // inE => /orP[/eqP->|/hu].
case: w => [|v w] [//= [sw] h]; apply/allpairsP; exists (v, w); split=> //=; first by apply: h; rewrite mem_head.
by apply/IH; split=> // x hx; apply: h; rewrite inE hx orbT.
Qed.

Lemma uniq_vectors n : uniq (vectors n).
Proof. by elim: n => //= n IH; apply: allpairs_uniq => // -[? ?] [? ?] _ _ [-> ->]. Qed.

Lemma fillE D vf w : uniq vf -> size w = size vf -> assigns cs vf w D (fill D vf w).
Proof.
rewrite /fill; elim: vf w D => [|x vf IH] [|v w] D //= /andP[nx u] [sw] q c.
rewrite (IH w (f D x v) u sw) fE inE; case: (eqVneq q x) => [->|ne] /=.
  by rewrite (negbTE nx) eqxx.
by rewrite eq_sym (negbTE ne).
Qed.

Lemma assigns_inj (D D' : diagram P T) (vf : seq P) w w' : uniq vf -> size w = size vf -> size w' = size vf ->
  assigns cs vf w D D' -> assigns cs vf w' D D' -> w = w'.
Proof.
case E: cs cs0 => [//|c0 cs'] _ u sw sw' h h'; apply: (@eq_from_nth _ 0) => [|i]; first by rewrite sw.
rewrite sw => lt; case: vf => [|x0 vf] // in u sw sw' h h' lt *.
have := h (nth x0 (x0 :: vf) i) c0; rewrite h' mem_nth // mem_head index_uniq // [true && true]/andb.
by move=> -[].
Qed.

Lemma branch_vectors D vf : uniq vf -> one_per_vector vals cs vf D (branch [:: D] vf).
Proof.
move=> u; rewrite branchE; have sv w : w \in vectors (size vf) -> size w = size vf by move/vectorsP => [].
have nE i : (i < size (vectors (size vf)))%N -> let w := nth [::] (vectors (size vf)) i in
    [/\ vector vals (size vf) w, size w = size vf &
        assigns cs vf w D (nth [::] [seq fill D vf w | w <- vectors (size vf)] i)].
  move=> lt /=; have m := mem_nth [::] lt; split; [exact/vectorsP|exact: sv|].
  by rewrite (nth_map [::]) //; apply: fillE => //; exact: sv.
split; first by rewrite size_map size_vectors.
  by rewrite size_map => i /nE[h _ a]; exists (nth [::] (vectors (size vf)) i).
move=> w /vectorsP hw; exists (index w (vectors (size vf))); rewrite size_map index_mem hw.
have [|_ _ a] := nE (index w (vectors (size vf))); first by rewrite index_mem.
rewrite nth_index // in a; split=> // j lt h; have [_ s2 a2] := nE j lt.
rewrite (assigns_inj u (sv _ hw) s2 h a2) index_uniq //; exact: uniq_vectors.
Qed.
End Branch.

Lemma r_full_vectors (P : eqType) (D : diagram P [eqType of rat]) vf : uniq vf ->
  one_per_vector [:: -1; 0; 1] [:: 0; 1 / 2%:R; 1] vf D (r_full_assignment [:: D] vf).
Proof.
move=> u; have -> : r_full_assignment [:: D] vf = branch (@assign3 P) [:: -1; 0; 1] [:: D] vf.
  by elim: vf [:: D] {u} => //= c vf IH ds; rewrite IH.
by apply: branch_vectors => // D' c v q x; rewrite assign3E cell_put3.
Qed.

Lemma c_full_vectors (P : eqType) (D : diagram P [eqType of nat]) vf : uniq vf ->
  one_per_vector [:: 0; 1] [:: 0%N : [eqType of nat]] vf D (c_full_assignment [:: D] vf).
Proof.
move=> u; have -> : c_full_assignment [:: D] vf = branch (fun D c v => put (diagram_copy D) c 0%N v) [:: 0; 1] [:: D] vf.
  by elim: vf [:: D] {u} => //= c vf IH ds; rewrite IH.
by apply: branch_vectors => // D' c v q x; rewrite diagram_copyE cell_put inE.
Qed.
