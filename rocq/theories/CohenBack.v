(** table_map_back: the rows of the reduced polynomials serve the polynomials
    that were reduced to them. *)
From mathcomp Require Import all_ssreflect all_algebra all_real_closed.
From mathcomp.zify Require Import zify.
From Coq Require Import String.
From Verif Require Import Py MuchModel MuchSpec MuchSeq MuchDiag MuchStep MuchRoot MuchSem.
From Verif Require Import CohenModel CohenSpec CohenExp CohenCopy CohenSem CohenExt CohenStep.

Set Implicit Arguments.
Unset Strict Implicit.
Unset Printing Implicit Defensive.
Import GRing.Theory Num.Theory Order.TTheory.
Local Open Scope ring_scope.

Section Back.
Variables (P : eqType) (K : realDomainType) (A : algebra P K).
Variables (C : idomainType) (den : P -> {poly C}).
Hypothesis ok : algebra_contract A den.
Variable setiter : seq P -> seq P.
Hypothesis order : set_order setiter.
Notation table := (diagram P [eqType of rat]).
Implicit Types (D T : table) (con : context P) (p q k : P).

Local Notation zero := (a_zero A).
Local Notation sz p := (size (den p)).

Definition target (M : dict P P) (needed : seq P) k : P :=
  if k \in needed then (if dget M k is Ok q then q else k) else k.

Section One.
Variables (T : table) (M : dict P P).

Lemma back_loop l ret pset : (forall k, k \in l -> exists2 q, dget M k = Ok q & q \in rows T) ->
  exists ret', [/\ foldM (fun st pol =>
    let: (ret, pset) := st in
    if ~~ dmem M pol then Err (Exc "doesn't have a key"%string)
    else
      let! q := dget M pol in
      let! r := dget T q in
      Ok (dset ret pol r, [seq p <- pset | p != pol])) (ret, pset) l
      = Ok (ret', [seq p <- pset | p \notin l]),
    rows ret' =i l ++ rows ret &
    forall k, row ret' k = if k \in l then row T (target M l k) else row ret k].
Proof.
elim: l ret pset => [|k l IH] ret pset h; first by exists ret; split=> //=; rewrite filter_predT.
have [q Eq hq] := h k (mem_head _ _).
have := dget_keys T q; rewrite -/(rows T) hq => -[r Er].
rewrite foldM_cons (dget_mem Eq) Eq /= Er /=.
have [|ret' [-> rE cE]] := IH (dset ret k r) [seq p <- pset | p != k].
  by move=> j hj; apply: h; rewrite inE hj orbT.
exists ret'; split.
- by rewrite -filter_predI; congr (Ok (_, _)); apply: eq_filter => p /=; rewrite inE negb_or andbC.
- by move=> j; rewrite rE mem_cat keys_dset !inE mem_cat orbCA orbA.
- move=> j; rewrite cE /target inE; case: (eqVneq j k) => [->|ne] /=.
    by case: (k \in l); rewrite /row ?dget_dset ?eqxx Eq Er.
  by case: (j \in l) => //; rewrite /row dget_dset (negbTE ne).
Qed.

Lemma rest_loop l ret : {subset l <= rows T} -> exists ret',
  [/\ foldM (fun ret pol => let! r := dget T pol in Ok (dset ret pol r)) ret l = Ok ret',
      rows ret' =i l ++ rows ret & forall k, row ret' k = if k \in l then row T k else row ret k].
Proof.
elim: l ret => [|k l IH] ret h; first by exists ret.
have := dget_keys T k; rewrite -/(rows T) h ?mem_head // => -[r Er].
rewrite foldM_cons Er /=; have [|ret' [-> rE cE]] := IH (dset ret k r).
  by move=> j hj; apply: h; rewrite inE hj orbT.
exists ret'; split=> //.
- by move=> j; rewrite rE mem_cat keys_dset !inE mem_cat orbCA orbA.
- move=> j; rewrite cE inE; case: (eqVneq j k) => [->|ne] /=.
    by case: (k \in l) => //; rewrite /row dget_dset eqxx Er.
  by case: (j \in l) => //; rewrite /row dget_dset (negbTE ne).
Qed.

Lemma map_backE needed : (forall k, k \in needed -> exists2 q, dget M k = Ok q & q \in rows T) ->
  exists2 mb, table_map_back setiter T needed M = Ok mb &
    rows mb =i needed ++ rows T /\ forall k c, cell mb k c = cell T (target M needed k) c.
Proof.
move=> h; rewrite /table_map_back; have [r1 [-> rE cE]] := back_loop [::] (rows T) h.
rewrite bind_ok; have mS := perm_mem (order [seq p <- rows T | p \notin needed]).
have [|r2 [-> rE2 cE2]] := rest_loop (l := setiter [seq p <- rows T | p \notin needed]) r1.
  by move=> k; rewrite mS mem_filter => /andP[].
exists r2 => //; split=> [k|k c].
  by rewrite rE2 !mem_cat mS rE mem_filter mem_cat orbF; case: (k \in needed); rewrite ?orbF ?orbT.
rewrite /cell cE2 mS mem_filter cE {1}/target.
case kn: (k \in needed) => /=; first by rewrite /target kn.
rewrite /target kn; case kT: (k \in rows T) => //; rewrite /row.
by have := dget_keys T k; rewrite -/(rows T) kT => ->.
Qed.
End One.

(** Renaming the rows of a table. *)
Section Remap.
Variables (T mb : table) (prs : seq (rat * rat)) (f : P -> P).
Hypothesis f_rows : forall k, k \in rows mb -> f k \in rows T.
Hypothesis f_size : forall k, k \in rows mb -> (sz (f k) <= sz k)%N.
Hypothesis f_cell : forall k c, k \in rows mb -> cell mb k c = cell T (f k) c.

Lemma remap_vd k c : k \in rows mb -> vd mb k c = vd T (f k) c.
Proof. by move=> hk; rewrite /vd f_cell. Qed.

Lemma deg_size p q : (sz q <= sz p)%N -> deg A p <= 0 -> deg A q <= 0.
Proof.
move=> h /(deg_const ok); rewrite /const => h1; rewrite /deg; case: eqP => // _.
by rewrite lez_nat leqn0 (den_degree ok); have := leq_trans h h1; case: (sz q) => [|[]].
Qed.

Lemma remap_shape : shape A T prs -> shape A mb prs.
Proof.
move=> sh; split; [|exact: sh_path sh|exact: sh_nil sh|exact: sh_last sh| | |].
- move=> q hq c; rewrite -(sh_cols sh (f_rows hq)); apply: cols_eq => d; exact: f_cell.
- move=> c hc; apply/hasPn => q hq; rewrite /isroot !remap_vd //.
  by have /hasPn/(_ _ (f_rows hq)) := sh_int sh hc.
- move=> q c hq le hc; rewrite !remap_vd //; apply: (sh_const sh) => //; first exact: f_rows.
  exact: deg_size (f_size hq) le.
- by move=> q c hq; rewrite remap_vd //; apply: (sh_sgn sh); exact: f_rows.
Qed.

Lemma remap_tok (R : rcfType) (ev : {rmorphism C -> R}) xs :
  (forall k, k \in rows mb -> map_poly ev (den k) = map_poly ev (den (f k))) ->
  tok den ev T prs xs -> tok den ev mb prs xs.
Proof.
move=> fE tk; split.
- move: (tk_sem tk); apply: sem_extin => c y hc d q hq.
  by rewrite (remap_vd _ hq) (d _ (f_rows hq)) (fE _ hq).
- by move=> q hq; rewrite (remap_vd _ hq) (tk_minf tk (f_rows hq)) (fE _ hq).
- by move=> q hq; rewrite (remap_vd _ hq) (tk_pinf tk (f_rows hq)) (fE _ hq).
Qed.
End Remap.
End Back.
