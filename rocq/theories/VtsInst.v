(** A concrete instance of everything the uni_vts theorems are parametric in:
    integer coefficients, real algebraic points, exact roots and the matrix
    inverse of mathcomp.  Used by the examples of VtsProps. *)
From mathcomp Require Import all_ssreflect all_algebra.
From mathcomp.real_closed Require Import polyrcf realalg.
From Verif Require Import Py VtsModel VtsPoly VtsTaq VtsMain VtsSpec VtsBridge.

Set Implicit Arguments.
Unset Strict Implicit.
Unset Printing Implicit Defensive.
Import GRing.Theory Num.Theory.
Local Open Scope ring_scope.

Definition RA : rcfType := [rcfType of realalg].
Definition injZ : {rmorphism int -> RA} := [rmorphism of (fun n : int => n%:~R : RA)].
Lemma injZ_lt : {mono injZ : x y / x < y}.
Proof. exact: ltr_int. Qed.

Definition strZ (n : int) : int := n.
Lemma strZ_inj : injective strZ. Proof. by []. Qed.

Definition rootsZ (p : seq int) : res (seq RA) := Ok (rootsR (den injZ p)).
Lemma rootsZ_contract : MkRoots_contract injZ rootsZ.
Proof. by move=> p wp; exists (rootsR (den injZ p)) => //; exact: (rootsR_lists injZ_lt). Qed.

Definition invQ (M : seq (seq rat)) : seq (seq rat) :=
  let I := invmx (mx_of (size M) M) in
  [seq [seq I i j | j <- enum 'I_(size M)] | i <- enum 'I_(size M)].
Lemma invQ_contract : inv_contract invQ.
Proof.
move=> n M /andP[/eqP <- _] {n} U; split.
  rewrite /square_list size_map size_enum_ord eqxx; apply/allP => r /mapP[i _ ->].
  by rewrite size_map size_enum_ord.
apply/matrixP => i j; rewrite !mxE /invQ.
by rewrite (nth_map i) ?size_enum_ord // (nth_map j) ?size_enum_ord // !nth_ord_enum.
Qed.

Lemma valueZ p (n : int) : value injZ p n%:~R = (foldr (fun c s => c + s * n) 0 p)%:~R.
Proof.
elim: p => [|c p IH]; first by rewrite value_nil.
by rewrite value_cons IH [foldr _ _ _]/= intrD intrM.
Qed.

Lemma valueZ_le0 p (n : int) : (value injZ p n%:~R <= 0) = (foldr (fun c s => c + s * n) 0 p <= 0).
Proof. by rewrite valueZ lerz0. Qed.
Lemma valueZ_lt0 p (n : int) : (value injZ p n%:~R < 0) = (foldr (fun c s => c + s * n) 0 p < 0).
Proof. by rewrite valueZ ltrz0. Qed.

Definition vtsZ := internal_vts injZ strZ rootsZ invQ.

Lemma vtsZ_true le lt eq ne x : all (@wf _) (le ++ lt ++ eq ++ ne) ->
  all (fun p => size p <= 6)%N (le ++ lt ++ eq ++ ne) ->
  satisfies injZ le lt eq ne x -> vtsZ le lt eq ne = Ok true.
Proof.
rewrite /vtsZ => W S h; have [b hb] := internal_vts_result injZ_lt strZ_inj invQ_contract rootsZ_contract W.
case=> [->|[_ [p /(allP S)]]]; last by rewrite leqNgt => /negP.
by congr Ok; apply/hb; exists x.
Qed.

Lemma vtsZ_false le lt eq ne : all (@wf _) (le ++ lt ++ eq ++ ne) ->
  all (fun p => size p <= 6)%N (le ++ lt ++ eq ++ ne) ->
  (forall x, ~ satisfies injZ le lt eq ne x) -> vtsZ le lt eq ne = Ok false.
Proof.
rewrite /vtsZ => W S h; have [b hb] := internal_vts_result injZ_lt strZ_inj invQ_contract rootsZ_contract W.
case=> [->|[_ [p /(allP S)]]]; last by rewrite leqNgt => /negP.
by congr Ok; apply/negbTE/negP => /hb[x /h].
Qed.


Lemma internal_ts_wrong :
  exists le lt eq ne : seq (seq int),
  all (@wf _) (le ++ lt ++ eq ++ ne) /\
  (exists x, satisfies injZ le lt eq ne x) /\
  forall eps neg_inv_eps,
  internal_ts injZ rootsZ eps neg_inv_eps le lt eq ne = Ok false.
Proof.
exists [::], [::], [:: [:: 0; 1]], [::]; split=> //; split.
  exists 0; split=> // p; rewrite inE => /eqP->.
  by rewrite !value_cons !mulr0 rmorph0 addr0.
by move=> e n; rewrite internal_ts_behaviour //; exact: rootsZ_contract.
Qed.

(** An instance that computes: integer points, integer roots searched in
    [-10, 10), the inverse built from the 3x3 inverse. *)
From mathcomp.zify Require Import ssrZ.
From Coq Require Import ZArith.
Definition inv3 : rmatrix :=
  [:: [:: 1; 0; -1]; [:: 0; 1 / 2%:R; 1 / 2%:R]; [:: 0; - (1 / 2%:R); 1 / 2%:R]].
Fixpoint invn (n : nat) : rmatrix :=
  match n with 0 => [::] | 1 => inv3 | n'.+1 => tensor_product (invn n') inv3 end.
Definition inv_run (M : rmatrix) : rmatrix :=
  nth [::] [seq invn n | n <- iota 0 6] (find (fun n => size M == expn 3 n) (iota 0 6)).
Definition ZD : realDomainType := [realDomainType of Z].
Definition roots_run (p : seq ZD) : res (seq ZD) :=
  Ok [seq x <- [seq (Z.of_nat n - 10)%Z | n <- iota 0 20] | evaluate_poly (fun z : ZD => z) p x == 0].
Definition injR (z : ZD) : ZD := z.
Definition strR (z : ZD) : ZD := z.
Definition vts_run := internal_vts injR strR roots_run inv_run.
Definition ts_run := internal_ts injR roots_run.
