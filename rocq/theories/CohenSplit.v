(** A constant whose sign is not known: every parameter value that fits a table
    fits exactly one of the tables it is split into. *)
From mathcomp Require Import all_ssreflect all_algebra.
From Verif Require Import Py MuchModel MuchSpec MuchSeq MuchDiag CohenModel CohenSpec CohenExp.

Set Implicit Arguments.
Unset Strict Implicit.
Unset Printing Implicit Defensive.
Import GRing.Theory Num.Theory Order.TTheory.
Local Open Scope ring_scope.

Section Split.
Variables (P : eqType) (K : realDomainType) (A : algebra P K).
Variables (C : idomainType) (den : P -> {poly C}).

Theorem split_cases (m : P) (tables : seq (diagram P [eqType of rat] * context P)) :
  (forall (R : rcfType) (ev : {rmorphism C -> R}), sign_ok A den ev ->
     count (fun x => consistent den ev x.2) (split_constant A m tables) =
     count (fun x => consistent den ev x.2) tables) /\
  forall y, List.In y (split_constant A m tables) ->
    (deg A m == 0 -> a_has_variable A (a_LC A m) -> dmem y.2 (a_LC A m)) /\
    exists2 x, List.In x tables & y.1 = x.1 /\ extends x.2 y.2.
Proof.
split=> [R ev sok|y].
  rewrite /split_constant; case: ifP => // _.
  rewrite count_flatten sumnE !big_map -sumn_count sumnE big_map; apply: eq_bigr => x _.
  case: ifP => [_|/negbT nd] /=; first by rewrite addn0.
  have cE s : consistent den ev (dset x.2 (a_LC A m) s) =
     consistent den ev x.2 && (s == sgz (cvalue den ev (a_LC A m))) := @cs_dset _ _ _ _ _ (Point sok) _ _ s nd.
  rewrite !cE; case: (consistent den ev x.2) => //=.
  by case: sgzP.
rewrite /split_constant; case: ifP => [/andP[h1 h2]|h i]; last first.
  split; first by move=> d v; rewrite d v in h.
  by exists y => //; split=> //; exact: extends_refl.
elim: tables => //= x tables IH /List.in_app_iff[|/IH[h [x' i' h']]]; last first.
  by split=> //; exists x' => //; right.
case: ifP => [d [<-|//]|/negbT nd]; first by split=> //; exists x; [left|split=> //; exact: extends_refl].
have ex s : (deg A m == 0 -> a_has_variable A (a_LC A m) -> dmem (dset x.2 (a_LC A m) s) (a_LC A m)) /\
  exists2 x', x = x' \/ List.In x' tables & x.1 = x'.1 /\ extends x'.2 (dset x.2 (a_LC A m) s).
  split; first by rewrite /dmem keys_dset inE eqxx.
  exists x; first by left.
  split=> //; apply: extends_dset => w e; by rewrite (dget_mem e) in nd.
by case=> [<-|[<-|[<-|//]]]; exact: ex.
Qed.
End Split.
