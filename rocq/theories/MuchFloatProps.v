(** Property theorems about the float columns of highschool_qe/muchnik.py
    (C78). *)
From Coq Require Import ZArith.
From mathcomp Require Import all_ssreflect all_algebra all_real_closed.
From Verif Require Import Py VtsInst MuchModel MuchSpec MuchInst MuchEx MuchFloat MuchFloatEx.

Set Implicit Arguments.
Unset Strict Implicit.
Unset Printing Implicit Defensive.
Import GRing.Theory Num.Theory Order.TTheory.
Local Open Scope ring_scope.

(** ** C78: the columns are floats; 52 polynomials do no harm, 53 can. *)

Theorem C78_float_columns_exact :
  forall (P : eqType) (K : realDomainType) (A : algebra P K) (C : idomainType) (den : P -> {poly C}),
  algebra_contract A den ->
  forall (setiter : seq P -> seq P) (lesser equalities greater : seq P),
  (forall t, uniq t ->
     (forall p, p \in t -> generated A den (lesser ++ equalities ++ greater) p /\ ~~ const den p) ->
     (size t <= 52)%N) ->
  forall n, float_full A setiter n lesser equalities greater = real_full A setiter n lesser equalities greater.
Proof. exact: float_bound. Qed.
Print Assumptions C78_float_columns_exact.

Theorem C78_float_decides :
  forall (P : eqType) (K : realDomainType) (A : algebra P K) (C : idomainType) (den : P -> {poly C}),
  algebra_contract A den ->
  forall setiter : seq P -> seq P, set_order setiter ->
  forall lesser equalities greater : seq P,
  (forall t, uniq t ->
     (forall p, p \in t -> generated A den (lesser ++ equalities ++ greater) p /\ ~~ const den p) ->
     (size t <= 52)%N) ->
  ~ has_parameters A den (lesser ++ equalities ++ greater) ->
  exists N b,
    (forall n, (N <= n)%N -> float_full A setiter n lesser equalities greater = Ok ([::], b)) /\
    forall (R : rcfType) (ev : {rmorphism C -> R}), sign_ok A den ev ->
      b <-> exists x, real_sat den ev lesser equalities greater x.
Proof. exact: float_decides. Qed.
Print Assumptions C78_float_decides.

(** The verdict of a run with 53 polynomials is wrong. *)
Theorem C78_float_columns_refuted :
  exists lesser equalities greater : seq Pxy,
  [/\ forall t, uniq t ->
        (forall p, p \in t -> generated algxy idx (lesser ++ equalities ++ greater) p /\ ~~ const idx p) ->
        (size t <= 53)%N,
      forall (R : rcfType) (y : R), exists x, real_sat idx (evy y) lesser equalities greater x &
      forall setiter, set_order setiter -> exists N,
        forall n, (N <= n)%N -> float_full algxy setiter n lesser equalities greater = Ok ([::], false)].
Proof. exact: float_refuted. Qed.
Print Assumptions C78_float_columns_refuted.

(** -x + 1, ..., -x + 9 negative, -x + 10 zero and -x + 11 positive. *)
Example C78_few : forall t, uniq t ->
  (forall p, p \in t -> generated algxy idx (g_lesser ++ [:: lin 10] ++ [:: lin 11]) p /\ ~~ const idx p) ->
  (size t <= 52)%N.
Proof. exact: g_bound. Qed.
Example C78_run : show (float_full algxy id 300 g_lesser [:: lin 10] [:: lin 11]) = Some ([::], true).
Proof. exact: g_run. Qed.
