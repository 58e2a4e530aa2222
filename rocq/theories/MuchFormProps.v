(** Property theorems about how the input polynomials are written (C90). *)
From Coq Require Import ZArith String.
From mathcomp Require Import all_ssreflect all_algebra all_real_closed.
From Verif Require Import Py VtsInst MuchModel MuchSpec MuchInst MuchEx CohenModel CohenSpec MuchForm.

Set Implicit Arguments.
Unset Strict Implicit.
Unset Printing Implicit Defensive.
Import GRing.Theory Num.Theory Order.TTheory.
Local Open Scope ring_scope.

(** ** C90: the form of the input does not matter if last derivatives come out
    expanded, and matters otherwise. *)

Theorem C90_same_form :
  forall (P : eqType) (K : realDomainType) (A : algebra P K) (C : idomainType) (den : P -> {poly C}),
  algebra_contract A den ->
  forall setiter : seq P -> seq P, set_order setiter ->
  forall l e g l' e' g' : seq P,
  map den l = map den l' -> map den e = map den e' -> map den g = map den g' ->
  has_parameters A den (l ++ e ++ g) -> has_parameters A den (l' ++ e' ++ g') ->
  exists N d b d' b',
    (forall n, (N <= n)%N -> real_full A setiter n l e g = Ok (d, b) /\
                             real_full A setiter n l' e' g' = Ok (d', b')) /\
    forall (R : rcfType) (ev : {rmorphism C -> R}), sign_ok A den ev ->
      (exists2 c, c \in d & real_clause_holds den ev c) <->
      (exists2 c, c \in d' & real_clause_holds den ev c).
Proof. exact: same_form. Qed.
Print Assumptions C90_same_form.

Theorem C90_same_form_closed :
  forall (P : eqType) (K : realDomainType) (A : algebra P K) (C : idomainType) (den : P -> {poly C}),
  algebra_contract A den ->
  forall setiter : seq P -> seq P, set_order setiter ->
  forall l e g l' e' g' : seq P,
  map den l = map den l' -> map den e = map den e' -> map den g = map den g' ->
  ~ has_parameters A den (l ++ e ++ g) -> ~ has_parameters A den (l' ++ e' ++ g') ->
  exists N b b',
    (forall n, (N <= n)%N -> real_full A setiter n l e g = Ok ([::], b) /\
                             real_full A setiter n l' e' g' = Ok ([::], b')) /\
    forall (R : rcfType) (ev : {rmorphism C -> R}), sign_ok A den ev -> b = b'.
Proof. exact: same_form_closed. Qed.
Print Assumptions C90_same_form_closed.

(** Expressions such as (x - y)*(x + y), which differs from x^2 - y^2. *)
Example C90_contract : algebra_contract alg1 den1 /\ scalars_exact alg1 den1.
Proof. split; [exact: alg1_contract|exact: alg1_scalars]. Qed.
Example C90_sign : forall (R : rcfType) (y : R), sign_ok alg1 den1 (evy y).
Proof. exact: alg1_sign_ok. Qed.
Example C90_different : product <> sum /\ den1 product = den1 sum.
Proof. exact: product_same. Qed.
Example C90_parameters : has_parameters alg1 den1 ([::] ++ [::] ++ [:: product]) /\
  has_parameters alg1 den1 ([::] ++ [::] ++ [:: sum]).
Proof. exact: product_parameters. Qed.
Example C90_run : show1 (real_full alg1 id 50 [::] [::] [:: product; sum]) =
  show (real_full algxy id 50 [::] [::] [:: px_x2y2]).
Proof. exact: product_run. Qed.

(** y*(x*y + x): the derivative y*(y + 1) is not the leading coefficient
    y^2 + y. *)
Theorem C90_refuted : exists p q, p <> q /\ den2 p = den2 q /\
  real_full alg2 id 50 [::] [:: p] [::] = Err KeyError /\
  exists r, real_full alg2 id 50 [::] [:: q] [::] = Ok r.
Proof. exact: form_refuted. Qed.
Print Assumptions C90_refuted.

Theorem C90_cohen_refuted : exists p q, p <> q /\ den2 p = den2 q /\
  run2 20 [::] [:: p] [::] = Err (Exc "context lookup"%string) /\
  exists r, run2 20 [::] [:: q] [::] = Ok r.
Proof. exact: form_refuted_cohen. Qed.
Print Assumptions C90_cohen_refuted.

(** All operations are right about polynomials in this instance. *)
Example C90_ops : algebra_ops alg2 den2.
Proof. exact: alg2_ops. Qed.
Example C90_ops_sign : forall (R : rcfType) (y : R), sign_ok alg2 den2 (evy y).
Proof. exact: alg2_sign_ok. Qed.
