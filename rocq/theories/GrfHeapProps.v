(** Property theorems about atoms of GRF/grf.sage as objects (C109). *)
From mathcomp Require Import all_ssreflect all_algebra.
From mathcomp.real_closed Require Import polyrcf.
From Coq Require Import String.
From Verif Require Import Py GrfModel GrfCad GrfSpec GrfFacts GrfCheck GrfLoop GrfRun GrfLine GrfCadFacts
  GrfInst GrfEx GrfEx2 GrfLin GrfLinInst GrfLinEx GrfHeap GrfHeapFacts GrfHeapEx.

Set Implicit Arguments.
Unset Strict Implicit.
Unset Printing Implicit Defensive.
Import GRing.Theory Num.Theory Order.Theory.
Local Open Scope ring_scope.

(** ** C109: atoms are changed in place *)

(** When no atom object is used twice in the sequent, a check of objects shows
    the same as a check of values. *)
Theorem C109_same :
  forall (R : realDomainType) (L : lib R) (O : oracle L) solve sample fuel partial k eps cs top
    (m : heap L) (s : hdecide L), distinct s ->
  match h_check O solve sample fuel partial k eps cs top m s, check O solve sample fuel partial k eps cs top (view m s) with
  | Ok x, Ok y => x.1 = y.1 /\ view x.2.1 x.2.2 = y.2 /\ distinct x.2.2
  | Err e, Err e' => e = e'
  | _, _ => Logic.False
  end.
Proof. exact: check_sim. Qed.
Print Assumptions C109_same.

(** Atoms that are neither hypotheses nor goal hypotheses are not changed. *)
Theorem C109_frame :
  forall (R : realDomainType) (L : lib R) (O : oracle L) solve sample fuel partial k eps cs top
    (m : heap L) (s : hdecide L) r x,
  h_check O solve sample fuel partial k eps cs top m s = Ok (r, x) ->
  forall a, a \notin hghyps (hdgoal s) ++ hhyps s -> x.1 a = m a.
Proof. exact: check_frame. Qed.
Print Assumptions C109_frame.

(** Without equations among the hypotheses no atom is changed at all, also when
    atoms are shared. *)
Theorem C109_no_equation :
  forall (R : realDomainType) (L : lib R) (O : oracle L) solve sample fuel partial k eps cs top
    (m : heap L) (s : hdecide L) r x,
  h_check O solve sample fuel partial k eps cs top m s = Ok (r, x) ->
  (forall a, a \in hhyps s -> ~~ is_eqn (m a)) /\ hgb (hdgoal s) = [::] -> forall a, x.1 a = m a.
Proof. exact: check_still. Qed.
Print Assumptions C109_no_equation.

(** x0 > 2, x0 = x1, x0 < 5 |- x1 > 1 is checked, then x0 > 2, x0 < 5 |- x1 > 1
    with the same atoms on a new object: it is accepted, although it is false
    and is rejected when it is checked alone. *)
Theorem C109_shared_refuted : exists (m : heap nlib) hs hs' g, [/\
    distinct (h_new nlib hs g [::]) /\ distinct (h_new nlib hs' g [::]),
    exists r m1 s1, auto_check m (h_new nlib hs g [::]) = Ok (r, (m1, s1)) /\
      exists x, auto_check m1 (h_new nlib hs' g (horder s1)) = Ok x,
    auto_check m (h_new nlib hs' g [::]) = Err counterexample &
    forall K : rcfType, exists e, all_true (@lval K) (map m hs') e && ~~ atom_true (@lval K) (m g) e].
Proof. exact shared_refuted. Qed.
Print Assumptions C109_shared_refuted.

(** The run of C109_shared_refuted, and what it has made of x0 > 2. *)
Example C109_ex_run : left_hyps first = Some [:: 3%N] /\ distinct (h_new nlib [:: 1; 2; 3]%N 0%N [::]).
Proof. exact: (conj ex_first (proj1 ex_distinct)). Qed.
Example C109_ex_changed : changed first = Some [:: ([:: 0; 1]%N, 1); ([::], -2%:R)].
Proof. exact: ex_changed. Qed.
