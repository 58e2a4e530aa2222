(** perform_grf: the case of one variable, and concrete runs. *)
From mathcomp Require Import all_ssreflect all_algebra.
From mathcomp.real_closed Require Import polyrcf.
From Coq Require Import String.
From Verif Require Import Py GrfModel GrfCad GrfSpec GrfFacts GrfCheck GrfLoop GrfRun GrfLine GrfCadFacts
  GrfInst GrfEx GrfEx2 GrfSmt GrfSmtFacts.

Set Implicit Arguments.
Unset Strict Implicit.
Unset Printing Implicit Defensive.
Import GRing.Theory Num.Theory Order.Theory.
Local Open Scope ring_scope.

Definition is_neqn (R : realDomainType) (L : lib R) (h : atom L) : bool := if aop h is RNe then true else false.

Section One.
Variables (R : realDomainType) (L : lib R) (O : oracle L) (K : rcfType) (inj : R -> K).
Variables (val : P L -> (var -> K) -> K) (uval : U L -> {poly K}).
Hypothesis LO : lib_ok inj val.
Hypothesis LC : cad_ok val uval.
Hypothesis LL : line_ok O inj uval.
Variable C : pred (P L).
Hypothesis RC : rational_class uval inj C.
Variable solve : nat -> seq constraint -> seq nat -> res (nat -> bool).

(** In one variable, with rational roots, the sequent that is left is valid. *)
Theorem perform1_sound num fuel k eps cs top order (antecedent succedent : seq (atom L)) ha hs s' :
  perform_grf O solve (sample_pt_dicts O 1 num) fuel k eps cs top order antecedent succedent = Ok (ha, hs, s') ->
  uniq (map (@aid R L) (antecedent ++ succedent)) ->
  all C top -> all (fun h => C (apoly h)) (antecedent ++ succedent) ->
  (forall p B, C p -> C (reduce p B)) \/
    all (fun h => ~~ is_eqn h) antecedent && all (fun h => ~~ is_neqn h) succedent ->
  forall e, all_true val (unhidden ha antecedent) e ==>
    has (fun a => atom_true val a e) (unhidden hs succedent).
Proof.
move=> E U Ct Ca Cl e; apply: (perform_sound LO E U).
have [pre [g [r [Es Ec _ _]]]] := perform_inv E; move: Ca Cl; rewrite Es all_cat all_rcons => /and3P[Ca Cg Cp].
rewrite all_rcons => Cl.
apply: (check1_sound LO LC LL RC Ec) => //.
  rewrite /in_class Cg /= all_cat Ca /= all_map all_rev; exact: sub_all Cp.
case: Cl => [H|/and3P[Na Ng Np]]; [by left|right; split=> //=].
rewrite all_cat Na /= all_map all_rev; apply: sub_all Np => h.
by rewrite /is_eqn /is_neqn /=; case: (aop h).
Qed.
End One.

(** |- x0 <= 2, x0 >= 3, x0^2 > 1: the negation of x0 >= 3 is hidden. *)
Definition succ52 : seq (atom qlib) :=
  [:: at_ 0 (lx (-2%:R)) RLe; at_ 1 (lx (-3%:R)) RGe; at_ 2 x2m1 RGt].
Definition perform (antecedent succedent : seq (atom qlib)) :=
  perform_grf qoracle brute (sample_pt_dicts qoracle 1 1) 5 1 1 None [::] [::] antecedent succedent.
Definition hiding (r : res (seq nat * seq nat * decide qlib)) : option (seq nat * seq nat) :=
  if r is Ok (ha, hs, _) then Some (ha, hs) else None.
Lemma hidingP r ha hs : hiding r = Some (ha, hs) -> exists s, r = Ok (ha, hs, s).
Proof. by case: r => // -[[a b] s] [-> ->]; exists s. Qed.
Lemma ex52 : hiding (perform [::] succ52) = Some ([:: 0%N], [:: 1%N]). Proof. by vm_compute. Qed.

(** x0 < 3 |- x0 <= 2, x0^2 > 1 *)
Definition ante53 : seq (atom qlib) := [:: at_ 0 (lx (-3%:R)) RLt].
Definition succ53 : seq (atom qlib) := [:: at_ 1 (lx (-2%:R)) RLe; at_ 2 x2m1 RGt].
Lemma ex53 : hiding (perform ante53 succ53) = Some ([:: 0%N], [::]). Proof. by vm_compute. Qed.
Lemma ex53_class : all (fun h : atom qlib => mem class67 (apoly h)) (ante53 ++ succ53). Proof. by vm_compute. Qed.
Lemma ex52_class : all (fun h : atom qlib => mem class67 (apoly h)) succ52. Proof. by vm_compute. Qed.
Lemma ex53_ids : uniq (map (@aid _ qlib) (ante53 ++ succ53)). Proof. by []. Qed.
Lemma ex52_ids : uniq (map (@aid _ qlib) succ52). Proof. by []. Qed.
Lemma ex53_noeqn : all (fun h => ~~ is_eqn h) ante53 && all (fun h => ~~ is_neqn h) succ53. Proof. by []. Qed.

(** x0 > 2, x0 < 3 |- x0^2 > 1 *)
Definition ante52 : seq (atom qlib) := [:: at_ 1 (lx (-2%:R)) RGt; at_ 2 (lx (-3%:R)) RLt].
Lemma ex52_single : exists g : atom qlib,
  hiding (perform ante52 [:: g]) = Some ([:: 1%N], [::]) /\ uniq (map (@aid _ qlib) (ante52 ++ [:: g])).
Proof. by exists (at_ 0 x2m1 RGt); split; [vm_compute|]. Qed.

Lemma ex52_all : exists (antecedent succedent : seq (atom qlib)) ha hs s',
  [/\ perform antecedent succedent = Ok (ha, hs, s'),
      uniq (map (@aid _ qlib) (antecedent ++ succedent)) &
      has (fun i => size antecedent <= i)%N ha].
Proof. by exists [::], succ52, [:: 0%N], [:: 1%N]; have [s E] := hidingP ex52; exists s; split; [exact: E| |]. Qed.

Lemma ex53_mixed : hiding (perform [::] [:: at_ 0 mixed RLe]) = Some ([::], [::]). Proof. by vm_compute. Qed.
Lemma ex53_all : exists (antecedent succedent : seq (atom qlib)) ha hs s', perform antecedent succedent = Ok (ha, hs, s') /\
  forall K : rcfType, exists e,
    ~~ (all_true (@qval K) (unhidden ha antecedent) e ==>
        has (fun a => atom_true (@qval K) a e) (unhidden hs succedent)).
Proof.
exists [::], [:: at_ 0 mixed RLe], [::], [::]; have [s E] := hidingP ex53_mixed; exists s; split; first exact: E.
move=> K; exists (fun=> 2%:R); have := ex67_false K; rewrite /s67 sequent_start all_true_nil /=.
by rewrite orbF.
Qed.

Lemma ex72_all : exists (antecedent succedent : seq (atom qlib)) ha hs s',
  perform antecedent succedent = Ok (ha, hs, s') /\
  hides (size ha, size hs) <> (size (antecedent ++ succedent) -
    (size (unhidden ha antecedent) + size (unhidden hs succedent)))%N.
Proof. by exists [::], succ52, [:: 0%N], [:: 1%N]; have [s E] := hidingP ex52; exists s; split; [exact: E|]. Qed.
