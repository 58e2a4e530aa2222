(** Property theorems for SMTContext of GRF/smt2.py. *)
From mathcomp Require Import all_ssreflect all_algebra.
From mathcomp.real_closed Require Import polyrcf.
From Coq Require Import String.
From Verif Require Import Py GrfModel GrfCad GrfSpec GrfFacts GrfCheck GrfLoop GrfRun GrfLine GrfCadFacts
  GrfInst GrfEx GrfEx2 GrfSmt GrfSmtFacts GrfSmtEx.

Set Implicit Arguments.
Unset Strict Implicit.
Unset Printing Implicit Defensive.
Import GRing.Theory Num.Theory Order.Theory.
Local Open Scope ring_scope.
Local Notation asg := (dict [eqType of var]).

(** ** C52: the indices reported by perform_grf *)

(** |- x0 <= 2, x0 >= 3, x0^2 > 1: the antecedent index 0 is reported, and
    there is no antecedent. *)
Theorem C52_refuted : exists (antecedent succedent : seq (atom qlib)) ha hs s',
  [/\ perform antecedent succedent = Ok (ha, hs, s'),
      uniq (map (@aid _ qlib) (antecedent ++ succedent)) &
      has (fun i => size antecedent <= i)%N ha].
Proof. exact: ex52_all. Qed.
Print Assumptions C52_refuted.

(** What the indices are.  Those past the antecedent name formulas of the
    succedent, in reverse order; the last formula of the succedent is never
    hidden. *)
Theorem C52_indices :
  forall (R : realDomainType) (L : lib R) (O : oracle L) solve sample fuel k eps cs top order
    (antecedent succedent : seq (atom L)) ha hs s',
  perform_grf O solve sample fuel k eps cs top order antecedent succedent = Ok (ha, hs, s') ->
  uniq (map (@aid R L) (antecedent ++ succedent)) ->
  let n := size antecedent in let m := size succedent in
  [/\ sorted ltn ha, sorted ltn hs, all (fun i => i < n + m.-1)%N ha, all (fun j => j < m.-1)%N hs &
      forall j, (j \in hs) = (j.+1 < m)%N && (n + (m - j.+2) \in ha)%N].
Proof. exact: perform_indices. Qed.
Print Assumptions C52_indices.

(** With one formula in the succedent all antecedent indices are in range. *)
Theorem C52_single :
  forall (R : realDomainType) (L : lib R) (O : oracle L) solve sample fuel k eps cs top order
    (antecedent : seq (atom L)) (goal : atom L) ha hs s',
  perform_grf O solve sample fuel k eps cs top order antecedent [:: goal] = Ok (ha, hs, s') ->
  uniq (map (@aid R L) (antecedent ++ [:: goal])) ->
  all (fun i => i < size antecedent)%N ha /\ hs = [::].
Proof. exact: perform_single. Qed.
Print Assumptions C52_single.

Theorem C52_no_succedent :
  forall (R : realDomainType) (L : lib R) (O : oracle L) solve sample fuel k eps cs top order
    (antecedent : seq (atom L)),
  perform_grf O solve sample fuel k eps cs top order antecedent [::] = Err IndexError.
Proof. exact: perform_empty. Qed.
Print Assumptions C52_no_succedent.

Example C52_example : hiding (perform [::] succ52) = Some ([:: 0%N], [:: 1%N]) /\
  uniq (map (@aid _ qlib) ([::] ++ succ52)).
Proof. exact: (conj ex52 ex52_ids). Qed.
Example C52_example_single : exists g : atom qlib,
  hiding (perform ante52 [:: g]) = Some ([:: 1%N], [::]) /\ uniq (map (@aid _ qlib) (ante52 ++ [:: g])).
Proof. exact: ex52_single. Qed.

(** ** C53: what is left *)

(** The formulas that are not hidden are the promoted ones and the goal. *)
Theorem C53_unhidden :
  forall (R : realDomainType) (L : lib R) (O : oracle L) solve sample fuel k eps cs top order
    (antecedent succedent : seq (atom L)) ha hs s',
  perform_grf O solve sample fuel k eps cs top order antecedent succedent = Ok (ha, hs, s') ->
  uniq (map (@aid R L) (antecedent ++ succedent)) ->
  let used := map (@aid R L) (main_goal (dgoal s') :: goal_hyps (dgoal s')) in
  (forall i, (i < size antecedent)%N -> (i \notin ha) = (nth 0%N (map (@aid R L) antecedent) i \in used)) /\
  (forall j, (j < size succedent)%N -> (j \notin hs) = (nth 0%N (map (@aid R L) succedent) j \in used)).
Proof. exact: perform_unhidden. Qed.
Print Assumptions C53_unhidden.

(** Hiding is sound where the final goal holds. *)
Theorem C53_sound :
  forall (R : realDomainType) (L : lib R) (O : oracle L) solve sample (K : realDomainType) (inj : R -> K)
    (val : P L -> (var -> K) -> K), lib_ok inj val ->
  forall fuel k eps cs top order (antecedent succedent : seq (atom L)) ha hs s',
  perform_grf O solve sample fuel k eps cs top order antecedent succedent = Ok (ha, hs, s') ->
  uniq (map (@aid R L) (antecedent ++ succedent)) ->
  forall e, goal_true val (dgoal s') e ->
  all_true val (unhidden ha antecedent) e ==> has (fun a => atom_true val a e) (unhidden hs succedent).
Proof. exact: perform_sound. Qed.
Print Assumptions C53_sound.

(** In one variable and with rational roots only, the sequent that is left is valid. *)
Theorem C53_univariate :
  forall (R : realDomainType) (L : lib R) (O : oracle L) (K : rcfType) (inj : R -> K)
    (val : P L -> (var -> K) -> K) (uval : U L -> {poly K}),
  lib_ok inj val -> cad_ok val uval -> line_ok O inj uval ->
  forall C : pred (P L), rational_class uval inj C ->
  forall solve num fuel k eps cs top order (antecedent succedent : seq (atom L)) ha hs s',
  perform_grf O solve (sample_pt_dicts O 1 num) fuel k eps cs top order antecedent succedent = Ok (ha, hs, s') ->
  uniq (map (@aid R L) (antecedent ++ succedent)) ->
  all C top -> all (fun h => C (apoly h)) (antecedent ++ succedent) ->
  (forall p B, C p -> C (reduce p B)) \/
    all (fun h => ~~ is_eqn h) antecedent && all (fun h => ~~ is_neqn h) succedent ->
  forall e, all_true val (unhidden ha antecedent) e ==>
    has (fun a => atom_true val a e) (unhidden hs succedent).
Proof. exact: perform1_sound. Qed.
Print Assumptions C53_univariate.

(** |- x0^4 - 2 x0^2 <= 0 comes back with nothing hidden, and is false at 2. *)
Theorem C53_refuted :
  exists (antecedent succedent : seq (atom qlib)) ha hs s', perform antecedent succedent = Ok (ha, hs, s') /\
  forall K : rcfType, exists e,
    ~~ (all_true (@qval K) (unhidden ha antecedent) e ==>
        has (fun a => atom_true (@qval K) a e) (unhidden hs succedent)).
Proof. exact: ex53_all. Qed.
Print Assumptions C53_refuted.

(** An automatic run never keeps everything. *)
Theorem C53_hides_some :
  forall (R : realDomainType) (L : lib R) (O : oracle L) solve sample fuel k eps top order
    (antecedent succedent : seq (atom L)) ha hs s',
  exact_solver solve ->
  perform_grf O solve sample fuel k eps None top order antecedent succedent = Ok (ha, hs, s') ->
  uniq (map (@aid R L) (antecedent ++ succedent)) -> (1 < size antecedent + size succedent)%N -> ha <> [::].
Proof. exact: perform_hides_some. Qed.
Print Assumptions C53_hides_some.

(** x0 < 3 |- x0 <= 2, x0^2 > 1 leaves |- x0 <= 2, x0^2 > 1. *)
Example C53_example : hiding (perform ante53 succ53) = Some ([:: 0%N], [::]) /\
  uniq (map (@aid _ qlib) (ante53 ++ succ53)) /\
  all (fun h : atom qlib => mem class67 (apoly h)) (ante53 ++ succ53) /\
  all (fun h => ~~ is_eqn h) ante53 && all (fun h => ~~ is_neqn h) succ53.
Proof. exact: (conj ex53 (conj ex53_ids (conj ex53_class ex53_noeqn))). Qed.
Example C53_contracts : exact_solver brute /\ forall K : rcfType,
  [/\ lib_ok (L := qlib) ratr (@qval K), cad_ok (L := qlib) (@qval K) (uval K),
      line_ok qoracle ratr (uval K) & rational_class (L := qlib) (uval K) ratr (mem class67)].
Proof. exact: (conj brute_exact (fun K => And4 (qlib_ok K) (qcad_ok K) (qline_ok K) (class67_ok K))). Qed.

(** ** C54: get_ring_var *)

(** After any history of look-ups equal names have the same generator and
    different names have different ones, all of them generators of the ring,
    which has as many as there are names (and one at least). *)
Theorem C54_names : forall (name : eqType) (l : seq name), exists c vs,
  [/\ lookups (new_ctx name) l = Ok (c, vs), size vs = size l, nvars c = maxn 1 (size (undup l)),
      all (fun v => v < nvars c)%N vs &
      forall s v t w, (s, v) \in zip l vs -> (t, w) \in zip l vs -> (v == w) = (s == t)].
Proof. exact: names_injective. Qed.
Print Assumptions C54_names.

Example C54_example : lookups (new_ctx [eqType of seq nat]) [:: [:: 3]; [:: 5; 7]; [:: 3]; [::]]%N =
  Ok (Ctx 3 [:: ([:: 3], 0); ([:: 5; 7], 1); ([::], 2)]%N, [:: 0; 1; 0; 2]%N).
Proof. exact: erefl. Qed.

(** ** C72: the number of hidden formulas in the experiment *)

(** A hidden formula of the succedent is counted twice. *)
Theorem C72_count :
  forall (R : realDomainType) (L : lib R) (O : oracle L) solve sample fuel k eps cs top order
    (antecedent succedent : seq (atom L)) ha hs s',
  perform_grf O solve sample fuel k eps cs top order antecedent succedent = Ok (ha, hs, s') ->
  uniq (map (@aid R L) (antecedent ++ succedent)) ->
  forall r, grf_on_file O solve sample fuel k eps cs top order antecedent succedent = Ok r ->
  hides r = (size (antecedent ++ succedent) -
             (size (unhidden ha antecedent) + size (unhidden hs succedent)) + size hs)%N.
Proof. exact: hides_count. Qed.
Print Assumptions C72_count.

Theorem C72_refuted : exists (antecedent succedent : seq (atom qlib)) ha hs s',
  perform antecedent succedent = Ok (ha, hs, s') /\
  hides (size ha, size hs) <> (size (antecedent ++ succedent) -
    (size (unhidden ha antecedent) + size (unhidden hs succedent)))%N.
Proof. exact: ex72_all. Qed.
Print Assumptions C72_refuted.

Example C72_example : hiding (perform [::] succ52) = Some ([:: 0%N], [:: 1%N]) /\
  hides (size [:: 0%N], size [:: 1%N]) = 2%N /\ unhidden [:: 1%N] succ52 = [:: at_ 0 (lx (-2%:R)) RLe; at_ 2 x2m1 RGt].
Proof. exact: (conj ex52 (conj erefl erefl)). Qed.
