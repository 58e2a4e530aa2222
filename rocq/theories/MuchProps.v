(** Property theorems about highschool_qe/muchnik.py (C28-C35, C60-C63). *)
From Coq Require Import ZArith.
From mathcomp Require Import all_ssreflect all_algebra all_real_closed.
From Verif Require Import Py VtsInst MuchModel MuchSpec MuchDiag MuchInst MuchFull MuchHeap MuchEx MuchCFull MuchCEx.

Set Implicit Arguments.
Unset Strict Implicit.
Unset Printing Implicit Defensive.
Import GRing.Theory Num.Theory Order.TTheory.
Local Open Scope ring_scope.

(** ** C28: real_full eliminates the quantifier. *)

Theorem C28_real_full_equivalent :
  forall (P : eqType) (K : realDomainType) (A : algebra P K) (C : idomainType) (den : P -> {poly C}),
  algebra_contract A den ->
  forall setiter : seq P -> seq P, set_order setiter ->
  forall lesser equalities greater : seq P,
  has_parameters A den (lesser ++ equalities ++ greater) ->
  exists N dnf b,
    (forall n, (N <= n)%N -> real_full A setiter n lesser equalities greater = Ok (dnf, b)) /\
    forall (R : rcfType) (ev : {rmorphism C -> R}), sign_ok A den ev ->
      (exists x, real_sat den ev lesser equalities greater x) <->
      (exists2 c, c \in dnf & real_clause_holds den ev c).
Proof. exact: real_full_equivalent. Qed.
Print Assumptions C28_real_full_equivalent.

(** The contract is met by polynomials in x over Z[y], with y any real. *)
Example C28_contract : algebra_contract algxy idx.
Proof. exact: idx_contract. Qed.
Example C28_sign : forall (R : rcfType) (y : R), sign_ok algxy idx (evy y).
Proof. exact: idx_sign_ok. Qed.
Example C28_parameters : has_parameters algxy idx ([::] ++ [:: px_x2y] ++ [::]).
Proof. exact: x2y_parameters. Qed.

Local Open Scope Z_scope.
(** x^2 + y = 0 gives six clauses about y and 4y; those that no y satisfies
    are harmless. *)
Example C28_run : show (real_full algxy id 50 [::] [:: px_x2y] [::]) = Some (
  [:: ([:: [:: [:: 0; 1]]; [:: [:: 0; 4]]], [::], [::]);
      ([:: [:: [:: 0; 1]]], [:: [:: [:: 0; 4]]], [::]);
      ([:: [:: [:: 0; 4]]], [:: [:: [:: 0; 1]]], [::]);
      ([::], [:: [:: [:: 0; 1]]; [:: [:: 0; 4]]], [::]);
      ([:: [:: [:: 0; 4]]], [::], [:: [:: [:: 0; 1]]]);
      ([::], [:: [:: [:: 0; 4]]], [:: [:: [:: 0; 1]]])], true).
Proof. exact: x2y_run. Qed.
Local Close Scope Z_scope.

(** ** C29: without parameters the printed verdict is right. *)

Theorem C29_real_full_decides :
  forall (P : eqType) (K : realDomainType) (A : algebra P K) (C : idomainType) (den : P -> {poly C}),
  algebra_contract A den ->
  forall setiter : seq P -> seq P, set_order setiter ->
  forall lesser equalities greater : seq P,
  ~ has_parameters A den (lesser ++ equalities ++ greater) ->
  exists N b,
    (forall n, (N <= n)%N -> real_full A setiter n lesser equalities greater = Ok ([::], b)) /\
    forall (R : rcfType) (ev : {rmorphism C -> R}), sign_ok A den ev ->
      b <-> exists x, real_sat den ev lesser equalities greater x.
Proof. exact: real_full_decides. Qed.
Print Assumptions C29_real_full_decides.

(** x^2 = 2 and x > 0. *)
Example C29_closed : ~ has_parameters algxy idx ([::] ++ [:: px_x2m2] ++ [:: px_x]).
Proof. exact: x2m2_closed. Qed.
Example C29_run : show (real_full algxy id 50 [::] [:: px_x2m2] [:: px_x]) = Some ([::], true).
Proof. exact: x2m2_run. Qed.

(** ** C30: with parameters the printed verdict can be wrong, in one
    direction only. *)

Theorem C30_verdict_refuted :
  exists lesser equalities greater dnf,
  real_full algxy id 50 lesser equalities greater = Ok (dnf, true) /\
  forall (R : rcfType) (y x : R), ~ real_sat idx (evy y) lesser equalities greater x.
Proof. exact: verdict_refuted. Qed.
Print Assumptions C30_verdict_refuted.

Theorem C30_no_false_unsatisfiable :
  forall (P : eqType) (K : realDomainType) (A : algebra P K) (C : idomainType) (den : P -> {poly C}),
  algebra_contract A den ->
  forall setiter : seq P -> seq P, set_order setiter ->
  forall lesser equalities greater : seq P,
  exists N dnf b,
    (forall n, (N <= n)%N -> real_full A setiter n lesser equalities greater = Ok (dnf, b)) /\
    forall (R : rcfType) (ev : {rmorphism C -> R}), sign_ok A den ev ->
      (exists x, real_sat den ev lesser equalities greater x) -> b.
Proof. exact: real_full_no_miss. Qed.
Print Assumptions C30_no_false_unsatisfiable.

(** ** C31: on closed problems the returned list is empty even if they are
    satisfiable (that it always is empty: C29). *)

Theorem C31_closed_result_refuted :
  exists lesser equalities greater,
  real_full algxy id 50 lesser equalities greater = Ok ([::], true) /\
  forall (R : rcfType) (y : R), exists x, real_sat idx (evy y) lesser equalities greater x.
Proof. exact: closed_result_refuted. Qed.
Print Assumptions C31_closed_result_refuted.

(** ** C32: muchnik_sequence finishes with the closure of its input. *)

Theorem C32_sequence_closed :
  forall (P : eqType) (K : realDomainType) (A : algebra P K) (C : idomainType) (den : P -> {poly C}),
  algebra_contract A den ->
  forall ps : seq P, exists N s,
  (forall n, (N <= n)%N -> muchnik_sequence A n (sortedset (key_lt A) [:: a_zero A]) ps = Ok s) /\
  [/\ uniq s, {subset ps <= s}, closed_seq A den s & forall p, p \in s <-> generated A den ps p].
Proof. exact: sequence_closed. Qed.
Print Assumptions C32_sequence_closed.

Local Open Scope Z_scope.
(** 0, y, 2, 4y, 2x, x^2 + y. *)
Example C32_run :
  (if muchnik_sequence algxy 50 [:: a_zero algxy] [:: px_x2y] is Ok s then map rd s else [::]) =
  [:: [::]; [:: [:: 0; 1]]; [:: [:: 2]]; [:: [:: 0; 4]]; [:: [::]; [:: 2]]; [:: [:: 0; 1]; [::]; [:: 1]]].
Proof. by vm_compute. Qed.
Local Close Scope Z_scope.

(** ** C33: a realizable sign assignment is extended to the true table. *)

Theorem C33_realizable_assignment :
  forall (P : eqType) (K : realDomainType) (A : algebra P K) (C : idomainType) (den : P -> {poly C}),
  algebra_contract A den ->
  forall setiter : seq P -> seq P, set_order setiter ->
  forall (s : seq P) (f : P -> int) (D : diagram P [eqType of rat]),
  closed_seq A den s -> uniq s -> sorted (fun p q => (a_degree A p <= a_degree A q)%N) s ->
  assigned [seq p <- s | const den p] f D ->
  forall (R : rcfType) (ev : {rmorphism C -> R}),
  (forall q, q \in s -> const den q -> f q = sgz (cvalue den ev q)) ->
  exists2 D', real_extend A setiter D [seq p <- s | ~~ const den p] = Ok D' & sign_table den ev s D'.
Proof. exact: extend_realizable. Qed.
Print Assumptions C33_realizable_assignment.

(** Any other assignment can at most raise DiagramExc, which real_full
    catches. *)
Theorem C33_any_assignment :
  forall (P : eqType) (K : realDomainType) (A : algebra P K) (C : idomainType) (den : P -> {poly C}),
  algebra_contract A den ->
  forall setiter : seq P -> seq P, set_order setiter ->
  forall (s : seq P) (f : P -> int) (D : diagram P [eqType of rat]),
  closed_seq A den s -> uniq s -> sorted (fun p q => (a_degree A p <= a_degree A q)%N) s ->
  assigned [seq p <- s | const den p] f D -> f (a_zero A) = 0 ->
  real_extend A setiter D [seq p <- s | ~~ const den p] = Err DiagramExc \/
  exists2 D', real_extend A setiter D [seq p <- s | ~~ const den p] = Ok D' & rows D' =i s.
Proof. exact: extend_any. Qed.
Print Assumptions C33_any_assignment.

(** The signs at y = -1 for x^2 + y. *)
Example C33_case : forall R : rcfType, exists s f D,
  [/\ closed_seq algxy idx s, uniq s, sorted (fun p q => (a_degree algxy p <= a_degree algxy q)%N) s,
      assigned [seq p <- s | const idx p] f D & px_x2y \in s] /\
  forall q, q \in s -> const idx q -> f q = sgz (cvalue idx (evy (-1 : R)) q).
Proof. exact: x2y_realizable. Qed.

(** ** C34: complex_full eliminates the quantifier. *)

Theorem C34_complex_full_equivalent :
  forall (P : eqType) (K : realDomainType) (A : algebra P K) (C : idomainType) (den : P -> {poly C}),
  algebra_contract A den ->
  forall setiter : seq P -> seq P, set_order setiter ->
  forall equalities inequalities : seq P,
  has_parameters A den (equalities ++ inequalities) ->
  exists N dnf b,
    (forall n, (N <= n)%N -> complex_full A setiter n equalities inequalities = Ok (dnf, b)) /\
    forall (F : closedFieldType) (ev : {rmorphism C -> F}), [char F] =i pred0 -> scalars_ok A den ev ->
      (exists x, complex_sat den ev equalities inequalities x) <->
      (exists2 c, c \in dnf & complex_clause_holds den ev c).
Proof. exact: complex_full_equivalent. Qed.
Print Assumptions C34_complex_full_equivalent.

Example C34_field : exists F : closedFieldType, [char F] =i pred0.
Proof. exact: field_example. Qed.
Example C34_scalars : forall (F : closedFieldType) (y : F), [char F] =i pred0 -> scalars_ok algxy idx (cevy y).
Proof. exact: cevy_scalars_ok. Qed.
Example C34_parameters : has_parameters algxy idx ([:: px_x2y] ++ [:: px_x]).
Proof. exact: x2y_cparameters. Qed.
Local Open Scope Z_scope.
(** x^2 + y = 0 and x <> 0: y <> 0, whatever 4y is taken to be. *)
Example C34_run : cshow (complex_full algxy id 50 [:: px_x2y] [:: px_x]) = Some (
  [:: ([:: [:: [:: 0; 4]]], [:: [:: [:: 0; 1]]]); ([::], [:: [:: [:: 0; 1]]; [:: [:: 0; 4]]])], true).
Proof. exact: x2y_crun. Qed.
Example C34_run2 : cshow (complex_full algxy id 50 [:: px_yx1] [::]) = Some ([:: ([::], [:: [:: [:: 0; 1]]])], true).
Proof. exact: yx1_crun. Qed.
Local Close Scope Z_scope.

(** ** C35: the full assignments enumerate all vectors, as independent
    diagrams. *)

Theorem C35_real_vectors :
  forall (P : eqType) (D : diagram P [eqType of rat]) vf, uniq vf ->
  one_per_vector [:: -1; 0; 1] [:: 0; 1 / 2%:R; 1] vf D (r_full_assignment [:: D] vf).
Proof. exact: r_full_vectors. Qed.
Print Assumptions C35_real_vectors.

Theorem C35_complex_vectors :
  forall (P : eqType) (D : diagram P [eqType of nat]) vf, uniq vf ->
  one_per_vector [:: 0; 1] [:: 0%N : [eqType of nat]] vf D (c_full_assignment [:: D] vf).
Proof. exact: c_full_vectors. Qed.
Print Assumptions C35_complex_vectors.

(** With diagrams as mutable objects: the same diagrams, and no two share an
    object. *)
Theorem C35_real_independent :
  forall (P : eqType) (h : heap P [eqType of rat]) xs vf, separate h xs ->
  exists h' ys, [/\ h_r_full h (map fst xs) vf = Ok (h', map fst ys),
    map snd ys = r_full_assignment (map snd xs) vf & separate h' ys].
Proof. exact: h_r_full_ok. Qed.
Print Assumptions C35_real_independent.

Theorem C35_complex_independent :
  forall (P : eqType) (h : heap P [eqType of nat]) xs vf, separate h xs ->
  exists h' ys, [/\ h_c_full h (map fst xs) vf = Ok (h', map fst ys),
    map snd ys = c_full_assignment (map snd xs) vf & separate h' ys].
Proof. exact: h_c_full_ok. Qed.
Print Assumptions C35_complex_independent.

(** So that writing to one changes none of the others. *)
Theorem C35_write_one :
  forall (P T : eqType) (h : heap P T) xs1 l D xs2 q c v, separate h (xs1 ++ (l, D) :: xs2) ->
  exists2 h', h_put h l q c v = Ok h' & separate h' (xs1 ++ (l, put D q c v) :: xs2).
Proof. exact: separate_put. Qed.
Print Assumptions C35_write_one.

Example C35_heap : separate one_row [:: (0%N, [:: (7%N, [:: (0, 1); (1, 1)])])].
Proof. exact: one_row_separate. Qed.
Example C35_run :
  (if h_r_full one_row [:: 0%N] [:: 8; 9]%N is Ok (h, ls) then
     [seq (if reads h l is Ok D then (vd D 8%N 0, vd D 9%N 1) else (7, 7)) | l <- ls] else [::]) =
  [:: (-1, -1); (-1, 0); (-1, 1); (0, -1); (0, 0); (0, 1); (1, -1); (1, 0); (1, 1)].
Proof. by vm_compute. Qed.

(** ** C60: without parameters the verdict of complex_full is right (and the
    returned list empty). *)

Theorem C60_complex_full_decides :
  forall (P : eqType) (K : realDomainType) (A : algebra P K) (C : idomainType) (den : P -> {poly C}),
  algebra_contract A den ->
  forall setiter : seq P -> seq P, set_order setiter ->
  forall equalities inequalities : seq P,
  ~ has_parameters A den (equalities ++ inequalities) ->
  exists N b,
    (forall n, (N <= n)%N -> complex_full A setiter n equalities inequalities = Ok ([::], b)) /\
    forall (F : closedFieldType) (ev : {rmorphism C -> F}), [char F] =i pred0 -> scalars_ok A den ev ->
      b <-> exists x, complex_sat den ev equalities inequalities x.
Proof. exact: complex_full_decides. Qed.
Print Assumptions C60_complex_full_decides.

(** x^2 = 0 and x <> 0. *)
Example C60_closed : ~ has_parameters algxy idx ([:: px_x2] ++ [:: px_x]).
Proof. exact: x2_cclosed. Qed.
Example C60_run : cshow (complex_full algxy id 50 [:: px_x2] [:: px_x]) = Some ([::], false).
Proof. exact: x2_crun. Qed.

(** ** C61: with parameters it can be wrong, in one direction only. *)

Theorem C61_complex_verdict_refuted :
  exists equalities inequalities dnf,
  complex_full algxy id 50 equalities inequalities = Ok (dnf, true) /\
  forall (F : closedFieldType) (y x : F), ~ complex_sat idx (cevy y) equalities inequalities x.
Proof. exact: cverdict_refuted. Qed.
Print Assumptions C61_complex_verdict_refuted.

Theorem C61_complex_no_false_unsatisfiable :
  forall (P : eqType) (K : realDomainType) (A : algebra P K) (C : idomainType) (den : P -> {poly C}),
  algebra_contract A den ->
  forall setiter : seq P -> seq P, set_order setiter ->
  forall equalities inequalities : seq P,
  exists N dnf b,
    (forall n, (N <= n)%N -> complex_full A setiter n equalities inequalities = Ok (dnf, b)) /\
    forall (F : closedFieldType) (ev : {rmorphism C -> F}), [char F] =i pred0 -> scalars_ok A den ev ->
      (exists x, complex_sat den ev equalities inequalities x) -> b.
Proof. exact: complex_full_no_miss. Qed.
Print Assumptions C61_complex_no_false_unsatisfiable.

(** ** C62: complex_extend extends a realizable assignment to the true table,
    and raises nothing for any other. *)

Theorem C62_realizable_assignment :
  forall (P : eqType) (K : realDomainType) (A : algebra P K) (C : idomainType) (den : P -> {poly C}),
  algebra_contract A den ->
  forall setiter : seq P -> seq P, set_order setiter ->
  forall (s : seq P) (f : P -> int) (D : diagram P [eqType of nat]),
  closed_seq A den s -> uniq s -> sorted (fun p q => (a_degree A p <= a_degree A q)%N) s ->
  cassigned [seq p <- s | const den p] f D ->
  forall (F : closedFieldType) (ev : {rmorphism C -> F}), [char F] =i pred0 ->
  (forall q, q \in s -> const den q -> f q = nz (cvalue den ev q)) ->
  exists2 D', complex_extend A setiter D [seq p <- s | ~~ const den p] = Ok D' & zero_table den ev s D'.
Proof. exact: cextend_realizable. Qed.
Print Assumptions C62_realizable_assignment.

Theorem C62_any_assignment :
  forall (P : eqType) (K : realDomainType) (A : algebra P K) (C : idomainType) (den : P -> {poly C}),
  algebra_contract A den ->
  forall setiter : seq P -> seq P, set_order setiter ->
  forall (s : seq P) (f : P -> int) (D : diagram P [eqType of nat]),
  closed_seq A den s -> uniq s -> sorted (fun p q => (a_degree A p <= a_degree A q)%N) s ->
  cassigned [seq p <- s | const den p] f D -> f (a_zero A) = 0 ->
  exists2 D', complex_extend A setiter D [seq p <- s | ~~ const den p] = Ok D' & rows D' =i s.
Proof. exact: cextend_any. Qed.
Print Assumptions C62_any_assignment.

(** The values at y = 1 for x^2 + y. *)
Example C62_case : forall F : closedFieldType, [char F] =i pred0 -> exists s f D,
  [/\ closed_seq algxy idx s, uniq s, sorted (fun p q => (a_degree algxy p <= a_degree algxy q)%N) s,
      cassigned [seq p <- s | const idx p] f D & px_x2y \in s] /\
  forall q, q \in s -> const idx q -> f q = nz (cvalue idx (cevy (1 : F)) q).
Proof. exact: x2y_crealizable. Qed.

(** ** C63: the partial procedures.  Their default argument never works; the
    real one can raise DiagramExc, the complex one raises nothing. *)

Theorem C63_default_assigner :
  forall (P : eqType) (K : realDomainType) (A : algebra P K) (C : idomainType) (den : P -> {poly C}),
  algebra_contract A den ->
  forall setiter : seq P -> seq P,
  forall ps : seq P, exists N, forall n, (N <= n)%N ->
  complex_partial A setiter n ps None = Err TypeError /\ real_partial A setiter n ps None = Err TypeError.
Proof. exact: partial_default. Qed.
Print Assumptions C63_default_assigner.

Theorem C63_run_real_refuted :
  exists ps, real_partial algxy id 50 ps (Some (fun cf => Ok (r_assignment_all algxy 0 cf))) = Err DiagramExc.
Proof. exact: real_partial_refuted. Qed.
Print Assumptions C63_run_real_refuted.

Theorem C63_run_real :
  forall (P : eqType) (K : realDomainType) (A : algebra P K) (C : idomainType) (den : P -> {poly C}),
  algebra_contract A den ->
  forall setiter : seq P -> seq P, set_order setiter ->
  forall (ps : seq P) (v : int), exists N, (forall n, (N <= n)%N ->
     real_partial A setiter n ps (Some (fun cf => Ok (r_assignment_all A v cf))) = Err DiagramExc) \/
  exists D, forall n, (N <= n)%N ->
    real_partial A setiter n ps (Some (fun cf => Ok (r_assignment_all A v cf))) = Ok D /\ {subset ps <= rows D}.
Proof. exact: real_partial_any. Qed.
Print Assumptions C63_run_real.

Theorem C63_run_complex :
  forall (P : eqType) (K : realDomainType) (A : algebra P K) (C : idomainType) (den : P -> {poly C}),
  algebra_contract A den ->
  forall setiter : seq P -> seq P, set_order setiter ->
  forall (ps : seq P) assigner,
  assigner = c_assignment_all_one A \/ assigner = c_assignment_all_zero A ->
  exists N D, forall n, (N <= n)%N ->
    complex_partial A setiter n ps (Some (fun cf => Ok (assigner cf))) = Ok D /\ {subset ps <= rows D}.
Proof. exact: complex_partial_ok. Qed.
Print Assumptions C63_run_complex.
