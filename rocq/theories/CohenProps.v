(** Property theorems about highschool_qe/cohenhorm.py (C37-C40, C65). *)
From Coq Require Import ZArith String.
From mathcomp Require Import all_ssreflect all_algebra all_real_closed.
From Verif Require Import Py VtsInst MuchModel MuchSpec MuchInst MuchEx CohenModel CohenSpec CohenSem CohenReal
  CohenSplit CohenEx CohenEx2.

Set Implicit Arguments.
Unset Strict Implicit.
Unset Printing Implicit Defensive.
Import GRing.Theory Num.Theory Order.TTheory.
Local Open Scope ring_scope.

(** ** C37: real_full without parameters. *)

Theorem C37_real_full_closed :
  forall (P : eqType) (K : realDomainType) (A : algebra P K) (C : idomainType) (den : P -> {poly C}),
  algebra_contract A den -> scalars_exact A den -> [char C] =i pred0 ->
  forall (ss_of : seq P -> seq P) (ss_plus : seq P -> P -> seq P), degree_sets A ss_of ss_plus ->
  forall setiter : seq P -> seq P, set_order setiter ->
  forall lesser equalities greater : seq P, let ps := lesser ++ equalities ++ greater in
  ps <> [::] -> a_zero A \notin ps ->
  (forall p, generated A den ps p -> ~~ a_has_variable A (a_LC A p)) ->
  exists N dnf,
  (forall n, (N <= n)%N -> ch_real_full A ss_of ss_plus setiter n lesser equalities greater = Ok dnf) /\
  forall (R : rcfType) (ev : {rmorphism C -> R}), sign_ok A den ev ->
  dnf <> [::] <-> exists x, real_sat den ev lesser equalities greater x.
Proof. exact: ch_closed. Qed.
Print Assumptions C37_real_full_closed.

(** x^2 = 2, x > 0, and x^2 < 2, x^2 > 2. *)
Example C37_contracts : degree_sets algxy deg_set deg_plus /\ [char Cy] =i pred0.
Proof. by split; [exact: deg_set_contract|exact: Cy_char]. Qed.
Example C37_closed : forall p, generated algxy idx ([::] ++ [:: px_x2m2] ++ [:: px_x]) p ->
  ~~ a_has_variable algxy (a_LC algxy p).
Proof. exact: sqrt2_closed. Qed.
Example C37_nonzero : a_zero algxy \notin [::] ++ [:: px_x2m2] ++ [:: px_x].
Proof. exact: sqrt2_nonzero. Qed.
Example C37_run : showc (run 20 [::] [:: px_x2m2] [:: px_x]) = Some [:: ([::], [::], [::])].
Proof. exact: sqrt2_run. Qed.
Example C37_none : showc (run 20 [:: px_x2m2] [::] [:: px_x2m2]) = Some [::].
Proof. exact: sqrt2_none. Qed.

(** ** C38: real_full with parameters. *)

(** The polynomials of largest degree have scalar leading coefficients. *)
Theorem C38_real_full_accepted :
  forall (P : eqType) (K : realDomainType) (A : algebra P K) (C : idomainType) (den : P -> {poly C}),
  algebra_contract A den -> scalars_exact A den -> [char C] =i pred0 ->
  forall (ss_of : seq P -> seq P) (ss_plus : seq P -> P -> seq P), degree_sets A ss_of ss_plus ->
  forall setiter : seq P -> seq P, set_order setiter ->
  forall lesser equalities greater : seq P,
  accepted A den [::] (lesser ++ equalities ++ greater) ->
  exists N dnf,
  (forall n, (N <= n)%N -> ch_real_full A ss_of ss_plus setiter n lesser equalities greater = Ok dnf) /\
  forall (R : rcfType) (ev : {rmorphism C -> R}), sign_ok A den ev ->
  (exists x, real_sat den ev lesser equalities greater x) <->
  (exists2 c, c \in dnf & real_clause_holds den ev c).
Proof. exact: ch_real_full_ok. Qed.
Print Assumptions C38_real_full_accepted.

(** x^2 + y = 0, x > 0: y must be negative. *)
Example C38_accepted : accepted algxy idx [::] ([::] ++ [:: px_x2y] ++ [:: px_x]).
Proof. exact: x2y_accepted. Qed.
Local Open Scope Z_scope.
Example C38_run : showc (run 20 [::] [:: px_x2y] [:: px_x]) = Some
  [:: ([:: [:: [:: 0; 4]]; [:: [:: 0; 1]]], [::], [::]);
      ([:: [:: [:: 0; 4]]], [:: [:: [:: 0; 1]]], [::]);
      ([:: [:: [:: 0; 4]]], [::], [:: [:: [:: 0; 1]]])].
Proof. exact: x2y_full. Qed.
Local Close Scope Z_scope.

(** The solutions of y x = 0 with y = 0 are lost. *)
Theorem C38_lost_refuted : forall R : rcfType, exists lesser equalities greater dnf,
  run 20 lesser equalities greater = Ok dnf /\
  (exists x, real_sat idx (evy (0 : R)) lesser equalities greater x) /\
  ~ (exists2 c, c \in dnf & real_clause_holds idx (evy (0 : R)) c).
Proof. exact: lost_refuted. Qed.
Print Assumptions C38_lost_refuted.

(** x < 0, y x^2 + 1 = 0, y = 0 is accepted at y = 0 but has no solution. *)
Theorem C38_invented_refuted : forall R : rcfType, exists lesser equalities greater dnf,
  [/\ run 20 lesser equalities greater = Ok dnf,
      forall y x : R, ~ real_sat idx (evy y) lesser equalities greater x &
      exists2 c, c \in dnf & real_clause_holds idx (evy (0 : R)) c].
Proof. exact: invented_refuted. Qed.
Print Assumptions C38_invented_refuted.

(** y x^2 = 0 raises. *)
Theorem C38_raise_refuted : forall (R : rcfType) (y : R),
  run 20 [::] [:: px_yxx] [::] = Err (Exc "no key") /\
  exists x, real_sat idx (evy y) [::] [:: px_yxx] [::] x.
Proof. exact: raise_refuted. Qed.
Print Assumptions C38_raise_refuted.

(** The empty problem, and 0 = 0, 5 > 0. *)
Theorem C38_empty_refuted : forall (R : rcfType) (y : R),
  run 20 [::] [::] [::] = Ok [::] /\ exists x, real_sat idx (evy y) [::] [::] [::] x.
Proof. exact: empty_refuted. Qed.
Print Assumptions C38_empty_refuted.

Theorem C38_zero_refuted : forall (R : rcfType) (y : R),
  run 20 [::] [:: px_0] [:: px_5] = Ok [::] /\
  exists x, real_sat idx (evy y) [::] [:: px_0] [:: px_5] x.
Proof. exact: zero_refuted. Qed.
Print Assumptions C38_zero_refuted.

(** ** C39: copy_table. *)

Theorem C39_copy_table_condensed :
  forall (P : eqType) (K : realDomainType) (A : algebra P K) (C : idomainType) (den : P -> {poly C}),
  algebra_contract A den -> scalars_exact A den ->
  forall setiter : seq P -> seq P, set_order setiter ->
  forall (R : rcfType) (ev : {rmorphism C -> R}), sign_ok A den ev ->
  forall (T : diagram P [eqType of rat]) (needed : seq P) (con : context P) (s : seq P),
  rows T =i s -> faithful den ev s T -> consistent den ev con ->
  s != [::] -> needed != [::] -> {subset needed <= s} ->
  (forall p, p \in needed -> deg A p <= 0 -> a_has_variable A p -> dmem con p) ->
  exists2 T', copy_table A setiter T needed con = Ok T' & rows T' =i needed /\ condensed den ev needed T'.
Proof. exact: copy_condensed. Qed.
Print Assumptions C39_copy_table_condensed.

(** A table of x and x + 1. *)
Example C39_table : forall (R : rcfType) (y : R),
  rows tab_x =i [:: px_x; px_xp1] /\ faithful idx (evy y) [:: px_x; px_xp1] tab_x.
Proof. by move=> R y; split; [exact: tab_rows|exact: tab_faithful]. Qed.
(** Two of the seven columns disappear; the last entry is the new column of
    the first interval. *)
Example C39_run : (if copy_table algxy id tab_x [:: px_xp1] [::] is Ok T' then
   [seq x.2 | x <- row T' px_xp1] else [::]) = [:: -1; 0; 1; 1; -1].
Proof. by vm_compute. Qed.

(** ** C40: expand_context. *)

Theorem C40_expand_context_cases :
  forall (P : eqType) (K : realDomainType) (A : algebra P K) (C : idomainType) (den : P -> {poly C}),
  algebra_contract A den -> scalars_exact A den ->
  forall (con : context P) (polies : seq P),
  exists N h es, (forall n, (N <= n)%N -> expand_context A n [:: [::]] con polies 0 = Ok (h, es)) /\
  forall (R : rcfType) (ev : {rmorphism C -> R}), sign_ok A den ev ->
    count (fun e => consistent den ev e.1.1) es = consistent den ev con /\
    forall e, List.In e es -> consistent den ev e.1.1 -> forall p, p \in polies ->
    exists q, [/\ dget (hget h e.2) p = Ok q, q \in e.1.2,
      map_poly ev (den q) = map_poly ev (den p) &
      q = a_zero A \/ ev (lead_coef (den q)) != 0].
Proof. exact: expand_context_cases. Qed.
Print Assumptions C40_expand_context_cases.

Example C40_contract : algebra_contract algxy idx /\ scalars_exact algxy idx.
Proof. by split; [exact: idx_contract|exact: idx_scalars]. Qed.
Example C40_sign : forall (R : rcfType) (y : R), sign_ok algxy idx (evy y).
Proof. exact: idx_sign_ok. Qed.
Local Open Scope Z_scope.
(** y x^2 + 1 becomes 1 when y is zero. *)
Example C40_run : showe (expand_context algxy 10 [:: [::]] [::] [:: px_yx2; px_x] 0) = Some
  [:: ([:: ([:: [:: 0; 1]], (-1)%R)], [:: [:: [::]; [:: 1]]; [:: [:: 1]; [::]; [:: 0; 1]]]);
      ([:: ([:: [:: 0; 1]], 0%R)], [:: [:: [::]; [:: 1]]; [:: [:: 1]]]);
      ([:: ([:: [:: 0; 1]], 1%R)], [:: [:: [::]; [:: 1]]; [:: [:: 1]; [::]; [:: 0; 1]]])].
Proof. exact: yx2_run. Qed.
Local Close Scope Z_scope.

(** The same for the constants that are split later. *)
Theorem C40_split_constant :
  forall (P : eqType) (K : realDomainType) (A : algebra P K) (C : idomainType) (den : P -> {poly C}),
  forall (m : P) (tables : seq (diagram P [eqType of rat] * context P)),
  (forall (R : rcfType) (ev : {rmorphism C -> R}), sign_ok A den ev ->
     count (fun x => consistent den ev x.2) (split_constant A m tables) =
     count (fun x => consistent den ev x.2) tables) /\
  forall y, List.In y (split_constant A m tables) ->
    (deg A m == 0 -> a_has_variable A (a_LC A m) -> dmem y.2 (a_LC A m)) /\
    exists2 x, List.In x tables & y.1 = x.1 /\ extends x.2 y.2.
Proof. exact: split_cases. Qed.
Print Assumptions C40_split_constant.

(** The constant y. *)
Example C40_split_run :
  [seq map snd x.2 | x <- split_constant algxy px_y [:: (tab_x, [::])]] = [:: [:: -1]; [:: 0]; [:: 1]].
Proof. by vm_compute. Qed.

(** ** C65: real_table. *)

Theorem C65_real_table_condensed :
  forall (P : eqType) (K : realDomainType) (A : algebra P K) (C : idomainType) (den : P -> {poly C}),
  algebra_contract A den -> scalars_exact A den -> [char C] =i pred0 ->
  forall (ss_of : seq P -> seq P) (ss_plus : seq P -> P -> seq P), degree_sets A ss_of ss_plus ->
  forall setiter : seq P -> seq P, set_order setiter ->
  forall (con : context P) (polys : seq P), accepted A den con polys ->
  uniq (map fst con) -> (forall k s, dget con k = Ok s -> s \in [:: -1; 0; 1]) ->
  exists N ret, (forall n, (N <= n)%N -> real_table A ss_of ss_plus setiter n polys con = Ok ret) /\
  forall (R : rcfType) (ev : {rmorphism C -> R}), sign_ok A den ev ->
    count (fun x => consistent den ev x.2) ret = consistent den ev con /\
    forall x, List.In x ret -> extends con x.2 /\
      (consistent den ev x.2 -> rows x.1 =i polys /\ condensed den ev polys x.1).
Proof. exact: real_table_cases. Qed.
Print Assumptions C65_real_table_condensed.

(** y x^2 + 1 where y is known to be positive. *)
Example C65_accepted : accepted algxy idx [:: (px_y, 1)] [:: px_yx2].
Proof. exact: yx2_accepted. Qed.
