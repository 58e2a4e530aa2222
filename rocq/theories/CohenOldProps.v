(** Property theorems about highschool_qe/cohenhorm - Copy.py (C101-C103). *)
From Coq Require Import ZArith String.
From mathcomp Require Import all_ssreflect all_algebra all_real_closed.
From Verif Require Import Py VtsInst MuchModel MuchSpec MuchInst MuchFull MuchEx CohenModel CohenSpec CohenEx CohenEx2.
From Verif Require Import CohenOld CohenOldStop CohenOldFacts CohenOldEx.

Set Implicit Arguments.
Unset Strict Implicit.
Unset Printing Implicit Defensive.
Import GRing.Theory Num.Theory Order.TTheory.
Local Open Scope ring_scope.

(** ** C101: real_full starts with -1 iterations. *)

Theorem C101_real_full_raises :
  forall (P : eqType) (K : realDomainType) (A : algebra P K) (ss_of : seq P -> seq P) (ss_plus : seq P -> P -> seq P)
    (setiter : seq P -> seq P) (equalities : seq P),
  old_real_full A ss_of ss_plus setiter equalities = Err (Exc "iter").
Proof. exact: old_full_raises. Qed.
Print Assumptions C101_real_full_raises.

(** With the iterations it would need, _real_table returns the tables of x^2 + y. *)
Local Open Scope Z_scope.
Example C101_other_run : showo (orun [:: px_x2y] [::] 10%R) = Ok
  [:: ([:: ([:: [::]; [:: 2]], [:: -1; -1; -1; -1; 0; 1; 1; 1; 1]%R);
           ([:: [:: 0; 1]; [::]; [:: 1]], [:: 1; 1; 0; -1; -1; -1; 0; 1; 1]%R)], [:: ([:: [:: 0; 4]], (-1)%R)]);
      ([:: ([:: [::]; [:: 2]], [:: -1; -1; 0; 1; 1]%R);
           ([:: [:: 0; 1]; [::]; [:: 1]], [:: 1; 1; 0; 1; 1]%R)], [:: ([:: [:: 0; 4]], (0)%R)]);
      ([:: ([:: [::]; [:: 2]], [:: -1; -1; 0; 1; 1]%R);
           ([:: [:: 0; 1]; [::]; [:: 1]], [:: 1; 1; 1; 1; 1]%R)], [:: ([:: [:: 0; 4]], (1)%R)])].
Proof. exact: x2y_old. Qed.
Local Close Scope Z_scope.

(** ** C102: the argument iter only bounds the depth of the recursion. *)

(** More iterations give the same result, unless there were too few. *)
Theorem C102_more :
  forall (P : eqType) (K : realDomainType) (A : algebra P K) (ss_of : seq P -> seq P) (ss_plus : seq P -> P -> seq P)
    (setiter : seq P -> seq P) (polys : seq P) (con : context P) (iter iter' : int), iter <= iter' ->
  old_table A ss_of ss_plus setiter polys con iter <> Err (Exc "iter") ->
  old_table A ss_of ss_plus setiter polys con iter' = old_table A ss_of ss_plus setiter polys con iter.
Proof. exact: old_more. Qed.
Print Assumptions C102_more.

(** Some number of iterations is enough; the recursion stops by itself. *)
Theorem C102_enough :
  forall (P : eqType) (K : realDomainType) (A : algebra P K) (ss_of : seq P -> seq P) (ss_plus : seq P -> P -> seq P)
    (setiter : seq P -> seq P) (C : idomainType) (den : P -> {poly C}),
  algebra_contract A den -> degree_sets A ss_of ss_plus ->
  forall (polys : seq P) (con : context P),
  exists N r, [/\ r <> Err (Exc "iter"), r <> Err OutOfFuel &
    forall iter : int, N <= iter -> old_table A ss_of ss_plus setiter polys con iter = r].
Proof. exact: old_enough. Qed.
Print Assumptions C102_enough.

(** x^2 + y needs 3; the hypotheses: C37_contracts. *)
Example C102_run :
  [seq (if orun [:: px_x2y] [::] i is Err (Exc s) then s else ""%string) | i <- [:: 0; 1; 2; 3]] =
  [:: "iter"; "iter"; "iter"; ""]%string.
Proof. exact: x2y_few. Qed.

(** ** C103: the tables that are returned. *)

(** The contexts cover the parameter values once; a table is the sign table of
    its rows wherever its context holds; every polynomial has a row, or what is
    left of it under the context has one. *)
Theorem C103_tables :
  forall (P : eqType) (K : realDomainType) (A : algebra P K) (C : idomainType) (den : P -> {poly C}),
  algebra_contract A den -> scalars_exact A den -> [char C] =i pred0 ->
  forall (ss_of : seq P -> seq P) (ss_plus : seq P -> P -> seq P), degree_sets A ss_of ss_plus ->
  forall setiter : seq P -> seq P, set_order setiter ->
  forall (con : context P) (polys : seq P) (iter : int) ret, accepted A den con polys ->
  uniq (map fst con) -> (forall k s, dget con k = Ok s -> s \in [:: -1; 0; 1]) ->
  old_table A ss_of ss_plus setiter polys con iter = Ok ret ->
  forall (R : rcfType) (ev : {rmorphism C -> R}), sign_ok A den ev ->
    count (fun x => consistent den ev x.2) ret = consistent den ev con /\
    forall x, List.In x ret -> [/\ extends con x.2,
      (forall p, p \in polys -> p \in rows x.1 \/ exists2 q, q \in rows x.1 & reduces A x.2 p q) &
      consistent den ev x.2 -> condensed den ev (rows x.1) x.1].
Proof. exact: old_table_right. Qed.
Print Assumptions C103_tables.

(** x^2 + y; the run is C101_other_run. *)
Example C103_accepted : accepted algxy idx [::] [:: px_x2y].
Proof. exact: x2y_old_accepted. Qed.

(** A polynomial of the problem need not have a row: x^2 - 1 and y x + 1 where y
    is zero. *)
Theorem C103_rows_refuted : exists (con : context Pxy) (polys : seq Pxy) (iter : int) ret x p,
  [/\ accepted algxy idx con polys, old_table algxy deg_set deg_plus id polys con iter = Ok ret,
      List.In x ret, p \in polys & p \notin rows x.1].
Proof. exact: old_rows_missing_refuted. Qed.
Print Assumptions C103_rows_refuted.

(** There need not be tables: x^3 - x. *)
Theorem C103_raises_refuted : exists polys : seq Pxy, accepted algxy idx [::] polys /\
  forall iter, old_table algxy deg_set deg_plus id polys [::] iter = Err (Exc "iter") \/
    old_table algxy deg_set deg_plus id polys [::] iter = Err KeyError.
Proof. exact: old_raises_refuted. Qed.
Print Assumptions C103_raises_refuted.
