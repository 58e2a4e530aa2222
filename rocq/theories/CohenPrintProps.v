(** Property theorems about what real_full of highschool_qe/cohenhorm.py prints
    (C100). *)
From Coq Require Import ZArith String.
From mathcomp Require Import all_ssreflect all_algebra all_real_closed.
From Verif Require Import Py VtsInst MuchModel MuchSpec MuchInst MuchEx MuchPrint CohenModel CohenSpec CohenEx CohenEx2
  CohenPrint.

Set Implicit Arguments.
Unset Strict Implicit.
Unset Printing Implicit Defensive.
Import GRing.Theory Num.Theory Order.TTheory.
Local Open Scope ring_scope.

(** Printing does not change the result. *)
Theorem C100_same_result :
  forall (P : eqType) (K : realDomainType) (A : algebra P K) (ss_of : seq P -> seq P) (ss_plus : seq P -> P -> seq P)
    (setiter : seq P -> seq P), set_order setiter ->
  forall (str : P -> string) (istr : int -> string) (cstr : context P -> string) (row_order : seq P -> seq P),
  set_order row_order ->
  forall (n : nat) (l e g : seq P),
  (let! x := ch_real_full_out A ss_of ss_plus setiter str istr cstr row_order n l e g in Ok x.1) =
  ch_real_full A ss_of ss_plus setiter n l e g.
Proof. exact: out_agrees. Qed.
Print Assumptions C100_same_result.

(** The text is a heading and one block for each clause that is returned.  A
    block has a row for each polynomial of the problem, a sign in every column,
    and a column with the required signs.  The problem has a solution at a
    parameter value exactly if the context of one block holds there; its table
    is then the sign table of the polynomials. *)
Theorem C100_suitable :
  forall (P : eqType) (K : realDomainType) (A : algebra P K) (C : idomainType) (den : P -> {poly C}),
  algebra_contract A den -> scalars_exact A den -> [char C] =i pred0 ->
  forall (ss_of : seq P -> seq P) (ss_plus : seq P -> P -> seq P), degree_sets A ss_of ss_plus ->
  forall setiter : seq P -> seq P, set_order setiter ->
  forall (str : P -> string) (istr : int -> string) (cstr : context P -> string) (row_order : seq P -> seq P),
  set_order row_order ->
  forall lesser equalities greater : seq P, let ps := lesser ++ equalities ++ greater in
  accepted A den [::] ps ->
  exists N (bs : seq ((diagram P [eqType of rat] * context P) * seq string)), [/\
  forall n, (N <= n)%N ->
    ch_real_full_out A ss_of ss_plus setiter str istr cstr row_order n lesser equalities greater =
    Ok ([seq clause_of_context b.1.2 | b <- bs], unlines (ch_heading ++ flatten (map snd bs))),
  forall b, List.In b bs -> [/\ ch_block str istr cstr b.1 b.2, rows b.1.1 =i ps,
    {in ps &, forall q q', cols b.1.1 q =i cols b.1.1 q'} & exists c, solution_column lesser equalities greater b.1.1 c] &
  forall (R : rcfType) (ev : {rmorphism C -> R}), sign_ok A den ev ->
    ((exists x, real_sat den ev lesser equalities greater x) <->
     count (fun b => consistent den ev b.1.2) bs = 1%N) /\
    (count (fun b => consistent den ev b.1.2) bs <= 1)%N /\
    forall b, List.In b bs -> consistent den ev b.1.2 -> condensed den ev ps b.1.1].
Proof. exact: suitable_printed. Qed.
Print Assumptions C100_suitable.

(** x^2 + y = 0, x > 0; the hypotheses: C37_contracts and C38_accepted. *)
Example C100_run : (if ch_real_full_out algxy deg_set deg_plus id ch_name show_sign ch_cstr id 20 [::] [:: px_x2y] [:: px_x]
    is Ok x then Some x.2 else None) = Some (unlines
  [:: ""; ""; ""; "SUITABLE TABLES:"; "";
      "context: {4*y: -1, y: -1}"; "--------";
      "x**2 + y     1  1  0 -1 -1 -1  0  1  1 ";
      "       x    -1 -1 -1 -1  0  1  1  1  1 "; "";
      "context: {4*y: -1, y: 0}"; "--------";
      "x**2 + y     1  1  0 -1 -1 -1  0  1  1 ";
      "       x    -1 -1 -1 -1  0  1  1  1  1 "; "";
      "context: {4*y: -1, y: 1}"; "--------";
      "x**2 + y     1  1  0 -1 -1 -1  0  1  1 ";
      "       x    -1 -1 -1 -1  0  1  1  1  1 "; ""])%string.
Proof. exact: ch_printed. Qed.

(** Tables are printed and clauses returned for contexts that hold nowhere. *)
Theorem C100_impossible_refuted : exists lesser equalities greater clauses text,
  [/\ accepted algxy idx [::] (lesser ++ equalities ++ greater),
      ch_real_full_out algxy deg_set deg_plus id ch_name show_sign ch_cstr id 20 lesser equalities greater =
        Ok (clauses, text) &
      exists2 c, c \in clauses & forall (R : rcfType) (y : R), ~ real_clause_holds idx (evy y) c].
Proof. exact: impossible_printed. Qed.
Print Assumptions C100_impossible_refuted.
