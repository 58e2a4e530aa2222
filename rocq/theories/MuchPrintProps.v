(** Property theorems about the dialogues and the output of
    highschool_qe/muchnik.py (C93, C94). *)
From Coq Require Import ZArith String.
From mathcomp Require Import all_ssreflect all_algebra all_real_closed.
From Verif Require Import Py VtsInst MuchModel MuchSpec MuchInst MuchFull MuchEx MuchCFull MuchCEx MuchInter MuchPrint.

Set Implicit Arguments.
Unset Strict Implicit.
Unset Printing Implicit Defensive.
Import GRing.Theory Num.Theory Order.TTheory.
Local Open Scope ring_scope.

(** ** C93: the interactive assignments. *)

Theorem C93_interactive_real :
  forall (P : eqType) (K : realDomainType) (A : algebra P K) (C : idomainType) (den : P -> {poly C}),
  algebra_contract A den ->
  forall setiter : seq P -> seq P, set_order setiter ->
  forall ps : seq P, exists N s,
  [/\ uniq s, {subset ps <= s} & forall p, p \in s <-> generated A den ps p] /\
  forall n inp, (N <= n)%N ->
  let asked := [seq p <- s | const den p & a_has_variable A p] in
  let answers := pmap real_answer inp in
  let run := real_partial A setiter n ps (Some (answering (r_assignment_interactive A) inp)) in
  [/\ (size answers < size asked)%N -> run = Err EOFError,
      (size asked <= size answers)%N -> run = Err DiagramExc \/ exists2 D, run = Ok D & rows D =i s &
      (size asked <= size answers)%N -> forall (R : rcfType) (ev : {rmorphism C -> R}), sign_ok A den ev ->
        (forall q, q \in asked -> nth 0 answers (index q asked) = sgz (cvalue den ev q)) ->
        exists2 D, run = Ok D & sign_table den ev s D].
Proof. exact: real_interactive. Qed.
Print Assumptions C93_interactive_real.

(** The contract is met: C28.  For x^2 + y the signs of y and of 4y are asked
    for. *)
Example C93_run : (let! D := typed_diagram in pprint_diagram algxy name show_sign <%R D) = Ok (unlines
  [:: "       0     0  0  0  0  0  0  0  0  0 ";
      "       y    -1 -1 -1 -1 -1 -1 -1 -1 -1 ";
      "       2     1  1  1  1  1  1  1  1  1 ";
      "     4*y    -1 -1 -1 -1 -1 -1 -1 -1 -1 ";
      "     2*x    -1 -1 -1 -1  0  1  1  1  1 ";
      "x**2 + y     1  1  0 -1 -1 -1  0  1  1 ";
      ""]%string).
Proof. exact: typed_run. Qed.
Example C93_short : (if real_partial algxy id 50 [:: px_x2y]
    (Some (answering (r_assignment_interactive algxy) (take 2 typed))) is Err EOFError then true else false).
Proof. exact: typed_short. Qed.

Theorem C93_interactive_complex :
  forall (P : eqType) (K : realDomainType) (A : algebra P K) (C : idomainType) (den : P -> {poly C}),
  algebra_contract A den ->
  forall setiter : seq P -> seq P, set_order setiter ->
  forall ps : seq P, exists N s,
  [/\ uniq s, {subset ps <= s} & forall p, p \in s <-> generated A den ps p] /\
  forall n inp, (N <= n)%N ->
  let asked := [seq p <- s | const den p & a_has_variable A p] in
  let answers := pmap complex_answer inp in
  let run := complex_partial A setiter n ps (Some (answering (c_assignment_interactive A) inp)) in
  [/\ (size answers < size asked)%N -> run = Err EOFError,
      (size asked <= size answers)%N -> exists2 D, run = Ok D & rows D =i s &
      (size asked <= size answers)%N -> forall (F : closedFieldType) (ev : {rmorphism C -> F}),
        [char F] =i pred0 -> scalars_ok A den ev ->
        (forall q, q \in asked -> nth 0 answers (index q asked) = nz (cvalue den ev q)) ->
        exists2 D, run = Ok D & zero_table den ev s D].
Proof. exact: complex_interactive. Qed.
Print Assumptions C93_interactive_complex.

(** The line -1 is no answer here. *)
Example C93_crun : (let! D := complex_partial algxy id 50 [:: px_x2y] (Some (answering (c_assignment_interactive algxy)
    [:: "1"; "-1"; "1"]%string)) in pprint_diagram algxy name show_sign ltn D) = Ok (unlines
  [:: "       0     0  0  0  0 ";
      "       y     1  1  1  1 ";
      "       2     1  1  1  1 ";
      "     4*y     1  1  1  1 ";
      "     2*x     1  0  1  1 ";
      "x**2 + y     1  1  0  0 ";
      ""]%string).
Proof. exact: ctyped_run. Qed.

(** Nothing is read after the last answer. *)
Theorem C93_reads_real :
  forall (P : eqType) (K : realDomainType) (A : algebra P K) (cf : seq P) (inp : seq string) D rest,
  uniq cf -> r_assignment_interactive A inp cf = Ok (D, rest) ->
  reads_answers real_answer (size [seq p <- cf | a_has_variable A p]) inp rest.
Proof. exact: r_reads. Qed.
Print Assumptions C93_reads_real.

Theorem C93_reads_complex :
  forall (P : eqType) (K : realDomainType) (A : algebra P K) (C : idomainType) (den : P -> {poly C}),
  algebra_contract A den ->
  forall (cf : seq P) (inp : seq string) D rest,
  uniq cf -> c_assignment_interactive A inp cf = Ok (D, rest) ->
  reads_answers complex_answer (size [seq p <- cf | a_has_variable A p]) inp rest.
Proof. exact: c_reads. Qed.
Print Assumptions C93_reads_complex.

(** The last line of [typed] is left. *)
Local Open Scope Z_scope.
Example C93_rest : (if r_assignment_interactive algxy typed [:: px [:: [:: 0; 1]]; px [:: [:: 2]]; px [:: [:: 0; 4]]]
  is Ok (_, rest) then rest else typed) = [:: "1"]%string.
Proof. by vm_compute. Qed.
Local Close Scope Z_scope.

(** ** C94: what is printed. *)

Theorem C94_real_answer :
  forall (P : eqType) (K : realDomainType) (A : algebra P K) (str : P -> string) (C : idomainType) (den : P -> {poly C}),
  algebra_contract A den ->
  forall setiter : seq P -> seq P, set_order setiter ->
  forall lesser equalities greater : seq P, exists N dnf b,
  (forall n, (N <= n)%N -> real_full A setiter n lesser equalities greater = Ok (dnf, b)) /\
  print_real str dnf = Ok (unlines (answer_lines (map (real_atoms str) dnf))).
Proof. exact: real_printed. Qed.
Print Assumptions C94_real_answer.

Theorem C94_complex_answer :
  forall (P : eqType) (K : realDomainType) (A : algebra P K) (str : P -> string) (C : idomainType) (den : P -> {poly C}),
  algebra_contract A den ->
  forall setiter : seq P -> seq P, set_order setiter ->
  forall equalities inequalities : seq P, exists N dnf b,
  (forall n, (N <= n)%N -> complex_full A setiter n equalities inequalities = Ok (dnf, b)) /\
  print_complex str dnf = Ok (unlines (answer_lines (map (complex_atoms str) dnf))).
Proof. exact: complex_printed. Qed.
Print Assumptions C94_complex_answer.

Example C94_run : (let! r := complex_full algxy id 50 [:: px_x2y] [:: px_x] in print_complex name r.1) = Ok (unlines
  [:: "ans:"; "("; "  4*y == 0 & "; "  y != 0"; ") | "; "("; "  y != 0 & "; "  4*y != 0"; ")"]%string).
Proof. exact: printed_run. Qed.

(** The function cannot print a clause without atoms, the true one. *)
Theorem C94_true_clause_raises :
  forall (P : eqType) (str : P -> string) (dnf : seq (seq P * seq P * seq P)),
  ([::], [::], [::]) \in dnf -> print_real str dnf = Err TypeError.
Proof. exact: empty_clause. Qed.
Print Assumptions C94_true_clause_raises.

Example C94_true_clause : print_real (fun n : nat => ""%string) [:: ([::], [::], [::])] = Err TypeError.
Proof. by vm_compute. Qed.

(** Any diagram with a row is printed in full. *)
Theorem C94_table :
  forall (P : eqType) (K : realDomainType) (A : algebra P K) (str : P -> string) (istr : int -> string)
    (C : eqType) (lt : rel C) (D : diagram P C),
  (forall x y, x != y -> ~~ lt x y -> lt y x) -> rows D <> [::] -> exists2 text,
  pprint_diagram A str istr lt D = Ok text & printed_table A str istr lt D text.
Proof. exact: print_rows. Qed.
Print Assumptions C94_table.

(** The diagrams that real_extend and complex_extend return have no stars. *)
Theorem C94_real_table :
  forall (P : eqType) (K : realDomainType) (A : algebra P K) (str : P -> string) (istr : int -> string)
    (C : idomainType) (den : P -> {poly C}),
  algebra_contract A den ->
  forall setiter : seq P -> seq P, set_order setiter ->
  forall (s : seq P) (f : P -> int),
  closed_seq A den s -> uniq s -> sorted (fun p q => (a_degree A p <= a_degree A q)%N) s -> f (a_zero A) = 0 ->
  forall D : diagram P [eqType of rat], assigned [seq p <- s | const den p] f D ->
  real_extend A setiter D [seq p <- s | ~~ const den p] = Err DiagramExc \/
  exists D' text, [/\ real_extend A setiter D [seq p <- s | ~~ const den p] = Ok D', rows D' =i s,
    {in s &, forall q q', cols D' q =i cols D' q'},
    pprint_diagram A str istr <%R D' = Ok text & printed_table A str istr <%R D' text].
Proof. exact: real_table_printed. Qed.
Print Assumptions C94_real_table.

Theorem C94_complex_table :
  forall (P : eqType) (K : realDomainType) (A : algebra P K) (str : P -> string) (istr : int -> string)
    (C : idomainType) (den : P -> {poly C}),
  algebra_contract A den ->
  forall setiter : seq P -> seq P, set_order setiter ->
  forall (s : seq P) (f : P -> int),
  closed_seq A den s -> uniq s -> sorted (fun p q => (a_degree A p <= a_degree A q)%N) s -> f (a_zero A) = 0 ->
  forall D : diagram P [eqType of nat], cassigned [seq p <- s | const den p] f D ->
  exists D' text, [/\ complex_extend A setiter D [seq p <- s | ~~ const den p] = Ok D', rows D' =i s,
    {in s &, forall q q', cols D' q =i cols D' q'},
    pprint_diagram A str istr ltn D' = Ok text & printed_table A str istr ltn D' text].
Proof. exact: complex_table_printed. Qed.
Print Assumptions C94_complex_table.
(** Runs: C93_run and C93_crun; the hypotheses: C33_case and C62_case. *)

(** Names and signs are padded on the left with spaces, ... *)
Theorem C94_padding : forall n s, String.length (pad n s) = maxn n (String.length s) /\
  exists2 t, pad n s = String.append t s & blank t.
Proof. exact: padding. Qed.
Print Assumptions C94_padding.

(** ... so that the columns are below each other. *)
Theorem C94_aligned :
  forall (P : eqType) (str : P -> string) (istr : int -> string) (C : eqType) (D : diagram P C) (width : nat)
    (header : seq C) (q : P),
  (forall v, (String.length (istr v) <= 2)%N) -> (String.length (str q) <= width)%N ->
  String.length (table_line str istr D width header q) = (width + 3 + 3 * size header + 1)%N.
Proof. exact: line_length. Qed.
Print Assumptions C94_aligned.
Example C94_signs : forall v, (String.length (show_sign v) <= 2)%N.
Proof. by case=> [[]|[]]. Qed.
