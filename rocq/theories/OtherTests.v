(** The repository's own tests vts/test_grf_parser.py and
    highschool_qe/cohenhormtest.py run on the model, see VtsTests.v. *)
From Coq Require Import ZArith String Ascii.
From mathcomp Require Import all_ssreflect all_algebra.
From Verif Require Import Py CheckerModel GParserModel MuchModel MuchInst MuchEx CohenModel CohenEx.

Set Implicit Arguments.
Unset Strict Implicit.
Unset Printing Implicit Defensive.
Import GRing.Theory Num.Theory.
Local Open Scope ring_scope.
Delimit Scope Z_scope with coq_Z.

Definition parse (A : Type) (p : parser A) (s : string) : res A := parse_string p true (chars s).
Definition X := TVar "x".
Definition Y := TVar "y".

(** test_grf_parser.py 15-62: natural numbers, reals, ints, numbers.  The
    value 24.14241 is left out, its fraction is too big to compute with.  The
    two classes of test_number's second table (Integer for 0. and Float for
    0.5) are not told apart in the model. *)
Example test_nat : [seq parse nat_word s | s <- [:: "1"; "345"]%string] = [:: Ok (chars "1"); Ok (chars "345")].
Proof. by vm_compute. Qed.
Example test_real : [seq parse p_real s | s <- [:: "0.0"; "0.9"]%string] =
  [:: Ok (TNum 0); Ok (TNum (9%:R / 10%:R))].
Proof. by vm_compute. Qed.
Example test_int : [seq parse p_int s | s <- [:: "0"; "1213"; "-1"; "2."]%string] =
  [:: Ok (TNum 0); Ok (TNum 1213%:R); Ok (TNum (-1)); Ok (TNum 2%:R)].
Proof. by vm_compute. Qed.
Example test_number : [seq parse number s | s <- [:: "0"; "-1"; "0."; "12.1"; "-1."; "0.5"]%string] =
  [:: Ok (TNum 0); Ok (TNum (-1)); Ok (TNum 0); Ok (TNum (121%:R / 10%:R)); Ok (TNum (-1)); Ok (TNum (1 / 2%:R))].
Proof. by vm_compute. Qed.

(** 64-80 test_variable, test_var_or_number. *)
Example test_variable :
  [seq parse variable s | s <- [:: "aba"; "x"; "x_"; "_"; "A"; "x_123"]%string] =
  [seq Ok (TVar s) | s <- [:: "aba"; "x"; "x_"; "_"; "A"; "x_123"]%string].
Proof. by vm_compute. Qed.
Example test_var_or_number :
  [seq parse (or_else number variable) s | s <- [:: "x"; "1."]%string] = [:: Ok X; Ok (TNum 1)].
Proof. by vm_compute. Qed.

(** 82-146: functions and terms.  The model keeps the tree that sympy
    simplifies, so the expected values are the trees of the expected
    expressions. *)
Definition tm := p_term 10.
Example test_fn_add :
  [seq parse (fn2 (chars "+") TAdd tm) s | s <- [:: "(+ 0 x)"; "(+ x 1)"; "(+ 1 2)"; "(+ x y)"]%string] =
  [:: Ok (TAdd (TNum 0) X); Ok (TAdd X (TNum 1)); Ok (TAdd (TNum 1) (TNum 2%:R)); Ok (TAdd X Y)].
Proof. by vm_compute. Qed.
Example test_fn_mult :
  [seq parse (fn2 (chars "*") TMul tm) s | s <- [:: "(* 1 x)"; "(* x 2)"; "(* 1 2)"; "(* x y)"]%string] =
  [:: Ok (TMul (TNum 1) X); Ok (TMul X (TNum 2%:R)); Ok (TMul (TNum 1) (TNum 2%:R)); Ok (TMul X Y)].
Proof. by vm_compute. Qed.
Example test_fn_sub :
  [seq parse (fn2 (chars "-") TSub tm) s | s <- [:: "(- 0 x)"; "(- x 2)"; "(- 1 2)"; "(- x y)"]%string] =
  [:: Ok (TSub (TNum 0) X); Ok (TSub X (TNum 2%:R)); Ok (TSub (TNum 1) (TNum 2%:R)); Ok (TSub X Y)].
Proof. by vm_compute. Qed.
Example test_fn_div :
  [seq parse (fn2 (chars "/") TDiv tm) s | s <- [:: "(/ 0 x)"; "(/ x 2)"; "(/ 1 2)"; "(/ x y)"]%string] =
  [:: Ok (TDiv (TNum 0) X); Ok (TDiv X (TNum 2%:R)); Ok (TDiv (TNum 1) (TNum 2%:R)); Ok (TDiv X Y)].
Proof. by vm_compute. Qed.
Example test_fn_neg :
  [seq parse (fn1 (chars "-") TNeg tm) s | s <- [:: "(- 0)"; "(-x)"; "(- 1)"]%string] =
  [:: Ok (TNeg (TNum 0)); Ok (TNeg X); Ok (TNeg (TNum 1))].
Proof. by vm_compute. Qed.
Example test_fn :
  [seq parse (p_fn tm) s | s <- [:: "(+ x y)"; "(* x y)"; "(- x y)"; "(/ x y)"; "(- x)"]%string] =
  [:: Ok (TAdd X Y); Ok (TMul X Y); Ok (TSub X Y); Ok (TDiv X Y); Ok (TNeg X)].
Proof. by vm_compute. Qed.
Example test_term :
  [seq parse tm s | s <- [:: "x"; "2"; "(* x y)"; "(-x)"; "(-(- x))"; "(-(-(- x)))"; "( * x (+ 2 (- y)))"]%string] =
  [:: Ok X; Ok (TNum 2%:R); Ok (TMul X Y); Ok (TNeg X); Ok (TNeg (TNeg X)); Ok (TNeg (TNeg (TNeg X)));
      Ok (TMul X (TAdd (TNum 2%:R) (TNeg Y)))].
Proof. by vm_compute. Qed.

(** 148-230: relations.  Every relation parses to its class, and a relation of
    one class does not parse as another ([<] and [<=] share a prefix). *)
Definition rl := p_rln 10.
Example test_rln :
  [seq parse rl s | s <- [:: "(>= x y)"; "(> x y)"; "(= x y)"; "(!= x y)"; "(<= x y)"; "(< x y)"]%string] =
  [seq Ok (c, X, Y) | c <- [:: CGe; CGt; CEq; CNe; CLe; CLt]].
Proof. by vm_compute. Qed.
Example test_rln_each :
  [seq parse (rln1 10 (chars x.1) x.2) (append "(" (append x.1 " x (+ 3 2))")) |
     x <- [:: ("<=", CLe); ("<", CLt); ("=", CEq); ("!=", CNe); (">=", CGe); (">", CGt)]%string] =
  [seq Ok (c, X, TAdd (TNum 3%:R) (TNum 2%:R)) | c <- [:: CLe; CLt; CEq; CNe; CGe; CGt]].
Proof. by vm_compute. Qed.

(** 232-243 test_fmls. *)
Example test_fmls :
  [seq parse (p_fmls 10 10) s | s <- [:: ""; "()"; "(>= x y)"; "(>= x y) (< x y)"]%string] =
  [:: Ok [::]; Ok [::]; Ok [:: (CGe, X, Y)]; Ok [:: (CGe, X, Y); (CLt, X, Y)]].
Proof. by vm_compute. Qed.

(** 245-263 test_cmd_antecedent, test_cmd_succedent. *)
Example test_cmd_antecedent :
  [seq parse (side 10 (chars "antecedent")) s |
     s <- [:: "(antecedent (< x y))"; "(antecedent (< x y) (= x 7.5))"; "(antecedent (= 2 3) (< 3 (* 2 2)))"]%string] =
  [:: Ok [:: (CLt, X, Y)]; Ok [:: (CLt, X, Y); (CEq, X, TNum (15%:R / 2%:R))];
      Ok [:: (CEq, TNum 2%:R, TNum 3%:R); (CLt, TNum 3%:R, TMul (TNum 2%:R) (TNum 2%:R))]].
Proof. by vm_compute. Qed.
Example test_cmd_succedent :
  [seq parse (side 10 (chars "succedent")) s |
     s <- [:: "(succedent (< x y))"; "(succedent (< x y) (= x 7.5))"; "(succedent (= 2 3) (< 3 (* 2 2)))"]%string] =
  [:: Ok [:: (CLt, X, Y)]; Ok [:: (CLt, X, Y); (CEq, X, TNum (15%:R / 2%:R))];
      Ok [:: (CEq, TNum 2%:R, TNum 3%:R); (CLt, TNum 3%:R, TMul (TNum 2%:R) (TNum 2%:R))]].
Proof. by vm_compute. Qed.

(** 265-278 test_cmd. *)
Example test_cmd :
  [seq parse cmd s |
     s <- [:: "(sequent ""nimi"" (antecedent ) (succedent ))"; "(sequent ""nimi"" (antecedent (= x y)) (succedent ))";
              "(sequent ""nimi"" (antecedent ) (succedent (= x y)))";
              "(sequent ""nimi"" (antecedent (= x (-(-x)))) (succedent (= x y)))"]%string] =
  [seq Ok (MkSequent (chars "nimi") x.1 x.2) |
     x <- [:: ([::], [::]); ([:: (CEq, X, Y)], [::]); ([::], [:: (CEq, X, Y)]);
              ([:: (CEq, X, TNeg (TNeg X))], [:: (CEq, X, Y)])]].
Proof. by vm_compute. Qed.

(** cohenhormtest.py 36-75: copy_table on a table of x and 2x, keeping both
    rows or the first.  [by_col] lists the values in the order of the columns,
    as check_tables compares them. *)
Definition px_2x : Pxy := px [:: [::]; [:: 2%coq_Z]].
Definition all_table : diagram Pxy [eqType of rat] :=
  [:: (px_x, row6 1 1 0 1 1 1 1); (px_2x, row6 (-1) (-1) (-1) (-1) 0 (-1) (-1))].
Definition by_col (T : diagram Pxy [eqType of rat]) (p : Pxy) : seq (res int) :=
  [seq cell T p c | c <- sorted_cols (cols T p)].
Definition kept (l : seq Pxy) : res (seq (seq (res int))) :=
  let! T := copy_table algxy id all_table l [::] in Ok [seq by_col T p | p <- rows T].
Example test_copy_table_keep_all :
  kept [:: px_x; px_2x] = Ok [:: [seq Ok v | v <- [:: 1; 1; 0; 1; 1; 1; 1]];
                                 [seq Ok v | v <- [:: -1; -1; -1; -1; 0; -1; -1]]].
Proof. by vm_compute. Qed.
Example test_copy_table_keep_one : kept [:: px_x] = Ok [:: [seq Ok v | v <- [:: 1; 1; 0; 1; 1]]].
Proof. by vm_compute. Qed.
