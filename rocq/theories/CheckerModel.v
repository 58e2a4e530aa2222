(** Model of vts/checker.py and of make_univariate in vts/examples_parser.py.

    The sympy expressions on the two sides of a relation are an abstract type
    [E].  Not modelled: printing, and the pickled example files (the examples
    are an argument). *)
From Coq Require Import String.
From mathcomp Require Import all_ssreflect all_algebra.
From Verif Require Import Py VtsModel IsymModel.

Set Implicit Arguments.
Unset Strict Implicit.
Unset Printing Implicit Defensive.
Import GRing.Theory Num.Theory.
Local Open Scope ring_scope.

(** The sympy relation classes. *)
Inductive cls := CLe | CLt | CEq | CNe | CGe | CGt.

(** What a sympy relation constructor returns: a relation object, or a truth
    value when it could evaluate the relation. *)
Inductive formula (E : Type) := Rel of cls & E & E | Bool of bool.
Arguments Bool {E}.

Section Checker.
Variable E : Type.
Variable opp : E -> E.                       (* unary minus of expressions *)
Variable mk : cls -> E -> E -> formula E.    (* cls(lhs, rhs) *)
Variable set_of : seq (formula E) -> seq (formula E). (* iterating set(l) *)

(** checker.py 134-155 [rewrite_to_less]. *)
Definition rewrite_to_less (relations : seq (formula E)) : seq (formula E) :=
  [seq match f with
       | Rel CGe a b => mk CLe (opp a) (opp b)
       | Rel CGt a b => mk CLt (opp a) (opp b)
       | _ => f
       end | f <- relations].

(** 167-171: the class dictionary. *)
Definition negation_class (c : cls) : cls :=
  match c with
  | CGe => CLt | CGt => CLe | CEq => CNe | CNe => CEq | CLe => CGt | CLt => CGe
  end.

(** 157-173 [negate_relations]: a truth value has a class that is not in the
    dictionary. *)
Definition negate_relations (relations : seq (formula E)) : res (seq (formula E)) :=
  mapM (fun f => match f with
                 | Rel c a b => Ok (mk (negation_class c) a b)
                 | Bool _ => Err KeyError
                 end) relations.

Definition not_true (f : formula E) : bool := if f is Bool true then false else true.

(** 90-132 [vts_preformat]. *)
Definition vts_preformat (uni_ante uni_succ : seq (formula E)) : res (seq (seq (formula E))) :=
  let filtered_ante := set_of (filter not_true uni_ante) in
  let filtered_succ := set_of (filter not_true uni_succ) in
  if (size filtered_ante == 0)%N || (size filtered_succ == 0)%N
  then Err (Exc "antecedent or succedent became zero")
  else
    let rewritten_ante := rewrite_to_less filtered_ante in
    let! negated_succ := negate_relations filtered_succ in
    let rewritten_succ := rewrite_to_less negated_succ in
    Ok [seq rcons rewritten_ante succ | succ <- rewritten_succ].

(** The dictionary r_map. *)
Record rmap := RMap { r_le : seq E; r_lt : seq E; r_eq : seq E; r_ne : seq E }.

(** 67-88 [make_relation_map]. *)
Definition make_relation_map (f : seq (formula E)) : res rmap :=
  foldM (fun m r =>
    match r with
    | Rel CLe a _ => Ok (RMap (rcons (r_le m) a) (r_lt m) (r_eq m) (r_ne m))
    | Rel CLt a _ => Ok (RMap (r_le m) (rcons (r_lt m) a) (r_eq m) (r_ne m))
    | Rel CEq a _ => Ok (RMap (r_le m) (r_lt m) (rcons (r_eq m) a) (r_ne m))
    | Rel CNe a _ => Ok (RMap (r_le m) (r_lt m) (r_eq m) (rcons (r_ne m) a))
    | _ => Err (Exc "relation wasn't added")
    end) (RMap [::] [::] [::] [::]) f.

(** isym.vts or isym.ts, according to the argument [vts]. *)
Variable decide : seq E -> seq E -> seq E -> seq E -> res bool.

(** 31-56: the body of the inner loop for one example. *)
Definition check_one (example : seq (formula E) * seq (formula E)) : res bool :=
  let! big_or := vts_preformat example.1 example.2 in
  foldM (fun formula_value f =>
    let! m := make_relation_map f in
    let! disj_value := decide (r_le m) (r_lt m) (r_eq m) (r_ne m) in
    Ok (if disj_value then false else formula_value)) true big_or.

(** 20-57: one file; the result lists example numbers and verdicts in order
    of printing.  Example 0 of file 3 is skipped. *)
Definition check_file (file_index : nat) (example_file : seq (seq (formula E) * seq (formula E))) :
    res (seq (nat * bool)) :=
  let! vs := mapM (fun ie =>
      if (file_index == 3)%N && (ie.1 == 0)%N then Ok [::]
      else let! v := check_one ie.2 in Ok [:: (ie.1, v)])
    (zip (iota 0 (size example_file)) example_file) in
  Ok (flatten vs).

(** 8-65 [check_examples]: the first three files.  An invalid example sets
    [results[file]], where [file] is the builtin type, so the final loop then
    evaluates [file[:-8]], a TypeError. *)
Definition check_examples (uni_ex_files : seq (seq (seq (formula E) * seq (formula E)))) :
    res (seq (nat * seq (nat * bool))) :=
  let! out := mapM (fun fe => let! vs := check_file fe.1 fe.2 in Ok (fe.1, vs))
    (zip (iota 0 3) (take 3 uni_ex_files)) in
  if has (fun fv : nat * seq (nat * bool) => has (fun iv => ~~ iv.2) fv.2) out
  then Err TypeError else Ok out.
End Checker.

(** * Univariate examples: expressions are polynomials in x *)
Notation upoly := {poly rat}.

Section Univariate.

(** What [isym.convert] sees of a polynomial: IsymModel's term list. *)
Definition to_sym (P : upoly) : sym :=
  if (size P <= 1)%N then SymConst (NRat P`_0)
  else SymExpr 0 [seq (NRat P`_i, i) | i <- rev (iota 0 (size P)) & P`_i != 0].

(** The truth of a relation between numbers. *)
Definition num_rel (c : cls) (a b : rat) : bool :=
  match c with
  | CLe => a <= b | CLt => a < b | CEq => a == b
  | CNe => a != b | CGe => a >= b | CGt => a > b
  end.

(** sympy evaluates a relation between two numbers at construction. *)
Definition mk_upoly (c : cls) (a b : upoly) : formula upoly :=
  if (size a <= 1)%N && (size b <= 1)%N then Bool (num_rel c a`_0 b`_0) else Rel c a b.

Definition opp_upoly (a : upoly) : upoly := - a.

Variable K : realDomainType.
Variables (inj : int -> K) (H : eqType) (str : int -> H).
Variable MkRoots : seq int -> res (seq K).
Variable mx_inv : rmatrix -> rmatrix.

Definition decide_vts (le lt eq ne : seq upoly) : res bool :=
  isym_vts inj str MkRoots mx_inv
    [seq to_sym p | p <- le] [seq to_sym p | p <- lt]
    [seq to_sym p | p <- eq] [seq to_sym p | p <- ne].
End Univariate.

(** * make_univariate *)

(** Terms of the example files, as sympy expression trees. *)
Inductive term :=
  | TNum of rat
  | TVar of string
  | TAdd of term & term
  | TSub of term & term
  | TMul of term & term
  | TDiv of term & term
  | TNeg of term.

Fixpoint tvars (t : term) : seq string :=
  match t with
  | TNum _ => [::]
  | TVar v => [:: v]
  | TAdd a b | TSub a b | TMul a b | TDiv a b => tvars a ++ tvars b
  | TNeg a => tvars a
  end.

(** Replace one variable by another. *)
Fixpoint rename (v w : string) (t : term) : term :=
  match t with
  | TNum q => TNum q
  | TVar u => TVar (if String.eqb u v then w else u)
  | TAdd a b => TAdd (rename v w a) (rename v w b)
  | TSub a b => TSub (rename v w a) (rename v w b)
  | TMul a b => TMul (rename v w a) (rename v w b)
  | TDiv a b => TDiv (rename v w a) (rename v w b)
  | TNeg a => TNeg (rename v w a)
  end.

Section MakeUnivariate.
Variable simp : term -> term.                      (* automatic simplification *)
Variable expand : term -> term.                    (* .expand() *)
Variable var_set : seq string -> seq string.       (* iterating a set of symbols *)
Variable mk : cls -> term -> term -> formula term. (* cls(lhs, rhs) *)

(** examples_parser.py 72-89 [make_univariate]; [subs] with a list of pairs
    substitutes them one after the other. *)
Definition make_univariate (relations : seq (formula term)) : res (seq (formula term)) :=
  mapM (fun r =>
    match r with
    | Bool _ => Err AttributeError
    | Rel c a b =>
        let old_relation := simp (TSub a b) in
        let vars := var_set (tvars old_relation) in
        let new_lhs := expand (foldl (fun t v => simp (rename v "x" t)) old_relation vars) in
        Ok (mk c new_lhs (TNum 0))
    end) relations.
End MakeUnivariate.
