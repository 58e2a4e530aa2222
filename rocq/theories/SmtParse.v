(** Model of ParseSMT of GRF/smt2.py (line numbers refer to it): the pyparsing
    grammar of the hiding problems, its parse actions, and the reading of a
    file.

    A pyparsing element is a function from a state and the remaining text to a
    result, as in GParserModel.v (whose functions on text are used); here the
    state is what the parse actions change, the context with the names of the
    variables and a counter that gives every atom its identity.  Parse actions
    run in attempts that are abandoned later, so a failure carries the state,
    too.

    Sage's conversion of the text of a decimal is taken to be the number that
    the text denotes in base ten (a leading 0 is an octal number in Python 2
    and is outside of the model).  Not modelled: coercions between polynomial
    rings (see GrfSmt.v); the list [polys] of the context, which is only
    printed; tab expansion in the quoted name; an IndexError raised by the
    arithmetic (pyparsing would turn it into a ParseException). *)
From Coq Require Import String Ascii.
From mathcomp Require Import all_ssreflect all_algebra.
From Verif Require Import Py GParserModel GrfModel GrfSmt.

Set Implicit Arguments.
Unset Strict Implicit.
Unset Printing Implicit Defensive.
Import GRing.Theory Num.Theory.
Local Open Scope ring_scope.

Lemma ascii_eqP : Equality.axiom Ascii.eqb.
Proof. exact: Ascii.eqb_spec. Qed.
Definition ascii_eqMixin := EqMixin ascii_eqP.
Canonical ascii_eqType := EqType ascii ascii_eqMixin.

Definition sname := [eqType of seq ascii].

(** ** pyparsing *)
Section Combinators.
Variable S : Type.

Inductive presult (A : Type) : Type :=
  | Yes of A & text & S
  | No of S
  | Raise of exn.
Arguments No {A}.
Arguments Raise {A}.

Definition elt (A : Type) := S -> text -> presult A.

Definition lit_at (w : text) : elt unit := fun st s =>
  if strip w s is Some r then Yes tt r st else No st.
Definition lit (w : text) : elt unit := fun st s => lit_at w st (skip s).

(** Keyword: the next character is not one of identChars. *)
Definition key (w : text) : elt unit := fun st s =>
  match strip w (skip s) with
  | Some (c :: r) => if is_ident c then No st else Yes tt (c :: r) st
  | Some [::] => Yes tt [::] st
  | None => No st
  end.

(** Word(...), without and with white space before. *)
Definition word_at (p : pred ascii) : elt text := fun st s =>
  let: (a, b) := span p s in if a is [::] then No st else Yes a b st.
Definition word (p : pred ascii) : elt text := fun st s => word_at p st (skip s).

Definition alt (A : Type) (p q : elt A) : elt A := fun st s =>
  if p st s is No st' then q st' s else p st s.

Definition sq (A B : Type) (p : elt A) (f : A -> elt B) : elt B := fun st s =>
  match p st s with
  | Yes a r st' => f a st' r
  | No st' => No st'
  | Raise e => Raise e
  end.

(** Optional: [None] when the element fails. *)
Definition opt (A : Type) (p : elt A) : elt (option A) := fun st s =>
  match p st s with
  | Yes a r st' => Yes (Some a) r st'
  | No st' => Yes None s st'
  | Raise e => Raise e
  end.

(** A parse action at the end of an element. *)
Definition act (A : Type) (f : S -> res (S * A)) : elt A := fun st s =>
  match f st with
  | Ok (st', a) => Yes a s st'
  | Err e => Raise e
  end.
Definition ret (A : Type) (a : A) : elt A := fun st s => Yes a s st.

(** 358 [str_sym], QuotedString with double quotes. *)
Definition quoted_string : elt text := fun st s =>
  if strip (chars """") (skip s) is Some r then
    let: (a, b) := span (fun c => ~~ eqc c """") r in
    if strip (chars """") b is Some r' then Yes a r' st else No st
  else No st.
End Combinators.
Arguments No {S A}.
Arguments Raise {S A}.

(** ** The arithmetic of polynomials in parse actions *)
Record arith (T : Type) := Arith {
  a_num : rat -> T;          (* a constant of the ring *)
  a_add : T -> T -> T;
  a_sub : T -> T -> T;
  a_mul : T -> T -> T;
  a_div : T -> T -> res T    (* R(a / b), proc_div 251-260 *)
}.

Section Grammar.
Variables (R : realDomainType) (L : lib R) (A : arith (P L)).
Local Notation poly := (P L).

(** What parse actions change. *)
Record pst := Pst { names : ctx sname; fresh : nat }.

(** 262-263 proc_var_or_const. *)
Definition do_var (v : text) (st : pst) : res (pst * poly) :=
  let! r := get_ring_var (names st) (v : sname) in
  Ok (Pst r.1 (fresh st), gen L r.2).

(** 331-335 asIntIfPossible and the conversion of the text. *)
Definition dec_val (ds : text) (es : option text) : rat :=
  if es is Some es then nat_val ds + nat_val es / 10%:R ^+ size es else nat_val ds.

(** 337-343 doReal. *)
Definition do_real (neg : option unit) (ds : text) (es : option text) : poly :=
  if neg is Some _ then a_mul A (a_num A (-1)) (a_num A (dec_val ds es)) else a_num A (dec_val ds es).

(** 350-351 [real], 364 [number]; Combine allows no white space inside. *)
Definition p_number : elt pst poly :=
  sq (opt (lit (chars "~"))) (fun neg =>
  sq (word is_num) (fun ds =>
  sq (lit_at (chars ".")) (fun _ =>
  sq (opt (word_at is_num)) (fun es =>
  ret (do_real neg ds es))))).

(** 362 [var_or_const]: letters, digits and four other characters. *)
Definition is_word (c : ascii) : bool :=
  [|| is_num c, is_alpha c, eqc c "-", eqc c ".", eqc c "_" | eqc c ":"].
Definition p_var : elt pst poly := sq (word is_word) (fun v => act (do_var v)).

Definition p_lpar : elt pst unit := lit (chars "(").
Definition p_rpar : elt pst unit := lit (chars ")").

Definition pure (T : Type) (a : res T) (st : pst) : res (pst * T) :=
  let! x := a in Ok (st, x).

(** 369-376: a binary function with its parse action. *)
Definition p_fn2 (op : text) (f : poly -> poly -> res poly) (t : elt pst poly) : elt pst poly :=
  sq p_lpar (fun _ => sq (lit op) (fun _ =>
  sq t (fun a => sq t (fun b => sq p_rpar (fun _ => act (pure (f a b))))))).

(** 377-378 [fn_neg]. *)
Definition p_fn1 (op : text) (f : poly -> poly) (t : elt pst poly) : elt pst poly :=
  sq p_lpar (fun _ => sq (lit op) (fun _ =>
  sq t (fun a => sq p_rpar (fun _ => ret (f a))))).

(** 380 [fn] with the actions of 239-260. *)
Definition p_funs (t : elt pst poly) : elt pst poly :=
  alt (p_fn2 (chars "/") (a_div A) t)
 (alt (p_fn2 (chars "+") (fun a b => Ok (a_add A a b)) t)
 (alt (p_fn2 (chars "*") (fun a b => Ok (a_mul A a b)) t)
 (alt (p_fn2 (chars "-") (fun a b => Ok (a_sub A a b)) t)
      (p_fn1 (chars "-") (fun a => a_sub A (a_num A 0) a) t)))).

(** 381 [term]; the fuel bounds the nesting of parentheses. *)
Fixpoint p_sterm (n : nat) : elt pst poly :=
  alt p_number (alt p_var
    (if n is n'.+1 then p_funs (p_sterm n') else fun _ _ => Raise OutOfFuel)).

(** 265-287: [RCF_Atom(t[1], op, t[2])], a new object. *)
Definition do_atom (op : relop) (a b : poly) (st : pst) : res (pst * atom L) :=
  Ok (Pst (names st) (fresh st).+1, mk_atom (fresh st) (a_sub A a b) op).

(** 385-396. *)
Definition p_rel1 (n : nat) (kw : text) (op : relop) : elt pst (atom L) :=
  sq p_lpar (fun _ => sq (key kw) (fun _ =>
  sq (p_sterm n) (fun a => sq (p_sterm n) (fun b =>
  sq p_rpar (fun _ => act (do_atom op a b)))))).

(** 398 [rln], 413 [fml]. *)
Definition p_rel (n : nat) : elt pst (atom L) :=
  alt (p_rel1 n (chars "<=") RLe)
 (alt (p_rel1 n (chars "<") RLt)
 (alt (p_rel1 n (chars "!=") RNe)
 (alt (p_rel1 n (chars "=") REq)
 (alt (p_rel1 n (chars ">=") RGe)
      (p_rel1 n (chars ">") RGt))))).

(** 414 [fmls], ZeroOrMore; [k] bounds the number of formulas. *)
Fixpoint p_rels (n k : nat) : elt pst (seq (atom L)) := fun st s =>
  if k is k'.+1 then
    match p_rel n st s with
    | Yes f r st' => sq (p_rels n k') (fun fs => ret (f :: fs)) st' r
    | No st' => Yes [::] s st'
    | Raise e => Raise e
    end
  else Raise OutOfFuel.

(** 418-421: antecedent and succedent. *)
Definition p_side (n : nat) (kw : text) : elt pst (seq (atom L)) :=
  sq p_lpar (fun _ => sq (lit kw) (fun _ =>
  sq (p_rels n n) (fun fs => sq p_rpar (fun _ => ret fs)))).

Record hiding_problem := HidingProblem {
  hp_name : text;
  hp_ante : seq (atom L);
  hp_succ : seq (atom L)
}.

(** 423-424 [cmd] up to its parse action; the fuel is the length of the text. *)
Definition p_cmd : elt pst hiding_problem := fun st s =>
  let n := (size s).+1 in
  (sq p_lpar (fun _ => sq (lit (chars "sequent")) (fun _ =>
   sq (@quoted_string _) (fun name =>
   sq (p_side n (chars "antecedent")) (fun ante =>
   sq (p_side n (chars "succedent")) (fun succ =>
   sq p_rpar (fun _ => ret (HidingProblem name ante succ)))))))) st s.

(** perform_grf as the parse action of [cmd] (424): [W] is everything it
    leaves behind except hiding_result; it is given the number of ring
    variables and the problem. *)
Variables (W : Type) (perform : W -> nat -> seq (atom L) -> seq (atom L) -> res (W * (seq nat * seq nat))).

(** 425 [cmds], ZeroOrMore, which takes an IndexError of the parse action for
    a failure; [last] is (sequent_str, hiding_result) of the context. *)
Fixpoint p_cmds (k : nat) (w : W) (last : option (text * (seq nat * seq nat))) (st : pst) (s : text) :
    res (option (text * (seq nat * seq nat)) * text) :=
  if k is k'.+1 then
    match p_cmd st s with
    | Yes q r st' =>
        match perform w (nvars (names st')) (hp_ante q) (hp_succ q) with
        | Ok (w', h) => p_cmds k' w' (Some (hp_name q, h)) st' r
        | Err IndexError => Ok (last, s)
        | Err e => Err e
        end
    | No _ => Ok (last, s)
    | Raise e => Err e
    end
  else Err OutOfFuel.

(** 430-433 processCommands without a context: parseString(s, parseAll=True)
    for a new ParseSMT. *)
Definition process_commands (w : W) (s : text) : res (option (text * (seq nat * seq nat))) :=
  let! x := p_cmds (size s).+1 w None (Pst (new_ctx sname) 0) s in
  if skip x.2 is [::] then Ok x.1 else Err (Exc "ParseException").

(** 452-489 grf_on_file, from the text of the file: what it returns.
    hiding_result is None when there was no sequent. *)
Definition grf_on_text (w : W) (s : text) : res (nat * nat) :=
  let! o := process_commands w s in
  if o is Some (_, (ha, hs)) then Ok (size ha, size hs) else Err TypeError.
End Grammar.

(** perform_grf for a file with one sequent: a new factory has no polynomials. *)
Section Action.
Variables (R : realDomainType) (L : lib R) (O : oracle L).
Variable solve : nat -> seq constraint -> seq nat -> res (nat -> bool).
Variable sample : nat -> addr -> option (goal L) -> seq (P L) -> seq (atom L) ->
  res (seq (dict [eqType of var] R) * seq (P L)).
Definition hide_action (fuel k : nat) (epsilon : R) (cs : option (seq command)) (_ : unit) (n : nat)
    (antecedent succedent : seq (atom L)) : res (unit * (seq nat * seq nat)) :=
  let! r := perform_grf O solve (sample n) fuel k epsilon cs [::] [::] antecedent succedent in
  Ok (tt, r.1).
End Action.

(** ** The result string (471-474) *)

(** str(i) *)
Definition digit_of (d : nat) : ascii := ascii_of_nat (48 + d).
Fixpoint str_nat (fuel n : nat) : text :=
  let d := [:: digit_of (n %% 10)] in
  if fuel is f.+1 then (if (n < 10)%N then d else str_nat f (n %/ 10) ++ d) else d.
Definition str (n : nat) : text := str_nat n n.
(** sep.join(l) *)
Fixpoint join (sep : text) (l : seq text) : text :=
  match l with [::] => [::] | [:: x] => x | x :: l' => x ++ sep ++ join sep l' end.
Definition result_text (name : text) (ha hs : seq nat) : text :=
  chars "(""" ++ name ++ chars """ " ++
  chars "(" ++ join (chars " ") [seq chars "hide_antecedent_" ++ str i | i <- ha] ++ chars ") " ++
  chars "(" ++ join (chars " ") [seq chars "hide_succedent_" ++ str i | i <- hs] ++ chars ")" ++
  chars ")".
