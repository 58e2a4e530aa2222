(** Model of vts/grf_parser.py, the pyparsing grammar of the example files.

    A pyparsing element is a function from the remaining text to a result and
    the text after it, or a ParseException, or another exception (which stops
    everything).  As in pyparsing every element first skips white space, [|]
    is ordered choice with backtracking, and there is no tokeniser.  The parse
    actions build sympy expressions; here they build the corresponding tree.
    [sympy.Float] of a decimal is taken to be that decimal (its rounding to 15
    digits is not modelled).  Text is a list of characters.

    [sympy.var(name)] (18) also binds [name] in the globals of the calling
    module, that is of grf_parser.  The only global the parse actions read is
    [sympy], so the state is one boolean: does [sympy] still denote the
    module?  Parse actions run during attempts that are later abandoned, so a
    failure carries the state too. *)
From Coq Require Import String Ascii.
From mathcomp Require Import all_ssreflect all_algebra.
From Verif Require Import Py CheckerModel.

Set Implicit Arguments.
Unset Strict Implicit.
Unset Printing Implicit Defensive.
Import GRing.Theory Num.Theory.
Local Open Scope ring_scope.

Definition text := seq ascii.
Definition chars (s : string) : text := list_ascii_of_string s.

Definition code (c : ascii) : nat := nat_of_ascii c.
Definition eqc (a b : ascii) : bool := Ascii.eqb a b.

(** pyparsing's default white space, and the character classes nums, alphas. *)
Definition is_space (c : ascii) : bool := (code c \in [:: 32; 9; 10; 13])%N.
Definition is_num (c : ascii) : bool := (48 <= code c <= 57)%N.
Definition is_alpha (c : ascii) : bool := (65 <= code c <= 90)%N || (97 <= code c <= 122)%N.
Definition is_alpha_ (c : ascii) : bool := is_alpha c || eqc c "_".
Definition is_alnum_ (c : ascii) : bool := is_num c || is_alpha c || eqc c "_".
(** identChars of Keyword: alphanums + "_$". *)
Definition is_ident (c : ascii) : bool := is_alnum_ c || eqc c "$".

Inductive pres (A : Type) : Type :=
  | POk of A & text & bool
  | PFail of bool
  | PRaise of exn.
Arguments PFail {A}.
Arguments PRaise {A}.

Definition parser (A : Type) := bool -> text -> pres A.

Fixpoint skip (s : text) : text :=
  if s is c :: s' then if is_space c then skip s' else s else [::].

Fixpoint span (p : pred ascii) (s : text) : text * text :=
  if s is c :: s' then
    if p c then let: (a, b) := span p s' in (c :: a, b) else ([::], s)
  else ([::], [::]).

(** The text after a prefix. *)
Fixpoint strip (w s : text) : option text :=
  match w, s with
  | [::], _ => Some s
  | c :: w', d :: s' => if eqc c d then strip w' s' else None
  | _ :: _, [::] => None
  end.

(** Literal(w) with [lead] saying whether white space is skipped first. *)
Definition literal_at (w : text) : parser unit := fun st s =>
  if strip w s is Some r then POk tt r st else PFail st.
Definition literal (w : text) : parser unit := fun st s => literal_at w st (skip s).

(** Keyword(w): the next character is not an identifier character.  (The
    character before is checked too; every keyword here follows a parenthesis
    and white space.) *)
Definition keyword (w : text) : parser unit := fun st s =>
  match strip w (skip s) with
  | Some (c :: r) => if is_ident c then PFail st else POk tt (c :: r) st
  | Some [::] => POk tt [::] st
  | None => PFail st
  end.

(** Word(nums), without skipping white space. *)
Definition nat_at : parser text := fun st s =>
  let: (a, b) := span is_num s in if a is [::] then PFail st else POk a b st.
Definition nat_word : parser text := fun st s => nat_at st (skip s).

Definition or_else (A : Type) (p q : parser A) : parser A := fun st s =>
  if p st s is PFail st' then q st' s else p st s.

Definition pbind (A B : Type) (p : parser A) (f : A -> parser B) : parser B := fun st s =>
  match p st s with
  | POk a r st' => f a st' r
  | PFail st' => PFail st'
  | PRaise e => PRaise e
  end.

(** The end of an element whose parse action evaluates [sympy.f(...)]. *)
Definition action (A : Type) (a : A) : parser A := fun st s =>
  if st then POk a s st else PRaise AttributeError.

(** The end of an element with a parse action that does not mention sympy. *)
Definition pret (A : Type) (a : A) : parser A := fun st s => POk a s st.

(** Optional(Literal). *)
Definition optional (w : text) : parser bool := fun st s =>
  match literal w st s with
  | POk _ r st' => POk true r st'
  | PFail st' => POk false s st'
  | PRaise e => PRaise e
  end.

Definition digit_val (c : ascii) : nat := (code c - 48)%N.
Definition nat_val (s : text) : rat := foldl (fun n c => 10%:R * n + (digit_val c)%:R) 0 s.

(** 41-42 [int] with doInt (10-14). *)
Definition p_int : parser term :=
  pbind (optional (chars "-")) (fun neg =>
  pbind nat_word (fun ds =>
  pbind (optional (chars ".")) (fun _ =>
  action (TNum (if neg then - nat_val ds else nat_val ds))))).

(** 44-46 [real] with doReal (4-8); Combine allows no white space inside. *)
Definition p_real : parser term :=
  pbind (optional (chars "-")) (fun neg =>
  pbind nat_word (fun ds =>
  pbind (literal_at (chars ".")) (fun _ =>
  pbind nat_at (fun es =>
  let v := nat_val ds + nat_val es / 10%:R ^+ size es in
  action (TNum (if neg then - v else v)))))).

(** 53 *)
Definition number : parser term := or_else p_real p_int.

(** 16-18 doVariable: [sympy.var] rebinds the global. *)
Definition do_variable (v : text) : parser term := fun st s =>
  if st then POk (TVar (string_of_list_ascii v)) s (~~ String.eqb (string_of_list_ascii v) "sympy")
  else PRaise AttributeError.

(** 62-63 [variable]. *)
Definition variable : parser term := fun st s =>
  if skip s is c :: s' then
    if is_alpha_ c then
      let: (a, b) := span is_alnum_ s' in do_variable (c :: a) st b
    else PFail st
  else PFail st.

Definition lpar := literal (chars "(").
Definition rpar := literal (chars ")").

(** 74-81: an application of a binary function. *)
Definition fn2 (op : text) (mk : term -> term -> term) (t : parser term) : parser term :=
  pbind lpar (fun _ => pbind (literal op) (fun _ =>
  pbind t (fun a => pbind t (fun b => pbind rpar (fun _ => pret (mk a b)))))).

(** 82-83 [fn_neg]. *)
Definition fn1 (op : text) (mk : term -> term) (t : parser term) : parser term :=
  pbind lpar (fun _ => pbind (literal op) (fun _ =>
  pbind t (fun a => pbind rpar (fun _ => pret (mk a))))).

(** 86 [fn]. *)
Definition p_fn (t : parser term) : parser term :=
  or_else (fn2 (chars "+") TAdd t)
 (or_else (fn2 (chars "*") TMul t)
 (or_else (fn2 (chars "-") TSub t)
 (or_else (fn2 (chars "/") TDiv t)
          (fn1 (chars "-") TNeg t)))).

(** 87 [term]; the fuel bounds the nesting of parentheses. *)
Fixpoint p_term (n : nat) : parser term :=
  or_else (or_else number variable)
    (if n is n'.+1 then p_fn (p_term n') else fun _ _ => PRaise OutOfFuel).

(** 96-107: one relation. *)
Definition rln1 (n : nat) (op : text) (c : cls) : parser (cls * term * term) :=
  pbind lpar (fun _ => pbind (keyword op) (fun _ =>
  pbind (p_term n) (fun a => pbind (p_term n) (fun b =>
  pbind rpar (fun _ => action (c, a, b)))))).

(** 109 [rln]. *)
Definition p_rln (n : nat) : parser (cls * term * term) :=
  or_else (rln1 n (chars "<=") CLe)
 (or_else (rln1 n (chars "<") CLt)
 (or_else (rln1 n (chars "=") CEq)
 (or_else (rln1 n (chars "!=") CNe)
 (or_else (rln1 n (chars ">=") CGe)
          (rln1 n (chars ">") CGt))))).

(** 114 [fmls], ZeroOrMore; [k] bounds the number of formulas. *)
Fixpoint p_fmls (n k : nat) : parser (seq (cls * term * term)) := fun st s =>
  if k is k'.+1 then
    match p_rln n st s with
    | POk f r st' => pbind (p_fmls n k') (fun fs => pret (f :: fs)) st' r
    | PFail st' => POk [::] s st'
    | PRaise e => PRaise e
    end
  else PRaise OutOfFuel.

(** 34 [str_sym], QuotedString. *)
Definition quoted : parser text := fun st s =>
  if strip (chars """") (skip s) is Some r then
    let: (a, b) := span (fun c => ~~ eqc c """") r in
    if strip (chars """") b is Some r' then POk a r' st else PFail st
  else PFail st.

Record sequent := MkSequent {
  s_name : text;
  s_ante : seq (cls * term * term);
  s_succ : seq (cls * term * term)
}.

(** 116-119: antecedent and succedent. *)
Definition side (n : nat) (kw : text) : parser (seq (cls * term * term)) :=
  pbind lpar (fun _ => pbind (literal kw) (fun _ =>
  pbind (p_fmls n n) (fun fs => pbind rpar (fun _ => pret fs)))).

(** 120 [cmd]; the fuel is the length of the text. *)
Definition cmd : parser sequent := fun st s =>
  let n := (size s).+1 in
  (pbind lpar (fun _ => pbind (literal (chars "sequent")) (fun _ =>
   pbind quoted (fun name =>
   pbind (side n (chars "antecedent")) (fun ante =>
   pbind (side n (chars "succedent")) (fun succ =>
   pbind rpar (fun _ => pret (MkSequent name ante succ)))))))) st s.

(** examples_parser.py 205-207, [cmd.scanString(content)]: all matches from
    left to right; after a failure the scan moves on by one character. *)
Fixpoint scan (n : nat) (st : bool) (s : text) : res (seq sequent * bool) :=
  if n is n'.+1 then
    match cmd st s with
    | POk q r st' => let! x := scan n' st' r in Ok (q :: x.1, x.2)
    | PFail st' => if skip s is _ :: s' then scan n' st' s' else Ok ([::], st')
    | PRaise e => Err e
    end
  else Err OutOfFuel.

(** The loop of parse_files_from_dir (examples_parser.py 192-212) over the
    contents of the files; grf_parser is imported once. *)
Fixpoint parse_files (st : bool) (fs : seq (string * text)) : res (seq (string * seq sequent)) :=
  if fs is (name, content) :: fs' then
    let! x := scan (size content).+1 st content in
    let! rest := parse_files x.2 fs' in
    Ok ((name, x.1) :: rest)
  else Ok [::].

(** [p.parseString(s)]: the rest of the text is ignored. *)
Definition parse_string (A : Type) (p : parser A) (st : bool) (s : text) : res A :=
  match p st s with
  | POk a _ _ => Ok a
  | PFail _ => Err (Exc "ParseException")
  | PRaise e => Err e
  end.
