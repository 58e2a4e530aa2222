(** Specification vocabulary for the GRF input language: the texts of a term,
    a relation, a sequent and a file, with every admissible white space.  None
    of this refers to the model of the parser (only to its syntax trees). *)
From Coq Require Import String Ascii.
From mathcomp Require Import all_ssreflect all_algebra.
From Verif Require Import CheckerModel GParserModel.

Set Implicit Arguments.
Unset Strict Implicit.
Unset Printing Implicit Defensive.
Import GRing.Theory Num.Theory.
Local Open Scope ring_scope.

Definition txt (s : string) : seq ascii := list_ascii_of_string s.

Definition member (c : ascii) (s : string) : bool := has (Ascii.eqb c) (txt s).

Definition digit (c : ascii) : bool := member c "0123456789".
Definition letter (c : ascii) : bool :=
  member c "ABCDEFGHIJKLMNOPQRSTUVWXYZabcdefghijklmnopqrstuvwxyz".
Definition name_char (c : ascii) : bool := [|| digit c, letter c | member c "_"].
Definition blank_char (c : ascii) : bool :=
  Ascii.eqb c " " || Ascii.eqb c "009" || Ascii.eqb c "010" || Ascii.eqb c "013".

Definition blank (s : seq ascii) : bool := all blank_char s.
Definition digits (s : seq ascii) : bool := all digit s && (0 < size s)%N.
Definition name (s : seq ascii) : bool :=
  if s is c :: s' then (letter c || member c "_") && all name_char s' else false.

Definition digit_value (c : ascii) : nat := find (Ascii.eqb c) (txt "0123456789").

(** The number that a string of digits denotes. *)
Definition decimal (s : seq ascii) : rat :=
  \sum_(i < size s) (digit_value (nth "0"%char s i))%:R * 10%:R ^+ (size s - i.+1).

(** An unsigned number. *)
Inductive numeral : rat -> seq ascii -> Prop :=
  | NumInt ds : digits ds -> numeral (decimal ds) ds
  | NumDot ds w : digits ds -> blank w -> numeral (decimal ds) (ds ++ w ++ txt ".")
  | NumDec ds es : digits ds -> digits es ->
      numeral (decimal ds + decimal es / 10%:R ^+ size es) (ds ++ txt "." ++ es).

(** [s1] and [s2] may be written next to each other: if [s1] ends in a name or
    a number then [s2] does not begin with a character of one. *)
Definition apart (s1 s2 : seq ascii) : bool :=
  Ascii.eqb (last " "%char s1) ")" || ~~ name_char (head " "%char s2).

Definition ops : seq (string * (term -> term -> term)) :=
  [:: ("+"%string, TAdd); ("*"%string, TMul); ("-"%string, TSub); ("/"%string, TDiv)].

(** The texts of a term, with leading white space. *)
Inductive term_text : term -> seq ascii -> Prop :=
  | TxNum q w s : blank w -> numeral q s -> term_text (TNum q) (w ++ s)
  | TxNeg q w w' s : blank w -> blank w' -> numeral q s ->
      term_text (TNum (- q)) (w ++ txt "-" ++ w' ++ s)
  | TxVar w v : blank w -> name v -> term_text (TVar (string_of_list_ascii v)) (w ++ v)
  | TxBin op mk a b w1 w2 s1 s2 w3 :
      List.In (op, mk) ops -> blank w1 -> blank w2 -> blank w3 ->
      term_text a s1 -> term_text b s2 -> apart s1 s2 ->
      term_text (mk a b) (w1 ++ txt "(" ++ w2 ++ txt op ++ s1 ++ s2 ++ w3 ++ txt ")")
  | TxMinus a w1 w2 s1 w3 :
      blank w1 -> blank w2 -> blank w3 -> term_text a s1 ->
      term_text (TNeg a) (w1 ++ txt "(" ++ w2 ++ txt "-" ++ s1 ++ w3 ++ txt ")").

Definition rels : seq (string * cls) :=
  [:: ("<="%string, CLe); ("<"%string, CLt); ("="%string, CEq);
      ("!="%string, CNe); (">="%string, CGe); (">"%string, CGt)].

(** The texts of a relation: its symbol is separated from a following name or
    number. *)
Inductive rel_text : cls * term * term -> seq ascii -> Prop :=
  | TxRel op c a b w1 w2 s1 s2 w3 :
      List.In (op, c) rels -> blank w1 -> blank w2 -> blank w3 ->
      term_text a s1 -> term_text b s2 -> apart (txt op) s1 -> apart s1 s2 ->
      rel_text (c, a, b) (w1 ++ txt "(" ++ w2 ++ txt op ++ s1 ++ s2 ++ w3 ++ txt ")").

Inductive rels_text : seq (cls * term * term) -> seq ascii -> Prop :=
  | TxNil : rels_text [::] [::]
  | TxCons f fs s s' : rel_text f s -> rels_text fs s' -> rels_text (f :: fs) (s ++ s').

Inductive side_text (kw : string) (fs : seq (cls * term * term)) : seq ascii -> Prop :=
  | TxSide w1 w2 s w3 : blank w1 -> blank w2 -> blank w3 -> rels_text fs s ->
      side_text kw fs (w1 ++ txt "(" ++ w2 ++ txt kw ++ s ++ w3 ++ txt ")").

Inductive sequent_text (q : sequent) : seq ascii -> Prop :=
  | TxSequent w1 w2 w3 s1 s2 w4 :
      blank w1 -> blank w2 -> blank w3 -> blank w4 ->
      ~~ has (Ascii.eqb """"%char) (s_name q) ->
      side_text "antecedent" (s_ante q) s1 -> side_text "succedent" (s_succ q) s2 ->
      sequent_text q (w1 ++ txt "(" ++ w2 ++ txt "sequent" ++ w3 ++ txt """" ++ s_name q ++
                      txt """" ++ s1 ++ s2 ++ w4 ++ txt ")").

(** A file: sequents, with text without opening parentheses around them. *)
Definition comment (s : seq ascii) : bool := ~~ has (Ascii.eqb "("%char) s.

Inductive file_text : seq sequent -> seq ascii -> Prop :=
  | TxEnd j : comment j -> file_text [::] j
  | TxMore j q s qs s' : comment j -> sequent_text q s -> file_text qs s' ->
      file_text (q :: qs) (j ++ s ++ s').

(** The variable [v] occurs. *)
Fixpoint mentions (v : string) (t : term) : bool :=
  match t with
  | TNum _ => false
  | TVar x => String.eqb x v
  | TAdd a b | TSub a b | TMul a b | TDiv a b => mentions v a || mentions v b
  | TNeg a => mentions v a
  end.
Definition rel_mentions (v : string) (f : cls * term * term) : bool :=
  mentions v f.1.2 || mentions v f.2.
Definition sequent_mentions (v : string) (q : sequent) : bool :=
  has (rel_mentions v) (s_ante q) || has (rel_mentions v) (s_succ q).

(** The text [w] occurs in [s]. *)
Definition occurs (w s : seq ascii) : Prop := exists a b, s = a ++ w ++ b.
