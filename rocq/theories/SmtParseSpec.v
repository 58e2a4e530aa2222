(** Specification vocabulary for the hiding problems that smt2.py reads: the
    texts of a term, a formula, a sequent and a file, with every admissible
    white space, and what they mean.  Only syntax trees and atoms of the model
    are used. *)
From Coq Require Import String Ascii.
From mathcomp Require Import all_ssreflect all_algebra.
From Verif Require Import Py CheckerModel GParserModel GParserSpec CheckerSpec GrfModel GrfSpec SmtParse.

Set Implicit Arguments.
Unset Strict Implicit.
Unset Printing Implicit Defensive.
Import GRing.Theory Num.Theory Order.Theory.
Local Open Scope ring_scope.

(** ** Texts *)

(** A decimal has a dot. *)
Inductive decimal_text : rat -> seq ascii -> Prop :=
  | DecDot ds : digits ds -> decimal_text (decimal ds) (ds ++ txt ".")
  | DecFrac ds es : digits ds -> digits es ->
      decimal_text (decimal ds + decimal es / 10%:R ^+ size es) (ds ++ txt "." ++ es).

(** The characters of names.  A name does not begin with a decimal; it may
    consist of digits, and it may begin with a minus sign. *)
Definition sym_char (c : ascii) : bool := [|| digit c, letter c | member c "-._:"].
Definition begins_decimal (v : seq ascii) : bool :=
  let k := find (predC digit) v in (0 < k)%N && Ascii.eqb (nth " "%char v k) ".".
Definition sym (v : seq ascii) : bool :=
  [&& all sym_char v, (0 < size v)%N & ~~ begins_decimal v].

(** [s2] may be written directly after [s1]. *)
Definition separate (s1 s2 : seq ascii) : bool :=
  Ascii.eqb (last " "%char s1) ")" || ~~ sym_char (head " "%char s2).

(** The texts of a term, with leading white space. *)
Inductive sterm_text : term -> seq ascii -> Prop :=
  | StNum q w s : blank w -> decimal_text q s -> sterm_text (TNum q) (w ++ s)
  | StNeg q w w' s : blank w -> blank w' -> decimal_text q s ->
      sterm_text (TNum (- q)) (w ++ txt "~" ++ w' ++ s)
  | StVar w v : blank w -> sym v -> sterm_text (TVar (string_of_list_ascii v)) (w ++ v)
  | StBin op mk a b w1 w2 s1 s2 w3 :
      List.In (op, mk) ops -> blank w1 -> blank w2 -> blank w3 ->
      sterm_text a s1 -> sterm_text b s2 -> separate s1 s2 ->
      sterm_text (mk a b) (w1 ++ txt "(" ++ w2 ++ txt op ++ s1 ++ s2 ++ w3 ++ txt ")")
  | StMinus a w1 w2 s1 w3 :
      blank w1 -> blank w2 -> blank w3 -> sterm_text a s1 ->
      sterm_text (TNeg a) (w1 ++ txt "(" ++ w2 ++ txt "-" ++ s1 ++ w3 ++ txt ")").

Definition formula2 := (relop * term * term)%type.
Definition srels : seq (string * relop) :=
  [:: ("<="%string, RLe); ("<"%string, RLt); ("="%string, REq);
      ("!="%string, RNe); (">="%string, RGe); (">"%string, RGt)].

(** The symbol of a relation is separated from a following letter, digit or
    underscore. *)
Inductive srel_text : formula2 -> seq ascii -> Prop :=
  | StRel op c a b w1 w2 s1 s2 w3 :
      List.In (op, c) srels -> blank w1 -> blank w2 -> blank w3 ->
      sterm_text a s1 -> sterm_text b s2 -> ~~ name_char (head " "%char s1) -> separate s1 s2 ->
      srel_text (c, a, b) (w1 ++ txt "(" ++ w2 ++ txt op ++ s1 ++ s2 ++ w3 ++ txt ")").

Inductive srels_text : seq formula2 -> seq ascii -> Prop :=
  | StNil : srels_text [::] [::]
  | StCons f fs s s' : srel_text f s -> srels_text fs s' -> srels_text (f :: fs) (s ++ s').

Inductive sside_text (kw : string) (fs : seq formula2) : seq ascii -> Prop :=
  | StSide w1 w2 s w3 : blank w1 -> blank w2 -> blank w3 -> srels_text fs s ->
      sside_text kw fs (w1 ++ txt "(" ++ w2 ++ txt kw ++ s ++ w3 ++ txt ")").

Record problem := Problem { pb_name : seq ascii; pb_ante : seq formula2; pb_succ : seq formula2 }.

Inductive problem_text (q : problem) : seq ascii -> Prop :=
  | StProblem w1 w2 w3 s1 s2 w4 :
      blank w1 -> blank w2 -> blank w3 -> blank w4 ->
      ~~ has (Ascii.eqb """"%char) (pb_name q) ->
      sside_text "antecedent" (pb_ante q) s1 -> sside_text "succedent" (pb_succ q) s2 ->
      problem_text q (w1 ++ txt "(" ++ w2 ++ txt "sequent" ++ w3 ++ txt """" ++ pb_name q ++
                      txt """" ++ s1 ++ s2 ++ w4 ++ txt ")").

(** A file: sequents and white space. *)
Inductive problems_text : seq problem -> seq ascii -> Prop :=
  | StEnd w : blank w -> problems_text [::] w
  | StMore q s qs s' : problem_text q s -> problems_text qs s' -> problems_text (q :: qs) (s ++ s').

(** ** Names *)
Definition formula_names (f : formula2) : seq string := tvars f.1.2 ++ tvars f.2.
Definition problem_names (q : problem) : seq string :=
  flatten (map formula_names (pb_ante q ++ pb_succ q)).
Definition file_names (qs : seq problem) : seq string := flatten (map problem_names qs).

(** Does a division occur? *)
Fixpoint divides (t : term) : bool :=
  match t with
  | TNum _ | TVar _ => false
  | TAdd a b | TSub a b | TMul a b => divides a || divides b
  | TDiv _ _ => true
  | TNeg a => divides a
  end.
Definition problem_divides (q : problem) : bool :=
  has (fun f => divides f.1.2 || divides f.2) (pb_ante q ++ pb_succ q).

(** ** Meaning *)
Section Meaning.
Variables (R : realDomainType) (L : lib R) (K : realFieldType) (val : P L -> (var -> K) -> K).

(** The arithmetic of the ring. *)
Record arith_ok (A : arith (P L)) : Prop := ArithOk {
  val_num : forall q e, val (a_num A q) e = ratr q;
  val_gen : forall v e, val (gen L v) e = e v;
  val_add : forall p q e, val (a_add A p q) e = val p e + val q e;
  val_sub : forall p q e, val (a_sub A p q) e = val p e - val q e;
  val_mul : forall p q e, val (a_mul A p q) e = val p e * val q e;
  val_div : forall p q r e, a_div A p q = Ok r -> val r e * val q e = val p e
}.

Definition rel2 (op : relop) (x y : K) : bool :=
  match op with
  | RGt => y < x | RLt => x < y | RLe => x <= y | RGe => y <= x | REq => x == y | RNe => x != y
  end.

(** Does the formula hold?  Its sides need to have values. *)
Definition formula_holds (v : string -> K) (f : formula2) : option bool :=
  if tvalue f.1.2 v is Some x then
    if tvalue f.2 v is Some y then Some (rel2 f.1.1 x y) else None
  else None.

(** The atom says what the formula says, the variable [x] having the number
    [nu x]. *)
Definition says (nu : string -> nat) (f : formula2) (a : atom L) : Prop :=
  [/\ aop a = f.1.1, avars a = variables (apoly a) &
      forall e x y, tvalue f.1.2 (fun n => e (nu n)) = Some x -> tvalue f.2 (fun n => e (nu n)) = Some y ->
        val (apoly a) e = x - y].

(** Every variable has its own number, and the numbers are below [n]. *)
Definition numbering (names : seq string) (nu : string -> nat) : Prop :=
  forall x y, List.In x names -> List.In y names -> nu x = nu y -> x = y.
Definition numbered_below (names : seq string) (nu : string -> nat) (n : nat) : Prop :=
  forall x, List.In x names -> (nu x < n)%N.

(** [h] is what is written in [q], and there are at least as many ring
    variables as needed. *)
Record reading (nu : string -> nat) (q : problem) (nh : nat * hiding_problem L) : Prop := Reading {
  rd_name : hp_name nh.2 = pb_name q;
  rd_ante : List.Forall2 (says nu) (pb_ante q) (hp_ante nh.2);
  rd_succ : List.Forall2 (says nu) (pb_succ q) (hp_succ nh.2);
  rd_ids : uniq (map (@aid R L) (hp_ante nh.2 ++ hp_succ nh.2));
  rd_below : numbered_below (problem_names q) nu nh.1
}.
End Meaning.

(** The number of different names. *)
Definition distinct (names : seq string) : nat :=
  size (undup (map (fun x => list_ascii_of_string x : sname) names)).

(** The sequents of a file are dealt with one after the other.  Every one
    replaces the result; an IndexError becomes a ParseException. *)
Section Order.
Variables (R : realDomainType) (L : lib R) (W : Type).
Variable perform : W -> nat -> seq (atom L) -> seq (atom L) -> res (W * (seq nat * seq nat)).
Fixpoint in_order (w : W) (last : option (seq ascii * (seq nat * seq nat))) (l : seq (nat * hiding_problem L)) :
    res (option (seq ascii * (seq nat * seq nat))) :=
  match l with
  | [::] => Ok last
  | (n, h) :: l' =>
      match perform w n (hp_ante h) (hp_succ h) with
      | Ok (w', r) => in_order w' (Some (hp_name h, r)) l'
      | Err IndexError => Err (Exc "ParseException")
      | Err e => Err e
      end
  end.
End Order.

(** The file with the sequent |- l = r. *)
Definition compare_text (l r : seq ascii) : seq ascii :=
  txt "(sequent """" (antecedent) (succedent (= " ++ l ++ txt " " ++ r ++ txt ")))".

Definition is_equation (f : formula2) : bool := if f.1.1 is REq then true else false.
Definition is_disequation (f : formula2) : bool := if f.1.1 is RNe then true else false.

(** The formulas [fs] without those at the positions [h]. *)
Definition remaining (T : Type) (h : seq nat) (fs : seq T) : seq T :=
  mask [seq i \notin h | i <- iota 0 (size fs)] fs.

(** The sequent holds under the values [v] of the names. *)
Definition entails (K : realFieldType) (v : string -> K) (fs gs : seq formula2) : bool :=
  all (fun f => formula_holds v f == Some true) fs ==> has (fun f => formula_holds v f == Some true) gs.

(** The file is read as one sequent, whose only formula is the equation
    [u = 0]; there is one variable. *)
Definition read_as (R : realDomainType) (L : lib R) (A : arith (P L)) (K : realFieldType)
    (val : P L -> (var -> K) -> K) (W : Type)
    (perform : W -> nat -> seq (atom L) -> seq (atom L) -> res (W * (seq nat * seq nat)))
    (s : seq ascii) (u : (var -> K) -> K) : Prop := exists a : atom L,
  [/\ aop a = REq, forall e, val (apoly a) e = u e &
      forall w, process_commands A perform w s = in_order perform w None [:: (1%N, HidingProblem [::] [::] [:: a])]].
