(** Model of the life of a ParseSMT object of GRF/smt2.py (line numbers refer
    to it): the constructor (193-199), processCommands with and without a
    context (430-440) and clearContext (442-443).

    Contexts are objects that are shared, so there is a store of contexts and a
    parser holds two references: self.context, which the parse actions look up
    each time they run (219-223, 262-287), and the context whose perform_grf
    was made the parse action of a sequent when the grammar was built (424).

    perform_grf is an arbitrary function [grf] from what it finds to what it
    leaves behind, with or without an exception; the field sequent_str is set
    before (109).  [W] is everything outside of contexts.  The grammar is that
    of SmtParse.v, with its limits.  After an exception of the arithmetic the
    names and formulas of the command that failed are not kept in the store. *)
From Coq Require Import String Ascii.
From mathcomp Require Import all_ssreflect all_algebra.
From Verif Require Import Py GParserModel GrfModel GrfSmt SmtParse.

Set Implicit Arguments.
Unset Strict Implicit.
Unset Printing Implicit Defensive.

Section Session.
Variables (R : realDomainType) (L : lib R) (A : arith (P L)).
(** k, epsilon and interactive. *)
Variable settings : Type.
Variables (W : Type).

(** 39-57 SMTContext; the fields that only perform_grf uses are left out. *)
Record context := Context {
  cset : settings;
  cnames : ctx sname;
  cante : seq (atom L);
  csucc : seq (atom L);
  cseq : text;
  chide : option (seq nat * seq nat)
}.
Definition new_context (o : settings) : context := Context o (new_ctx sname) [::] [::] [::] None.

Definition set_names (n : ctx sname) (c : context) := Context (cset c) n (cante c) (csucc c) (cseq c) (chide c).
(** 83-84, 86-87, 109. *)
Definition set_ante (a : seq (atom L)) (c : context) := Context (cset c) (cnames c) a (csucc c) (cseq c) (chide c).
Definition set_succ (a : seq (atom L)) (c : context) := Context (cset c) (cnames c) (cante c) a (cseq c) (chide c).
Definition set_seq (s : text) (c : context) := Context (cset c) (cnames c) (cante c) (csucc c) s (chide c).

(** The contexts, and a counter that gives every atom its identity. *)
Record store := Store { heap : nat -> context; next : nat }.
Definition change (i : nat) (f : context -> context) (st : store) : store :=
  Store (fun j => if j == i then f (heap st j) else heap st j) (next st).

(** An element whose actions use the context [i]. *)
Definition on (i : nat) T (p : elt pst T) : elt store T := fun st s =>
  let back (q : pst) := Store (heap (change i (set_names (names q)) st)) (fresh q) in
  match p (Pst (cnames (heap st i)) (next st)) s with
  | Yes a r q => Yes a r (back q)
  | No q => No (back q)
  | Raise e => Raise e
  end.

(** 418-421 with the actions of 219-225. *)
Definition s_side (i n : nat) (kw : text) (set : seq (atom L) -> context -> context) : elt store unit :=
  sq (on i (p_side A n kw)) (fun fs => act (fun st => Ok (change i (set fs) st, tt))).

(** 423-424 up to the action; [i] is self.context.  The value is t[1]. *)
Definition s_cmd (i : nat) : elt store text := fun st s =>
  let n := (size s).+1 in
  (sq (on i p_lpar) (fun _ => sq (on i (lit (chars "sequent"))) (fun _ =>
   sq (on i (@quoted_string _)) (fun name =>
   sq (s_side i n (chars "antecedent") set_ante) (fun _ =>
   sq (s_side i n (chars "succedent") set_succ) (fun _ =>
   sq (on i p_rpar) (fun _ => ret name))))))) st s.

Variable grf : W -> context -> W * context * option exn.

(** 425; [b] is the context of the action.  The state and the rest of the
    text, or the exception and the state. *)
Fixpoint s_cmds (k i b : nat) (w : W) (st : store) (s : text) : W * store * res text :=
  if k is k'.+1 then
    match s_cmd i st s with
    | Yes name r st' =>
        let: (w', c', x) := grf w (set_seq name (heap st' b)) in
        let st2 := change b (fun=> c') st' in
        match x with
        | None => s_cmds k' i b w' st2 r
        | Some IndexError => (w', st2, Ok s)
        | Some e => (w', st2, Err e)
        end
    | No st' => (w, st', Ok s)
    | Raise e => (w, st, Err e)
    end
  else (w, st, Err OutOfFuel).

(** parseString(s, parseAll=True) *)
Definition parse_all (i b : nat) (w : W) (st : store) (s : text) : W * store * option exn :=
  let: (w', st', r) := s_cmds (size s).+1 i b w st s in
  (w', st', match r with
            | Ok rest => if skip rest is [::] then None else Some (Exc "ParseException")
            | Err e => Some e
            end).

Record parser := Parser { self_context : nat; action_context : nat }.

(** 193-199 and 424: the contexts are numbered, [n] is the number of a new
    one. *)
Definition new_parser (given : option nat) (o : settings) (n : nat) (st : store) : parser * store :=
  match given with
  | None => (Parser n n, change n (fun=> new_context o) st)
  | Some c => (Parser c c, st)
  end.

(** 430-440: the parser afterwards, the rest of the state, and the context
    returned. *)
Definition process (given : option nat) (p : parser) (w : W) (st : store) (s : text) :
    parser * W * store * res nat :=
  match given with
  | None =>
      let: (w', st', x) := parse_all (self_context p) (action_context p) w st s in
      (p, w', st', if x is Some e then Err e else Ok (self_context p))
  | Some c =>
      let old_context := self_context p in
      let p' := Parser c (action_context p) in
      let: (w', st', x) := parse_all (self_context p') (action_context p') w st s in
      if x is Some e then (p', w', st', Err e)
      else
        let new_context := self_context p' in
        (Parser old_context (action_context p'), w', st', Ok new_context)
  end.

(** 442-443: SMTContext() with its default arguments [o] (40). *)
Definition clear_context (o : settings) (n : nat) (p : parser) (st : store) : parser * store :=
  (Parser n (action_context p), change n (fun=> new_context o) st).

(** 465-466: hiding_result['hide_antecedent'] and hiding_result['hide_succedent']. *)
Definition hidden (st : store) (c : nat) : res (seq nat * seq nat) :=
  if chide (heap st c) is Some h then Ok h else Err TypeError.
End Session.

(** perform_grf when a function [perform] of the problem gives hiding_result. *)
Section Action.
Variables (R : realDomainType) (L : lib R) (settings W : Type).
Variable perform : W -> nat -> seq (atom L) -> seq (atom L) -> res (W * (seq nat * seq nat)).
Definition grf_of (w : W) (c : context L settings) : W * context L settings * option exn :=
  match perform w (nvars (cnames c)) (cante c) (csucc c) with
  | Ok (w', h) => (w', Context (cset c) (cnames c) (cante c) (csucc c) (cseq c) (Some h), None)
  | Err e => (w, c, Some e)
  end.
End Action.
