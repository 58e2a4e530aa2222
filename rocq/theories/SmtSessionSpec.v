(** Specification vocabulary for the life of a ParseSMT object. *)
From Coq Require Import String Ascii.
From mathcomp Require Import all_ssreflect all_algebra.
From Verif Require Import Py GParserModel GrfModel SmtParse SmtParseSpec SmtSession.

Set Implicit Arguments.
Unset Strict Implicit.
Unset Printing Implicit Defensive.

Section Spec.
Variables (R : realDomainType) (L : lib R) (settings W : Type).
Variable grf : W -> context L settings -> W * context L settings * option exn.

(** perform_grf is run on one context once for each of the given names, until
    it raises an exception.  No text is looked at. *)
Fixpoint rerun (names : seq text) (w : W) (c : context L settings) : W * context L settings * option exn :=
  if names is n :: names' then
    let: (w', c', x) := grf w (set_seq n c) in
    if x is Some e then (w', c', Some e) else rerun names' w' c'
  else (w, c, None).

(** It needs a formula in the succedent. *)
Definition needs_succedent : Prop := forall w c, csucc c = [::] -> (grf w c).2 = Some IndexError.
End Spec.

(** An IndexError of a parse action counts as a syntax error. *)
Definition outcome (c : nat) (x : option exn) : res nat :=
  match x with
  | None => Ok c
  | Some IndexError => Err (Exc "ParseException")
  | Some e => Err e
  end.

(** (sequent_str, hiding_result) of a context that has a result. *)
Definition reported (R : realDomainType) (L : lib R) (settings : Type) (c : context L settings) :
    option (text * (seq nat * seq nat)) :=
  if chide c is Some h then Some (cseq c, h) else None.
