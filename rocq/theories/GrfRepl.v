(** Model of sessions with one RCF_GD_Decide object of GRF/grf.sage that go on
    after exceptions, as at the prompt of Sage.  Line numbers of grf.sage are
    marked [g]. *)
From mathcomp Require Import all_ssreflect all_algebra.
From Coq Require Import String.
From Verif Require Import Py GrfModel GrfCad GrfAgain.

Set Implicit Arguments.
Unset Strict Implicit.
Unset Printing Implicit Defensive.
Import GRing.Theory Num.Theory Order.Theory.
Local Open Scope ring_scope.

Section Repl.
Variables (R : realDomainType) (L : lib R) (O : oracle L).
Variable solve : nat -> seq constraint -> seq nat -> res (nat -> bool).
Local Notation poly := (P L).
Local Notation asg := (dict [eqType of var] R).
Variable sample : addr -> option (goal L) -> seq poly -> seq (atom L) -> res (seq asg * seq poly).
Variables (partial : bool) (k : nat) (epsilon : R).

Definition installed (top : seq poly) (s : decide L) : seq poly :=
  top ++ apoly (main_goal (dgoal s)) :: [seq apoly h | h <- goal_hyps (dgoal s)].
Definition sampled (fuel : nat) (top : seq poly) (s : decide L) : res (seq asg * seq poly) :=
  sample [:: fuel; 0%N] (if partial then Some (dgoal s) else None) (installed top s) (hyps s).

(** [left_by fuel cs top s s' t]: a check (g 947-1035) that started with [s] and
    the polynomials [top] and raised an exception may have left the object with
    [s'] and [t].  The exception may come
    - from sampling: the polynomials are installed, and filtered or not;
    - from the evaluation of the hypotheses: VarOrder.order may have been set;
    - from the choice of a hypothesis, or from the add_goal_hyp of promote_right
      (g 828-832), after the hypothesis was taken out of the list;
    - from a recursive call. *)
Inductive left_by : nat -> option (seq command) -> seq poly -> decide L -> decide L -> seq poly -> Prop :=
  | LSample fuel cs top s x t : sampled fuel.+1 top s = Err x ->
      {subset t <= installed top s ++ filter_proj_set (installed top s)} -> left_by fuel.+1 cs top s s t
  | LBads fuel cs top s ds t x order : sampled fuel.+1 top s = Ok (ds, t) ->
      all_bads O [:: fuel.+1; 1%N] 0 s ds k epsilon = Err x ->
      left_by fuel.+1 cs top s (Decide (hyps s) (dgoal s) order) t
  | LChoice fuel cs top s ds t o bads x s' : sampled fuel.+1 top s = Ok (ds, t) ->
      all_bads O [:: fuel.+1; 1%N] 0 s ds k epsilon = Ok (o, Some bads) ->
      (if cs is Some l then interact solve (Decide (hyps s) (dgoal s) o) bads l = Err x
       else auto solve (Decide (hyps s) (dgoal s) o) bads = Err x) ->
      s' = Decide (hyps s) (dgoal s) o \/
      (exists i h y, [/\ pyget (hyps s) i = Ok h, add_goal_hyp (dgoal s) h = Err y &
         s' = Decide (take i (hyps s) ++ drop i.+1 (hyps s)) (dgoal s) o]) ->
      left_by fuel.+1 cs top s s' t
  | LUser fuel l top s ds t o bads s2 inter l' s' t' : sampled fuel.+1 top s = Ok (ds, t) ->
      all_bads O [:: fuel.+1; 1%N] 0 s ds k epsilon = Ok (o, Some bads) ->
      interact solve (Decide (hyps s) (dgoal s) o) bads l = Ok (s2, inter, l') ->
      left_by fuel (if inter then Some l' else None) t s2 s' t' -> left_by fuel.+1 (Some l) top s s' t'
  | LAuto fuel top s ds t o bads s2 s' t' : sampled fuel.+1 top s = Ok (ds, t) ->
      all_bads O [:: fuel.+1; 1%N] 0 s ds k epsilon = Ok (o, Some bads) ->
      auto solve (Decide (hyps s) (dgoal s) o) bads = Ok s2 ->
      left_by fuel None t s2 s' t' -> left_by fuel.+1 None top s s' t'.
End Repl.

Section Session.
Variables (R : realDomainType) (L : lib R) (O : oracle L).
Variable solve : nat -> seq constraint -> seq nat -> res (nat -> bool).
Local Notation poly := (P L).
Local Notation asg := (dict [eqType of var] R).
Variable sample : addr -> option (goal L) -> seq poly -> seq (atom L) -> res (seq asg * seq poly).

(** One call at the prompt. *)
Inductive step (o : object L) : call L -> object L -> Prop :=
  | SHyps h hs : step o (AssertHyps h hs) (assert_hyps o h hs)
  | SGoal g : step o (AssertGoal g) (assert_goal o g)
  | SOk fuel partial k eps cs r o' : check_obj O solve sample fuel partial k eps cs o = Ok (r, o') ->
      step o (Check L fuel partial k eps cs) o'
  | SNone fuel partial k eps cs : ogoal o = None -> step o (Check L fuel partial k eps cs) o
  | SExn fuel partial k eps cs g s' t : ogoal o = Some g ->
      left_by O solve sample partial k eps fuel cs (ostore o) (Decide (ohyps o) g (oorder o)) s' t ->
      step o (Check L fuel partial k eps cs) (Obj (hyps s') (Some (dgoal s')) (vorder s') t).
Inductive steps : seq (call L) -> object L -> Prop :=
  | SNew : steps [::] (new_object L)
  | SStep l o c o' : steps l o -> step o c o' -> steps (rcons l c) o'.
End Session.

(** ** An executable session, for examples *)
Section Run.
Variables (R : realDomainType) (L : lib R) (O : oracle L).
Variable solve : nat -> seq constraint -> seq nat -> res (nat -> bool).
Local Notation poly := (P L).
Local Notation asg := (dict [eqType of var] R).
Variable sample : addr -> option (goal L) -> seq poly -> seq (atom L) -> res (seq asg * seq poly).

(** One of the states of [left_by]; None when no exception is raised or the
    fuel does not suffice. *)
Fixpoint left_q (fuel : nat) (partial : bool) (k : nat) (eps : R) (cs : option (seq command))
    (top : seq poly) (s : decide L) : option (decide L * seq poly) :=
  if fuel is fuel'.+1 then
    match sampled sample partial fuel top s with
    | Err _ => Some (s, installed top s)
    | Ok (ds, t) =>
        match all_bads O [:: fuel; 1%N] 0 s ds k eps with
        | Err _ => Some (Decide (hyps s) (dgoal s) (vorder s), t)
        | Ok (_, None) => None
        | Ok (o, Some bads) =>
            let s1 := Decide (hyps s) (dgoal s) o in
            match cs with
            | Some l =>
                match interact solve s1 bads l with
                | Err _ => Some (s1, t)
                | Ok (s2, inter, l') => left_q fuel' partial k eps (if inter then Some l' else None) t s2
                end
            | None =>
                match auto solve s1 bads with
                | Err _ => Some (s1, t)
                | Ok s2 => left_q fuel' partial k eps None t s2
                end
            end
        end
    end
  else None.
Definition step_q (o : object L) (c : call L) : option (object L) :=
  match c with
  | AssertHyps h hs => Some (assert_hyps o h hs)
  | AssertGoal g => Some (assert_goal o g)
  | Check fuel partial k eps cs =>
      match check_obj O solve sample fuel partial k eps cs o with
      | Ok (_, o') => Some o'
      | Err _ =>
          if ogoal o is Some g then
            if left_q fuel partial k eps cs (ostore o) (Decide (ohyps o) g (oorder o)) is Some (s', t)
            then Some (Obj (hyps s') (Some (dgoal s')) (vorder s') t) else None
          else Some o
      end
  end.
Definition steps_q (l : seq (call L)) : option (object L) :=
  foldl (fun oo c => if oo is Some o then step_q o c else None) (Some (new_object L)) l.
End Run.
