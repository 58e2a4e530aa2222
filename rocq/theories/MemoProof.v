(** Facts about the caching wrapper. *)
From mathcomp Require Import all_ssreflect.
From Coq Require Import String.
From Verif Require Import Py MuchDiag MemoModel.

Set Implicit Arguments.
Unset Strict Implicit.
Unset Printing Implicit Defensive.

Section Memo.
Variables (M : eqType) (V : Type) (K : eqType) (key : V -> K).
Variable under : M -> seq V -> res (option V).
Variable direct : pred M.

Hypothesis respects : forall m args args', ~~ direct m -> map key args = map key args' ->
  under m args = under m args'.

Notation tree := (tree M V K).
Notation ck := (ckey M K).
Implicit Types (cache : tree) (m f : M) (args : seq V) (ks : seq K).

Definition rows_valid m (d : seq (ck * tree)) : Prop := forall k t, dget d k = Ok t ->
  exists ks v, [/\ k = inr ks, t = Leaf _ _ v & forall args, map key args = ks -> under m args = Ok v].
Definition valid cache : Prop := exists2 d, cache = Node d &
  forall k t, dget d k = Ok t -> exists m d', [/\ k = inl m, t = Node d', ~~ direct m & rows_valid m d'].

(** What is stored for a call. *)
Definition stored cache m ks : option (option V) :=
  if c_get cache [:: inl m; inr ks] is Ok (Some (Leaf v)) then Some v else None.

Lemma dget_mem (T : eqType) (U : Type) (d : seq (T * U)) k : dmem d k = false -> dget d k = Err KeyError.
Proof. by move=> h; have := dget_keys d k; rewrite -/(dmem d k) h. Qed.
Lemma dmem_get (T : eqType) (U : Type) (d : seq (T * U)) k : dmem d k -> exists v, dget d k = Ok v.
Proof. by move=> h; have := dget_keys d k; rewrite -/(dmem d k) h. Qed.

Lemma c_getE cache m ks : valid cache ->
  c_get cache [:: inl m; inr ks] = Ok (omap (fun v => Leaf _ _ v) (stored cache m ks)) /\
  forall v, stored cache m ks = Some v -> forall args, map key args = ks -> under m args = Ok v.
Proof.
move=> [d -> h]; rewrite /stored /=.
case E: (dmem d _) => //=; have [t Et] := dmem_get E; rewrite Et bind_ok.
have [m' [d' [[<-] Et' _ hr]]] := h _ _ Et; rewrite Et' /=.
case E': (dmem d' _) => //=; have [t' Ek] := dmem_get E'; rewrite Ek bind_ok.
by have [ks' [v [[<-] -> hv]]] := hr _ _ Ek; split=> // v' [<-].
Qed.

Lemma c_putE cache m args v : valid cache -> ~~ direct m -> under m args = Ok v ->
  exists2 cache', c_put cache v [:: inl m; inr (map key args)] = Ok cache' &
    valid cache' /\ forall m' ks, stored cache' m' ks =
      if (m' == m) && (ks == map key args) then Some v else stored cache m' ks.
Proof.
set a := map key args; move=> [d -> h] nd Ev.
have vrow d' : rows_valid m d' -> rows_valid m (dset d' (inr a : ck) (Leaf _ _ v)).
  move=> hr k t; rewrite dget_dset; case: eqP => [-> [<-]|_]; last exact: hr.
  by exists a, v; split=> // args' e; rewrite -Ev; apply: respects.
have vtop d' : rows_valid m d' -> valid (Node (dset d (inl m : ck) (Node d'))).
  move=> hr; exists (dset d (inl m : ck) (Node d')) => // k t; rewrite dget_dset.
  by case: eqP => [-> [<-]|_]; [exists m, d'; split|exact: h].
have look d' m' ks : rows_valid m d' -> (forall k, dget d' k = if dget d (inl m) is Ok (Node d1) then dget d1 k else Err KeyError) ->
    stored (Node (dset d (inl m : ck) (Node (dset d' (inr a : ck) (Leaf _ _ v))))) m' ks =
    if (m' == m) && (ks == a) then Some v else stored (Node d) m' ks.
  move=> hr Ed'; have vc := vtop _ (vrow _ hr).
  have hm (T : eqType) (U : Type) (e : seq (T * U)) k : dmem e k = if dget e k is Ok _ then true else false.
    by have := dget_keys e k; rewrite -/(dmem e k); case: (dmem e k) => [[u ->]|->].
  rewrite /stored /= !hm !dget_dset -[inl m' == inl m]/(m' == m); case: (eqVneq m' m) => [->|ne] //=.
  rewrite !hm !dget_dset -[inr ks == inr a]/(ks == a); case: (eqVneq ks a) => [_|nk] //=.
  rewrite Ed'; case Em: (dget d _) => [t|//] /=.
  by have [m1 [d1 [_ -> _ _]]] := h _ _ Em; rewrite /= hm.
rewrite /=; case E: (dmem d (inl m)).
  have [t Et] := dmem_get E; rewrite /= Et bind_ok.
  have [m1 [d1 [[e] Et' _ hr]]] := h _ _ Et; rewrite Et' -e in hr *; rewrite /=.
  eexists; first by []; split; first exact/vtop/vrow.
  by move=> m' ks; apply: look => // k; rewrite Et Et'.
rewrite /= dget_dset eqxx !bind_ok; set d0 := [:: _].
have d0E : dset d0 (inr a : ck) (Leaf _ _ v) = d0 by rewrite /d0 /= eqxx.
have -> : dset (dset d (inl m : ck) (Node d0)) (inl m) (Node (dset d0 (inr a : ck) (Leaf _ _ v))) =
          dset d (inl m : ck) (Node (dset [::] (inr a : ck) (Leaf _ _ v))).
  rewrite d0E; elim: (d) => [|[k t] e IH] //=; first by rewrite eqxx.
  by case E1: (inl m == k) => /=; rewrite E1 // IH.
have hr0 : rows_valid m [::] by [].
eexists; first by []; split; first exact/vtop/(vrow [::]).
by move=> m' ks; apply: (look [::]) => // k; rewrite (dget_mem E).
Qed.

Definition is_call m ks (c : M * seq V) : bool := (c.1 == m) && (map key c.2 == ks).

Lemma callE cache m args : valid cache -> (direct m \/ size args = 1 \/ size args = 2) ->
  let: (r, cache', calls) := call key under direct cache m args in
  [/\ r = under m args, valid cache' &
      forall m' ks v, ~~ direct m' -> 
        (stored cache m' ks = Some (Some v) ->
           stored cache' m' ks = Some (Some v) /\ count (is_call m' ks) calls = 0) /\
        (forall a, map key a = ks -> under m' a = Ok (Some v) -> (count (is_call m' ks) calls <= 1) /\
           (0 < count (is_call m' ks) calls -> stored cache' m' ks = Some (Some v)))].
Proof.
move=> vc; rewrite /call; case dm: (direct m) => /=.
  move=> _; split=> // m' ks v nd; have ne : (m == m') = false by apply: contraNF nd => /eqP <-; rewrite dm.
  by rewrite /is_call /= ne.
case=> // ar; rewrite /c_compute; have [-> hs] := c_getE m (map key args) vc.
have ar' : (size args == 1) || (size args == 2) by case: ar => ->.
have miss : stored cache m (map key args) = None \/ stored cache m (map key args) = Some None ->
  let: (r, cache', calls) := (if (size args == 1) || (size args == 2) then
        match under m args with
        | Err e => (Err e, cache, [:: (m, args)])
        | Ok ret =>
            match c_put cache ret [:: inl m; inr (map key args)] with
            | Err e => (Err e, cache, [:: (m, args)])
            | Ok cache' => (Ok ret, cache', [:: (m, args)])
            end
        end
      else (Err (Exc "not impl yet"), cache, [::])) in
  [/\ r = under m args, valid cache' &
      forall m' ks v, ~~ direct m' -> 
        (stored cache m' ks = Some (Some v) ->
           stored cache' m' ks = Some (Some v) /\ count (is_call m' ks) calls = 0) /\
        (forall a, map key a = ks -> under m' a = Ok (Some v) -> (count (is_call m' ks) calls <= 1) /\
           (0 < count (is_call m' ks) calls -> stored cache' m' ks = Some (Some v)))].
  move=> ms; rewrite ar'; case Eu: (under m args) => [ret|e]; last first.
    split=> // m' ks v nd; split=> [st|a ka ua].
      split=> //; rewrite /= /is_call /= addn0; case: (eqVneq m m') => //= em.
      case: eqP => // ek; move: st; rewrite -em -ek.
      by case: ms => ->.
    rewrite /= /is_call /= addn0; case: (eqVneq m m') => //= em; case: eqP => //= ek.
    by move: ua; rewrite -em (@respects _ _ args) ?em // -?ek ?ka // -em Eu.
  have [|cache' -> [vc' st']] := c_putE vc _ Eu; first by rewrite dm.
  split=> // m' ks v nd; rewrite st' /= /is_call /= addn0 [m == m']eq_sym [map key args == ks]eq_sym.
  case: (eqVneq m' m) => [em|_] //=; case: (eqVneq ks (map key args)) => [ek|_] //=; split=> [|a ka ua].
    by rewrite em ek; case: ms => ->.
  split=> // _; move: ua; rewrite em (@respects _ _ args) ?dm //; last by rewrite ka ek.
  by rewrite Eu => -[->].
case Es: (stored cache m (map key args)) miss => [[v|]|] /= miss; [|apply: miss; by right|apply: miss; by left].
split=> // ; first by rewrite (hs _ Es).
Qed.

Lemma run_cachedE (T : Type) (p : prog M V T) cache : valid cache -> arities direct p ->
  let: (r, cache', calls) := run_cached key under direct cache p in
  r = run_plain under p /\
  forall m ks v, ~~ direct m ->
    (stored cache m ks = Some (Some v) -> count (is_call m ks) calls = 0) /\
    (forall a, map key a = ks -> under m a = Ok (Some v) -> count (is_call m ks) calls <= 1).
Proof.
elim: p cache => [r|m args k IH] cache vc //= [ar ark].
have := callE vc ar; case: (call _ _ _ _ _ _) => [[r cache'] calls] [-> vc' hc].
have := IH (under m args) cache' vc' (ark _).
case: (run_cached _ _ _ _ _) => [[r' cache''] calls'] [-> h]; split=> // m' ks v nd.
have [h1 h2] := h m' ks v nd; have [c1 c2] := hc m' ks v nd; split=> [st|a ka ua].
  by have [st' n0] := c1 st; rewrite count_cat n0 h1.
have [l1 l2] := c2 a ka ua; rewrite count_cat; have := h2 a ka ua.
case: (posnP (count (is_call m' ks) calls)) => [->//|lt] _.
by rewrite h1 ?addn0 //; exact: l2.
Qed.

Lemma cached_transparent (T : Type) (p : prog M V T) : arities direct p ->
  (run_cached key under direct (Node [::]) p).1.1 = run_plain under p /\
  forall m args v, ~~ direct m -> under m args = Ok (Some v) ->
    count (is_call m (map key args)) (run_cached key under direct (Node [::]) p).2 <= 1.
Proof.
move=> ar; have vc : valid (Node [::]) by exists [::].
have := run_cachedE vc ar; case: (run_cached _ _ _ _ _) => [[r cache'] calls] [-> h] /=.
by split=> // m args v nd ua; have [_ h2] := h m (map key args) v nd; exact: h2 ua.
Qed.
End Memo.

Section Timer.
Variable V : Type.

Lemma timer1 count (f : pyfun V) a : timer count f [:: a] = (f [:: a], if f [:: a] is Ok _ then count.+1 else 1).
Proof.
rewrite /timer; elim: count => [|n IH] //=; first by case: (f _).
by case E: (f _) IH => [v|e] // ->.
Qed.

Lemma timer2 count (f : pyfun V) a b : (timer count f [:: a; b]).1 = f [:: a; b].
Proof. by rewrite -[timer _ _ _]/(timer count (lambda1 (fun x => f [:: a; x])) [:: b]) timer1. Qed.

Lemma timer_many count (f : pyfun V) a b c args : (timer count f [:: a, b, c & args]).1 = Err TypeError.
Proof.
have H' (g : pyfun V) x y l : (forall y z, g [:: y; z] = Err TypeError) -> (timer count g [:: x, y & l]).1 = Err TypeError.
  elim: l g x y => [|z l IH] g x y hg; first by rewrite timer2 hg.
  by rewrite -[timer _ _ _]/(timer count (lambda1 (fun x' => g [:: x; x'])) [:: y, z & l]); apply: IH.
by rewrite -[timer _ _ _]/(timer count (lambda1 (fun x => f [:: a; x])) [:: b, c & args]); apply: H'.
Qed.
End Timer.

(** has_variable on numbers: [(true, n)] is a Python int, which has no
    attribute free_symbols, [(false, n)] a sympy Integer; they are equal as
    keys.  The result False is the int 0. *)
Definition num : Type := (bool * nat)%type.
Definition num_key (v : num) : nat := v.2.
Definition has_variable (m : unit) (args : seq num) : res (option num) :=
  match args with
  | [:: (true, _)] => Err AttributeError
  | [:: (false, _)] => Ok (Some (true, 0))
  | _ => Err TypeError
  end.
(** has_variable(Integer(7)), then has_variable of the argument. *)
Definition twice (v : num) : prog [eqType of unit] num num :=
  Call tt [:: (false, 7)] (fun _ => Call tt [:: v] (fun r =>
    Done _ _ (match r with Ok (Some w) => Ok w | Ok None => Err TypeError | Err e => Err e end))).

Lemma keys_refuted : exists p : prog [eqType of unit] num num,
  arities pred0 p /\
  run_plain has_variable p = Err AttributeError /\
  (run_cached num_key has_variable pred0 (Node [::]) p).1.1 = Ok (true, 0).
Proof. by exists (twice (true, 7)); split; [split; [right; left|split; [right; left|]]|]. Qed.

(** The same with sympy numbers only: one of the two calls is made. *)
Definition sympy_num (m : unit) (args : seq nat) : res (option nat) :=
  if args is [:: _] then Ok (Some 0) else Err TypeError.
Definition twice_sympy : prog [eqType of unit] nat nat :=
  Call tt [:: 7] (fun _ => Call tt [:: 7] (fun r =>
    Done _ _ (if r is Ok (Some w) then Ok w else Err TypeError))).
