(** Model of the sampling functions of GRF/local_search.py (lines marked [l])
    and GRF/grf.sage (lines marked [g]) that the procedure does not call at
    present: the choice of an atom by the values of the polynomials, the
    functions handed to a solver, and sampling in a ball.

    Numbers are exact, as in GrfModel.v.  [ex] is math.exp, which may round to
    0.  [value] is the conversion of a substituted polynomial to a number. *)
From Coq Require Import String.
From mathcomp Require Import all_ssreflect all_algebra.
From Verif Require Import Py GrfModel.

Set Implicit Arguments.
Unset Strict Implicit.
Unset Printing Implicit Defensive.
Import GRing.Theory Num.Theory Order.Theory.
Local Open Scope ring_scope.

Section Soft.
Variables (R : realFieldType) (ex : R -> R).

(** l 29-31. *)
Definition pysum (l : seq R) : R := foldl +%R 0 l.
Definition soft_probs (F : seq R) : res (seq R) :=
  let expF := [seq ex (- `|f|) | f <- F] in
  let Z := pysum expF in
  mapM (fun p => if Z == 0 then Err (Exc "ZeroDivisionError") else Ok (p / Z)) expF.

(** l 34-39; [None] when the loop ends. *)
Fixpoint soft_loop (i : nat) (r : R) (P : seq R) : option nat :=
  if P is p :: P' then
    if p < r then soft_loop i.+1 (r - p) P' else Some i
  else None.

(** l 28-40; [r] is the result of random.random(). *)
Definition softzero_sample (F : seq R) (r : R) : res nat :=
  let! P := soft_probs F in
  Ok (if soft_loop 0 r P is Some i then i else maxn 0 (size F).-1).

Variable L : lib R.
Variable value : P L -> res R.

(** l 83-88; the atoms are those of get_all_hyp_atoms (g 799). *)
Definition choose_atom_softzero (order : seq var) (s : decide L) (x : seq R) (r : R) : res (atom L) :=
  let! D := vect2dict order x in
  let Atoms := hyps s ++ goal_hyps (dgoal s) in
  let! A_values := mapM (fun a => value (substitute (apoly a) D)) Atoms in
  let! i := softzero_sample A_values r in
  pyget Atoms i.
End Soft.

Section Solver.
Variables (R : realDomainType) (L : lib R) (O : oracle L).
Local Notation asg := (dict [eqType of var] R).

(** l 105-107. *)
Variable value : P L -> res R.
Definition eval_poly (order : seq var) (p : P L) (x : seq R) : res R :=
  let! D := vect2dict order x in value (substitute p D).

(** l 125, 140: the function for the solver, padded to N components. *)
Definition system (order : seq var) (N : nat) (p : P L) (eps : R) (x : seq R) : res (seq R) :=
  let! v := eval_poly order p x in Ok ((v + eps) :: nseq (N - 1) 0).

(** l 111-125.  [glob] is the global variable ineq_eps, which no module
    defines. *)
Definition get_num_falsifying_func (glob : option R) (w : addr) (order : seq var) (a : atom L) (x : seq R) :
    res (seq R -> res (seq R)) :=
  let N := size x in
  let ineq_eps := if glob is Some e then Ok e else Err (Exc "NameError") in
  let! flip_eps :=
    match aop a with
    | RLt | RLe => let! e := ineq_eps in Ok (- e)
    | RGt | RGe => ineq_eps
    | _ => let! e := ineq_eps in let! c := pychoice O w [:: -1; 0; 1] in Ok (e * c)
    end in
  Ok (system order N (apoly a) flip_eps).

(** l 127-140. *)
Definition get_num_flipping_func (w : addr) (order : seq var) (a : atom L) (x : seq R) :
    res (seq R -> res (seq R)) :=
  let! e := flip_eps O w order a x in Ok (system order (size x) (apoly a) e).

(** l 142-149: (A.poly + flip_eps)**2. *)
Variables (plus : P L -> R -> P L) (square : P L -> P L).
Definition get_symb_flipping_func (w : addr) (order : seq var) (a : atom L) (x : seq R) : res (P L) :=
  let! e := flip_eps O w order a x in Ok (square (plus (apoly a) e)).

(** g 817-826. *)
Fixpoint perturbe_dict (epsilon : R) (w : addr) (i : nat) (d : asg) : asg :=
  match d with
  | [::] => [::]
  | (v, x) :: d' => (v, x + uniform O (i :: w) (- epsilon) epsilon) :: perturbe_dict epsilon w i.+1 d'
  end.
Definition k_sample_points_in_ball (w : addr) (d : asg) (k : nat) (epsilon : R) : seq asg :=
  [seq perturbe_dict epsilon (i :: w) 0 d | i <- iota 0 k].
End Solver.
