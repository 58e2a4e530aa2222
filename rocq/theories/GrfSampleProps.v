(** Property theorems about the sampling functions of GRF/local_search.py and
    GRF/grf.sage (C97-C99). *)
From mathcomp Require Import all_ssreflect all_algebra.
From mathcomp.real_closed Require Import polyrcf.
From Coq Require Import String.
From Verif Require Import Py GrfModel GrfSpec GrfInst GrfEx GrfPick GrfPickEx GrfSample GrfSampleFacts GrfSampleEx.

Set Implicit Arguments.
Unset Strict Implicit.
Unset Printing Implicit Defensive.
Import GRing.Theory Num.Theory Order.Theory.
Local Open Scope ring_scope.
Local Notation asg := (dict [eqType of var]).

(** ** C97: the soft zero *)

(** The index [i] is chosen for the random numbers of one interval, ... *)
Theorem C97_interval :
  forall (R : realFieldType) (ex : R -> R) (F : seq R) (r : R) (i : nat),
  no_negative ex -> 0 < weight_of ex F -> 0 < r <= 1 -> (i < size F)%N ->
  softzero_sample ex F r = Ok i <-> share ex F i < r <= share ex F i.+1.
Proof. exact: soft_interval. Qed.
Print Assumptions C97_interval.
Example C97_interval_ex : no_negative slow /\ 0 < weight_of slow F97 /\
  softzero_sample slow F97 (1 / 7%:R) = Ok 0%N /\ softzero_sample slow F97 (5%:R / 7%:R) = Ok 1%N /\
  softzero_sample slow F97 (6%:R / 7%:R) = Ok 2%N /\ softzero_sample slow F97 0 = Ok 0%N.
Proof. exact: (conj slow_no_negative (conj F97_pos ex97)). Qed.

(** ... the intervals follow one another from 0 to 1, ... *)
Theorem C97_ends :
  forall (R : realFieldType) (ex : R -> R) (F : seq R), weight_of ex F != 0 ->
  share ex F 0 = 0 /\ share ex F (size F) = 1.
Proof. exact: share_ends. Qed.
Print Assumptions C97_ends.

(** ... the length of the interval of a value is its weight divided by the
    sum, ... *)
Theorem C97_length :
  forall (R : realFieldType) (ex : R -> R) (F : seq R) (i : nat) (f : R), (i < size F)%N ->
  share ex F i.+1 - share ex F i = ex (- `|nth f F i|) / weight_of ex F.
Proof. exact: share_length. Qed.
Print Assumptions C97_length.

(** ... so the values near zero have the longer intervals. *)
Theorem C97_bias :
  forall (R : realFieldType) (ex : R -> R) (F : seq R) (i j : nat) (f : R),
  {homo ex : x y / x <= y} -> no_negative ex -> (i < size F)%N -> (j < size F)%N ->
  `|nth f F i| <= `|nth f F j| -> share ex F j.+1 - share ex F j <= share ex F i.+1 - share ex F i.
Proof. exact: soft_bias. Qed.
Print Assumptions C97_bias.
Example C97_bias_ex : {homo slow : x y / x <= y} /\ `|nth 0 F97 1| <= `|nth 0 F97 2|.
Proof. by split; [exact: slow_homo|vm_compute]. Qed.

(** The random number 0 gives the first index. *)
Theorem C97_first :
  forall (R : realFieldType) (ex : R -> R) (F : seq R), no_negative ex -> 0 < weight_of ex F ->
  softzero_sample ex F 0 = Ok 0%N.
Proof. exact: soft_first. Qed.
Print Assumptions C97_first.

(** Whatever the random number is, an index that is returned is one of the list; *)
Theorem C97_index :
  forall (R : realFieldType) (ex : R -> R) (F : seq R) (r : R) (i : nat), softzero_sample ex F r = Ok i ->
  if F is [::] then i = 0%N else (i < size F)%N.
Proof. exact: soft_index. Qed.
Print Assumptions C97_index.

(** a number above all the shares gives the last one. *)
Theorem C97_beyond :
  forall (R : realFieldType) (ex : R -> R) (F : seq R) (r : R), no_negative ex -> 0 < weight_of ex F -> 1 < r ->
  softzero_sample ex F r = Ok (size F).-1.
Proof. exact: soft_beyond. Qed.
Print Assumptions C97_beyond.

Example C97_beyond_ex : softzero_sample slow F97 (8%:R / 7%:R) = Ok 2%N /\ softzero_sample slow F97 (-1) = Ok 0%N.
Proof. exact: beyond97. Qed.

(** If all weights round to 0 the division fails, ... *)
Theorem C97_underflow :
  forall (R : realFieldType) (ex : R -> R) (F : seq R), F <> [::] -> weight_of ex F = 0 ->
  forall r : R, softzero_sample ex F r = Err (Exc "ZeroDivisionError"%string).
Proof. exact: soft_zero. Qed.
Print Assumptions C97_underflow.

(** ... so there is not always an index. *)
Theorem C97_refuted :
  exists (ex : rat -> rat) (F : seq rat) (r : rat),
  no_negative ex /\ {homo ex : x y / x <= y} /\ ex 0 = 1 /\ F <> [::] /\ 0 <= r < 1 /\
  softzero_sample ex F r = Err (Exc "ZeroDivisionError"%string).
Proof. exact: soft_refuted. Qed.
Print Assumptions C97_refuted.

(** The atom chosen at a point. *)
Theorem C97_atom :
  forall (R : realFieldType) (ex : R -> R) (L : lib R) (value : P L -> res R) (val : P L -> (var -> R) -> R)
    (order : seq var) (s : decide L) (x : seq R) (r : R) (d : asg R) (e : var -> R) (i : nat) (a : atom L),
  value_ok value val -> no_negative ex ->
  let atoms := hyps s ++ goal_hyps (dgoal s) in
  let F := [seq val (apoly a) e | a <- atoms] in
  vect2dict order x = Ok d -> agrees id d e ->
  (forall b, List.In b atoms -> all (fun v => dmem d v) (variables (apoly b))) ->
  0 < weight_of ex F -> 0 < r <= 1 -> pyget atoms i = Ok a ->
  share ex F i < r <= share ex F i.+1 -> choose_atom_softzero ex value order s x r = Ok a.
Proof. exact: soft_chosen. Qed.
Print Assumptions C97_atom.
Example C97_atom_ex : @value_ok [realDomainType of rat] qlib rvalue rval /\
  op_of (@choose_atom_softzero [realFieldType of rat] slow qlib rvalue [:: 0%N; 1%N] s97 [:: 3%:R; 0] (1 / 10%:R))
    = Some RGt /\
  op_of (@choose_atom_softzero [realFieldType of rat] slow qlib rvalue [:: 0%N; 1%N] s97 [:: 3%:R; 0] (1 / 2%:R))
    = Some RLt.
Proof. exact: (conj rvalue_ok ex97_choose). Qed.

(** Without hypotheses the choice raises IndexError. *)
Theorem C97_no_atoms :
  forall (R : realFieldType) (ex : R -> R) (L : lib R) (value : P L -> res R) (order : seq var) (s : decide L)
    (x : seq R) (r : R) (d : asg R),
  vect2dict order x = Ok d -> hyps s = [::] -> goal_hyps (dgoal s) = [::] ->
  choose_atom_softzero ex value order s x r = Err IndexError.
Proof. exact: soft_no_atoms. Qed.
Print Assumptions C97_no_atoms.

(** ** C98: the falsifying function *)

(** Every call raises NameError. *)
Theorem C98_undefined :
  forall (R : realDomainType) (L : lib R) (O : oracle L) (value : P L -> res R) (w : addr) (order : seq var)
    (a : atom L) (x : seq R),
  get_num_falsifying_func O value None w order a x = Err (Exc "NameError"%string).
Proof. exact: falsify_undefined. Qed.
Print Assumptions C98_undefined.

(** If the name were defined: a zero of the function falsifies an inequality,
    but an equation stays true when 0 is drawn, and a disequation unless 0 is
    drawn. *)
Theorem C98_defined :
  forall (R : realDomainType) (L : lib R) (O : oracle L) (value : P L -> res R) (val : P L -> (var -> R) -> R),
  value_ok value val ->
  forall (eps : R) (w : addr) (order : seq var) (a : atom L) (x : seq R) (f : seq R -> res (seq R))
    (x' v : seq R) (d : asg R) (e : var -> R),
  0 < eps -> get_num_falsifying_func O value (Some eps) w order a x = Ok f ->
  f x' = Ok v -> all (fun c => c == 0) v ->
  vect2dict order x' = Ok d -> all (fun v => dmem d v) (variables (apoly a)) -> agrees id d e ->
  match aop a with
  | RLt | RLe | RGt | RGe => atom_true val a e = false
  | REq => exists2 c, pychoice O w [:: -1; 0; 1] = Ok c & atom_true val a e = (c == 0 :> R)
  | RNe => exists2 c, pychoice O w [:: -1; 0; 1] = Ok c & atom_true val a e = (c != 0 :> R)
  end.
Proof. exact: falsify_defined. Qed.
Print Assumptions C98_defined.
Example C98_ex :
  at_point (get_num_falsifying_func middle rvalue (Some 1) [::] [:: 0%N; 1%N] (at_ 0 (X 0) RGe) [:: 5%:R; 2%:R])
    [:: -1; 2%:R] = Some [:: 0; 0] /\
  at_point (get_num_falsifying_func middle rvalue (Some 1) [::] [:: 0%N; 1%N] (at_ 0 (X 0) REq) [:: 0; 2%:R])
    [:: 0; 2%:R] = Some [:: 0; 0] /\
  at_point (get_num_falsifying_func xoracle rvalue (Some 1) [::] [:: 0%N; 1%N] (at_ 0 (X 0) RNe) [:: 5%:R; 2%:R])
    [:: 1; 2%:R] = Some [:: 0; 0].
Proof. exact: ex98. Qed.

(** ** C99: the flipping functions and the ball *)

(** The system has as many equations as unknowns, and at a solution the
    polynomial has the other sign. *)
Theorem C99_system :
  forall (R : realDomainType) (L : lib R) (O : oracle L) (value : P L -> res R) (val : P L -> (var -> R) -> R),
  value_ok value val -> lib_ok id val ->
  forall (w : addr) (order : seq var) (a : atom L) (x : seq R) (f : seq R -> res (seq R)) (x' v : seq R)
    (d : asg R) (e : var -> R) (d' : asg R) (e' : var -> R),
  get_num_flipping_func O value w order a x = Ok f -> 0 < margin O ->
  vect2dict order x = Ok d -> all (fun v => dmem d v) (variables (apoly a)) -> agrees id d e ->
  vect2dict order x' = Ok d' -> all (fun v => dmem d' v) (variables (apoly a)) -> agrees id d' e' ->
  f x' = Ok v -> size v = maxn 1 (size x) /\
  (all (fun c => c == 0) v ->
   (val (apoly a) e != 0 -> Num.sg (val (apoly a) e') = - Num.sg (val (apoly a) e)) /\
   (val (apoly a) e = 0 -> val (apoly a) e' != 0)).
Proof. exact: flipping_system. Qed.
Print Assumptions C99_system.
Example C99_system_ex :
  @value_ok [realDomainType of rat] qlib rvalue rval /\ @lib_ok [realDomainType of rat] qlib _ id rval /\
  at_point (get_num_flipping_func middle rvalue [::] [:: 0%N; 1%N] (at_ 0 (X 0) RGe) [:: 5%:R; 2%:R])
    [:: -1; 2%:R] = Some [:: 0; 0] /\
  at_point (get_num_flipping_func middle rvalue [::] [:: 0%N; 1%N] (at_ 0 (X 0) RGe) [:: 5%:R; 2%:R])
    [:: 5%:R; 2%:R] = Some [:: 6%:R; 0].
Proof. exact: (conj rvalue_ok (conj rval_ok ex99)). Qed.

(** The symbolic function is nowhere negative, and its zeros are the points
    where the polynomial has the opposite sign and the size of the margin. *)
Theorem C99_symbolic :
  forall (R : realDomainType) (L : lib R) (O : oracle L) (val : P L -> (var -> R) -> R), lib_ok id val ->
  forall (plus : P L -> R -> P L) (square : P L -> P L),
  (forall p c e, val (plus p c) e = val p e + c) -> (forall p e, val (square p) e = val p e ^+ 2) ->
  forall (w : addr) (order : seq var) (a : atom L) (x : seq R) (q : P L) (d : asg R) (e e' : var -> R),
  get_symb_flipping_func O plus square w order a x = Ok q -> 0 < margin O ->
  vect2dict order x = Ok d -> all (fun v => dmem d v) (variables (apoly a)) -> agrees id d e ->
  0 <= val q e' /\
  (val q e' = 0 ->
   (val (apoly a) e != 0 -> Num.sg (val (apoly a) e') = - Num.sg (val (apoly a) e)) /\
   (val (apoly a) e = 0 -> val (apoly a) e' != 0)) /\
  (val (apoly a) e != 0 -> val (apoly a) e' = - (Num.sg (val (apoly a) e) * margin O) -> val q e' = 0).
Proof. exact: symbolic_flip. Qed.
Print Assumptions C99_symbolic.
Example C99_symbolic_ex :
  (forall p c e, rval (qplus p c) e = rval p e + c) /\ (forall p e, rval (qsquare p) e = rval p e ^+ 2) /\
  poly_of (get_symb_flipping_func middle qplus qsquare [::] [:: 0%N] (at_ 0 (X 0) RGe) [:: 5%:R]) =
  Some [:: ([:: 2%N], 1); ([:: 1%N], 2%:R); ([::], 1)].
Proof. exact: (conj qplusE (conj qsquareE ex99_symb)). Qed.

(** The sampled points: [k] of them, with the same variables, no coordinate
    further away than [epsilon]. *)
Theorem C99_ball :
  forall (R : realDomainType) (L : lib R) (O : oracle L) (w : addr) (d : asg R) (k : nat) (epsilon : R),
  uniform_ok O -> 0 <= epsilon ->
  size (k_sample_points_in_ball O w d k epsilon) = k /\
  forall d' : asg R, List.In d' (k_sample_points_in_ball O w d k epsilon) -> near epsilon d d'.
Proof. exact: ball_near. Qed.
Print Assumptions C99_ball.
Example C99_ball_ex : uniform_ok middle /\
  k_sample_points_in_ball middle [::] [:: (0%N, 5%:R); (1%N, 2%:R)] 2 (1 / 2%:R) =
  nseq 2 [:: (0%N, 9%:R / 2%:R); (1%N, 3%:R / 2%:R)].
Proof. exact: (conj middle_uniform ex99_ball). Qed.

(** The ball is one of the maximum norm: no bound holds on the Euclidean
    distance in terms of [epsilon] alone. *)
Theorem C99_euclid_refuted :
  exists (O : oracle qlib) (d d' : asg rat) (epsilon : rat),
  uniform_ok O /\ 0 <= epsilon /\ List.In d' (k_sample_points_in_ball O [::] d 1 epsilon) /\
  epsilon ^+ 2 < \sum_(p <- zip d d') (p.2.2 - p.1.2) ^+ 2.
Proof. exact: ball_euclid. Qed.
Print Assumptions C99_euclid_refuted.
