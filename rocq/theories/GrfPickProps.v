(** Property theorems about the choices made by GRF/grf.sage and
    GRF/local_search.py (C79-C85). *)
From mathcomp Require Import all_ssreflect all_algebra.
From mathcomp.real_closed Require Import polyrcf.
From Coq Require Import String.
From Verif Require Import Py GrfModel GrfCad GrfSpec GrfInst GrfEx GrfEx2 GrfPick GrfPickEx.

Set Implicit Arguments.
Unset Strict Implicit.
Unset Printing Implicit Defensive.
Import GRing.Theory Num.Theory Order.Theory.
Local Open Scope ring_scope.
Local Notation asg := (dict [eqType of var]).

(** ** C79: a step of the local search falsifies the chosen hypothesis *)

(** A hypothesis that is true at the point is chosen, if there is one. *)
Theorem C79_chosen :
  forall (R : realDomainType) (L : lib R) (O : oracle L) (w : addr) (order : seq var) (hs : seq (atom L))
    (x : seq R) (o : option (atom L)) (d : asg R),
  choose_atom_true O w order hs x = Ok o -> vect2dict order x = Ok d ->
  if o is Some a then List.In a hs /\ eval_atom a d = Ok (Some true)
  else forall a, List.In a hs -> eval_atom a d <> Ok (Some true).
Proof. exact: chosen_true. Qed.
Print Assumptions C79_chosen.

(** At an exact zero of the function given to the solver the polynomial has
    the opposite sign. *)
Theorem C79_opposite_sign :
  forall (R : realDomainType) (L : lib R) (O : oracle L) (K : realDomainType) (inj : {rmorphism R -> K})
    (val : P L -> (var -> K) -> K), lib_ok inj val ->
  forall (w : addr) (order : seq var) (a : atom L) (x : seq R) (d : asg R) (e e' : var -> K) (eps : R),
  flip_eps O w order a x = Ok eps -> vect2dict order x = Ok d ->
  all (fun v => dmem d v) (variables (apoly a)) -> agrees inj d e ->
  0 < inj (margin O) -> val (apoly a) e' + inj eps = 0 ->
  (val (apoly a) e != 0 -> Num.sg (val (apoly a) e') = - Num.sg (val (apoly a) e)) /\
  (val (apoly a) e = 0 -> val (apoly a) e' != 0).
Proof. exact: flip_sign. Qed.
Print Assumptions C79_opposite_sign.

(** So a true hypothesis becomes false, except for disequations, and weak
    inequalities at a zero. *)
Theorem C79_falsifies :
  forall (R : realDomainType) (L : lib R) (O : oracle L) (K : realDomainType) (inj : {rmorphism R -> K})
    (val : P L -> (var -> K) -> K), lib_ok inj val ->
  forall (w : addr) (order : seq var) (a : atom L) (x : seq R) (d : asg R) (e e' : var -> K) (eps : R),
  flip_eps O w order a x = Ok eps -> vect2dict order x = Ok d ->
  all (fun v => dmem d v) (variables (apoly a)) -> agrees inj d e ->
  0 < inj (margin O) -> val (apoly a) e' + inj eps = 0 ->
  (match aop a with RNe => false | RLe | RGe => val (apoly a) e != 0 | _ => true end) ->
  atom_true val a e -> ~~ atom_true val a e'.
Proof. exact: flip_falsifies. Qed.
Print Assumptions C79_falsifies.

Theorem C79_disequation :
  forall (R : realDomainType) (L : lib R) (O : oracle L) (K : realDomainType) (inj : {rmorphism R -> K})
    (val : P L -> (var -> K) -> K), lib_ok inj val ->
  forall (w : addr) (order : seq var) (a : atom L) (x : seq R) (d : asg R) (e e' : var -> K) (eps : R),
  flip_eps O w order a x = Ok eps -> vect2dict order x = Ok d ->
  all (fun v => dmem d v) (variables (apoly a)) -> agrees inj d e ->
  0 < inj (margin O) -> val (apoly a) e' + inj eps = 0 -> aop a = RNe -> atom_true val a e'.
Proof. exact: flip_neq. Qed.
Print Assumptions C79_disequation.

(** x0 >= 0 from 0, and x0 <> 0 from 1, with an exact solver. *)
Theorem C79_refuted :
  exists O : oracle qlib, [/\ 0 < margin O, exact_fsolve O [:: 0%N] &
  (exists2 a, aop a = RGe & keeps_true O a) /\ (exists2 a, aop a = RNe & keeps_true O a)].
Proof. exact: ex79_all. Qed.
Print Assumptions C79_refuted.

(** x0 < 0 is not chosen at 2, x0 > 0 is, and the zero of x0 + 1 falsifies it. *)
Example C79_example : (let! a := choose_atom_true xoracle [::] [:: 0%N] [:: at_ 0 (X 0) RLt; gt79] [:: 2%:R] in
  Ok (if a is Some a then Some (aid a) else None)) = Ok (Some 3%N) /\
  flip_eps xoracle [::] [:: 0%N] gt79 [:: 2%:R] = Ok 1.
Proof. exact: (conj ex79_chosen ex79_flip). Qed.
Example C79_library : forall K : rcfType, lib_ok (L := qlib) (ratr_rmorphism K) (@qval K).
Proof. exact: qlib_ok. Qed.

(** ** C80: weights *)

Theorem C80_weights :
  forall (R : realDomainType) (L : lib R) (s : decide L) (i : nat) (h : atom L), pyget (hyps s) i = Ok h ->
  (related (dgoal s) h ->
     nth 0%N (weight_hyps s) i =
     maxn (10 * (total_degree (apoly h) - 1) + 100 * (size (variables (apoly h)) - 1)) 1) /\
  (~ related (dgoal s) h -> nth 0%N (weight_hyps s) i = 10000%N).
Proof. exact: weightP. Qed.
Print Assumptions C80_weights.

Theorem C80_bias :
  forall (R : realDomainType) (L : lib R) (s : decide L) (i j : nat) (h h' : atom L),
  pyget (hyps s) i = Ok h -> pyget (hyps s) j = Ok h' -> related (dgoal s) h -> ~ related (dgoal s) h' ->
  (total_degree (apoly h) <= 100)%N -> (size (variables (apoly h)) <= 90)%N ->
  (nth 0 (weight_hyps s) i < nth 0 (weight_hyps s) j)%N.
Proof. exact: weight_bias. Qed.
Print Assumptions C80_bias.

(** Of x0^1002 > 0 and x1 > 0 the latter is suggested for the goal x0 > 1. *)
Theorem C80_refuted :
  exists (s : decide qlib) (i j : nat) h h' (bads : seq (seq nat)),
  [/\ pyget (hyps s) i = Ok h, pyget (hyps s) j = Ok h', related (dgoal s) h, ~ related (dgoal s) h' &
   [/\ forall b, b \in bads -> (i \notin b) && (j \notin b), bads <> [::] & good_hyps brute s bads = Ok [:: j]]].
Proof. exact: ex80_all. Qed.
Print Assumptions C80_refuted.

(** ** C81: the hypothesis that is promoted *)

Theorem C81_auto :
  forall (R : realDomainType) (L : lib R) (solve : nat -> seq constraint -> seq nat -> res (nat -> bool))
    (s : decide L) (bads : seq (seq nat)) (s' : decide L), auto solve s bads = Ok s' ->
  exists H i h, [/\ good_hyps solve s bads = Ok H, first_least s H i h,
    add_goal_hyp (dgoal s) h = Ok (dgoal s'), hyps s' = take i (hyps s) ++ drop i.+1 (hyps s) & vorder s' = vorder s].
Proof. exact: autoP_first. Qed.
Print Assumptions C81_auto.

Example C81_example : good_hyps brute s81 [:: [:: 1; 2]; [:: 0; 2]]%N = Ok [:: 0; 1]%N /\
  (let! s := auto brute s81 [:: [:: 1; 2]; [:: 0; 2]]%N in Ok (map (@aid _ _) (hyps s))) = Ok [:: 1; 3]%N.
Proof. exact: (conj ex81_good ex81). Qed.

(** ** C82: the interactive mode *)

(** What ends the dialogue, and everything before that is ignored. *)
Theorem C82_dialogue :
  forall (R : realDomainType) (L : lib R) (solve : nat -> seq constraint -> seq nat -> res (nat -> bool))
    (s : decide L) (bads : seq (seq nat)) (cs : seq command) (s' : decide L) (b : bool) (cs' : seq command),
  interact solve s bads cs = Ok (s', b, cs') ->
  exists pre c, [/\ cs = pre ++ c :: cs', all (skipped s) pre &
    (c = Go /\ b = false /\ auto solve s bads = Ok s') \/
    (exists i, [/\ c = Promote (Posz i), (i < size (hyps s))%N, b = true & promote_right s i = Ok s'])].
Proof. exact: interactP. Qed.
Print Assumptions C82_dialogue.

Theorem C82_ignored :
  forall (R : realDomainType) (L : lib R) (solve : nat -> seq constraint -> seq nat -> res (nat -> bool))
    (s : decide L) (bads : seq (seq nat)) (pre cs : seq command), all (skipped s) pre ->
  (exists H, good_hyps solve s bads = Ok H) -> interact solve s bads (pre ++ cs) = interact solve s bads cs.
Proof. exact: interact_prefix. Qed.
Print Assumptions C82_ignored.

(** After GO the rest of the input is not read. *)
Theorem C82_go :
  forall (R : realDomainType) (L : lib R) (solve : nat -> seq constraint -> seq nat -> res (nat -> bool))
    (O : oracle L)
    (sample : addr -> option (goal L) -> seq (P L) -> seq (atom L) -> res (seq (asg R) * seq (P L)))
    fuel partial k eps cs top s,
  check O solve sample fuel partial k eps (Some (Go :: cs)) top s =
  check O solve sample fuel partial k eps None top s.
Proof. exact: check_go. Qed.
Print Assumptions C82_go.

(** The sequent that C71 refutes for the automatic mode: by hand both
    hypotheses can be promoted. *)
Example C82_example :
  left_over (check qoracle brute (sample_pt_dicts qoracle 2 1) 5 true 1 1 (Some session82) [::] s71) = Some 0%N.
Proof. exact: ex82. Qed.

(** ** C83: the sample point of a variable without constraints *)

Theorem C83_default_point :
  forall (R : realDomainType) (L : lib R) (O : oracle L) (K : realDomainType) (inj : {rmorphism R -> K})
    (val : P L -> (var -> K) -> K) (w : addr) (num : nat) (ambient : seq (atom L)) (v : var),
  exists2 c, sector_sps O w [::] num ambient v = [:: c] &
  (forall h hs1 hs2, ambient = hs1 ++ h :: hs2 -> ~~ has (fun a : atom L => apoly a == gen L v) hs1 ->
     apoly h = gen L v -> aop h <> RNe ->
     forall e, val (gen L v) e = inj c -> atom_true val h e) /\
  (~~ has (fun a : atom L => apoly a == gen L v) ambient -> c = 0).
Proof. exact: default_sample. Qed.
Print Assumptions C83_default_point.

(** x0 <> 0 is sampled at 0. *)
Theorem C83_refuted :
  exists ambient : seq (atom qlib),
  (exists x : rat, all (fun h => if eval_atom h [:: (0%N, x)] is Ok (Some true) then true else false) ambient) /\
  forall O w num, exists2 c, sector_sps O w [::] num ambient 0%N = [:: c] &
    has (fun h => if eval_atom h [:: (0%N, c)] is Ok (Some false) then true else false) ambient.
Proof. exact: ex83_all. Qed.
Print Assumptions C83_refuted.

Example C83_example : forall w num,
  sector_sps qoracle w [::] num [:: at_ 0 (X 1) RGt; at_ 1 (X 0) RLt] 0%N = [:: -1].
Proof. exact: ex83. Qed.

(** ** C84: the projection *)

Theorem C84_projection :
  forall (R : realDomainType) (L : lib R) (x : var) (ps : seq (P L)) (q : P L),
  q \in bm_proj x ps <-> exists2 r, projection x ps r & ~~ is_constant r /\ q = pure_poly_base r.
Proof. exact: bm_projP. Qed.
Print Assumptions C84_projection.

(** 3 x0 x1^2 + 1 and x0 - x1 *)
Example C84_example : bm_proj (L := qlib) 1%N [:: [:: ([:: 1; 2]%N, 3%:R); ([::], 1)]; xmy] = [:: X 0].
Proof. exact: ex84. Qed.

(** ** C85: the order of the variables *)

(** A run never changes an order that is set, and sets none unless it
    promotes a hypothesis. *)
Theorem C85_order :
  forall (R : realDomainType) (L : lib R) (solve : nat -> seq constraint -> seq nat -> res (nat -> bool))
    (O : oracle L)
    (sample : addr -> option (goal L) -> seq (P L) -> seq (atom L) -> res (seq (asg R) * seq (P L)))
    fuel partial k eps cs top s r s',
  check O solve sample fuel partial k eps cs top s = Ok (r, s') ->
  [/\ vorder s <> [::] -> vorder s' = vorder s,
      (size (hyps s') <= size (hyps s))%N &
      size (hyps s') = size (hyps s) -> r = [::] /\ vorder s' = vorder s].
Proof. exact: check_order. Qed.
Print Assumptions C85_order.

(** x0 > 2, x0 < 3 |- x0^2 > 1 sets it. *)
Example C85_example : order_of (run 1 3 s67b) = Some [:: 0%N].
Proof. exact: ex85. Qed.
