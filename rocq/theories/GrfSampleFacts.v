(** Specification and facts for the sampling functions of GrfSample.v. *)
From Coq Require Import String.
From mathcomp Require Import all_ssreflect all_algebra.
From mathcomp.zify Require Import zify.
From Verif Require Import Py GrfModel GrfSpec GrfFacts GrfCheck GrfLoop GrfPick GrfSample.

Set Implicit Arguments.
Unset Strict Implicit.
Unset Printing Implicit Defensive.
Import GRing.Theory Num.Theory Order.Theory.
Local Open Scope ring_scope.

(** A substituted polynomial without variables is a number. *)
Definition value_ok (R : realDomainType) (L : lib R) (value : P L -> res R) (val : P L -> (var -> R) -> R) : Prop :=
  forall p d e, all (fun v => dmem d v) (variables p) -> agrees id d e -> value (substitute p d) = Ok (val p e).

(** ** The soft zero *)
Section Spec.
Variables (R : realFieldType) (ex : R -> R).
(** The weight of a list of values, and the share of the first [i] of them. *)
Definition weight_of (F : seq R) : R := \sum_(f <- F) ex (- `|f|).
Definition share (F : seq R) (i : nat) : R := weight_of (take i F) / weight_of F.
Definition no_negative : Prop := forall x, 0 <= ex x.
End Spec.

Section Soft.
Variables (R : realFieldType) (ex : R -> R).
Implicit Types (F P : seq R) (r : R).

Lemma pysumE (l : seq R) : pysum l = \sum_(x <- l) x.
Proof.
have H a : foldl +%R a l = a + \sum_(x <- l) x; last by rewrite /pysum H add0r.
elim: l a => [|x l IH] a /=; first by rewrite big_nil addr0.
by rewrite IH big_cons addrA.
Qed.

Lemma pysum_weight F : pysum [seq ex (- `|f|) | f <- F] = weight_of ex F.
Proof. by rewrite pysumE big_map. Qed.

Lemma mapM_ok (T T' : Type) (g : T -> T') l : mapM (fun x => Ok (g x)) l = Ok (map g l).
Proof. by elim: l => //= x l ->. Qed.

Lemma soft_probsE F : weight_of ex F != 0 ->
  soft_probs ex F = Ok [seq ex (- `|f|) / weight_of ex F | f <- F].
Proof.
move=> Z0; rewrite /soft_probs pysum_weight (negbTE Z0) mapM_ok; by rewrite -map_comp.
Qed.

Lemma soft_zero F : F <> [::] -> weight_of ex F = 0 -> forall r,
  softzero_sample ex F r = Err (Exc "ZeroDivisionError").
Proof.
move=> ne Z0 r; rewrite /softzero_sample /soft_probs pysum_weight Z0 eqxx.
by case: F ne {Z0}.
Qed.

Lemma soft_nil r : softzero_sample ex [::] r = Ok 0%N. Proof. by []. Qed.

Lemma soft_loopP k r P : 0 < r ->
  match soft_loop k r P with
  | Some j => exists2 i, j = (k + i)%N &
      (i < size P)%N /\ \sum_(p <- take i P) p < r <= \sum_(p <- take i.+1 P) p
  | None => \sum_(p <- P) p < r
  end.
Proof.
elim: P k r => [|p P IH] k r r0 /=; first by rewrite big_nil.
case: ltP => pr.
  have := IH k.+1 (r - p); rewrite subr_gt0 => /(_ pr).
  case: (soft_loop _ _ _) => [j [i -> [si H]]|].
    exists i.+1; first by rewrite addnS.
    by split=> //=; move: H; rewrite !big_cons ltr_subr_addl ler_subl_addl.
  by rewrite big_cons ltr_subr_addl.
exists 0%N; first by rewrite addn0.
by rewrite /= take0 big_nil big_seq1 r0 pr.
Qed.

Lemma share_mono F i j : no_negative ex -> (i <= j)%N -> share ex F i <= share ex F j.
Proof.
move=> N ij; rewrite /share /weight_of ler_wpmul2r //.
  by rewrite invr_ge0; apply: sumr_ge0.
by rewrite -(subnKC ij) takeD big_cat /= ler_addl; apply: sumr_ge0.
Qed.

Lemma sum_share F i : \sum_(p <- take i [seq ex (- `|f|) / weight_of ex F | f <- F]) p = share ex F i.
Proof. by rewrite -map_take big_map /share /weight_of mulr_suml. Qed.

Theorem soft_interval F r i : no_negative ex -> 0 < weight_of ex F -> 0 < r <= 1 -> (i < size F)%N ->
  softzero_sample ex F r = Ok i <-> share ex F i < r <= share ex F i.+1.
Proof.
move=> N Z0 /andP[r0 r1] si; rewrite /softzero_sample soft_probsE ?gt_eqF //=.
have := soft_loopP 0 [seq ex (- `|f|) / weight_of ex F | f <- F] r0.
case: (soft_loop _ _ _) => [j [j' -> {j}]|]; last first.
  by rewrite big_map -mulr_suml -/(weight_of ex F) divff ?gt_eqF // ltNge r1.
rewrite add0n !sum_share => -[_ /andP[h1 h2]]; split=> [[<-]|/andP[g1 g2]]; first by rewrite h1.
congr Ok; case: (ltngtP j' i) => // [lt|gt].
  by have := lt_le_trans g1 (le_trans h2 (share_mono F N lt)); rewrite ltxx.
by have := lt_le_trans h1 (le_trans g2 (share_mono F N gt)); rewrite ltxx.
Qed.

(** The whole of (0, 1] is used. *)
Lemma share_ends F : weight_of ex F != 0 -> share ex F 0 = 0 /\ share ex F (size F) = 1.
Proof. by move=> Z; rewrite /share take0 take_size divff // /weight_of big_nil mul0r. Qed.

(** The index is one of the list whatever the random number is; when the loop
    ends it is the last one. *)
Lemma soft_loop_lt k r (Q : seq R) i : soft_loop k r Q = Some i -> (i < k + size Q)%N.
Proof.
elim: Q k r => //= p Q IH k r; case: ifP => [_ /IH|_ [<-]]; first by rewrite addSnnS.
by rewrite addnS ltnS leq_addr.
Qed.

Theorem soft_index F r i : softzero_sample ex F r = Ok i ->
  if F is [::] then i = 0%N else (i < size F)%N.
Proof.
rewrite /softzero_sample; case E: (soft_probs ex F) => [Q|//] /= [<-].
have sQ : size Q = size F.
  move: E; rewrite /soft_probs; set Z := pysum _; rewrite -(size_map (fun f => ex (- `|f|)) F).
  elim: [seq _ | _ <- F] Q => [|p l IH] Q /=; first by case=> <-.
  case El: (mapM _ l) => [q|e]; case: (Z == 0) => //= -[<-] /=; by rewrite (IH q El).
case El: (soft_loop _ _ _) => [j|]; last by case: (F) => //= a l; rewrite max0n.
have := soft_loop_lt El; rewrite add0n sQ; by case: (F).
Qed.

Theorem soft_beyond F r : no_negative ex -> 0 < weight_of ex F -> 1 < r -> softzero_sample ex F r = Ok (size F).-1.
Proof.
move=> N Z0 r1; rewrite /softzero_sample soft_probsE ?gt_eqF //=.
have := soft_loopP 0 [seq ex (- `|f|) / weight_of ex F | f <- F] (lt_trans ltr01 r1).
case: (soft_loop _ _ _) => [j [j' _]|]; last by rewrite max0n.
rewrite !sum_share => -[sj /andP[_ h]]; rewrite size_map in sj.
have := share_mono F N sj; rewrite (share_ends _).2 ?gt_eqF // => h2.
by have := lt_le_trans r1 (le_trans h h2); rewrite ltxx.
Qed.

Lemma soft_first F : no_negative ex -> 0 < weight_of ex F -> softzero_sample ex F 0 = Ok 0%N.
Proof.
move=> N Z0; rewrite /softzero_sample soft_probsE ?gt_eqF //=.
case: F Z0 => //= f F Z0; case: ltP => // h; suff : 0 <= ex (- `|f|) / weight_of ex (f :: F) by rewrite leNgt h.
by rewrite mulr_ge0 // invr_ge0 ltW.
Qed.

(** The length of the interval of [i]. *)
Lemma share_length F i f : (i < size F)%N ->
  share ex F i.+1 - share ex F i = ex (- `|nth f F i|) / weight_of ex F.
Proof.
move=> si; rewrite /share -mulrBl; congr (_ / _).
by rewrite /weight_of (take_nth f si) -cats1 big_cat /= big_seq1 addrC addKr.
Qed.

Theorem soft_bias F i j f : {homo ex : x y / x <= y} -> no_negative ex -> (i < size F)%N -> (j < size F)%N ->
  `|nth f F i| <= `|nth f F j| -> share ex F j.+1 - share ex F j <= share ex F i.+1 - share ex F i.
Proof.
move=> M N si sj h; rewrite !(share_length f) // ler_wpmul2r ?invr_ge0 //; first exact: sumr_ge0.
by apply: M; rewrite ler_opp2.
Qed.

Variable L : lib R.
Variable value : P L -> res R.
Variable val : P L -> (var -> R) -> R.

Theorem soft_chosen order (s : decide L) x r d e i a : value_ok value val -> no_negative ex ->
  let atoms := hyps s ++ goal_hyps (dgoal s) in
  let F := [seq val (apoly a) e | a <- atoms] in
  vect2dict order x = Ok d -> agrees id d e ->
  (forall b, List.In b atoms -> all (fun v => dmem d v) (variables (apoly b))) ->
  0 < weight_of ex F -> 0 < r <= 1 -> pyget atoms i = Ok a ->
  share ex F i < r <= share ex F i.+1 -> choose_atom_softzero ex value order s x r = Ok a.
Proof.
move=> V N atoms F Ed A C Z0 hr Ea hi; rewrite /choose_atom_softzero Ed /= -/atoms.
have -> : mapM (fun b : atom L => value (substitute (apoly b) d)) atoms = Ok F.
  rewrite /F; elim: atoms C {F Ea hi Z0} => //= b l IH C.
  by rewrite (V _ _ e) //= ?IH // => [c ic|]; apply: C; [right|left].
have si : (i < size F)%N.
  by rewrite size_map ltnNge; apply/negP => le; move: Ea; rewrite /pyget drop_oversize.
by rewrite /= ((soft_interval N Z0 hr si).2 hi).
Qed.

Theorem soft_no_atoms order (s : decide L) x r d : vect2dict order x = Ok d ->
  hyps s = [::] -> goal_hyps (dgoal s) = [::] -> choose_atom_softzero ex value order s x r = Err IndexError.
Proof. by rewrite /choose_atom_softzero => -> -> ->. Qed.
End Soft.

(** ** The functions for the solver *)
Section Solver.
Variables (R : realDomainType) (L : lib R) (O : oracle L).
Variables (value : P L -> res R) (val : P L -> (var -> R) -> R).
Hypothesis V : value_ok value val.

Lemma system_value order N p eps x v d e : system value order N p eps x = Ok v ->
  vect2dict order x = Ok d -> all (fun v => dmem d v) (variables p) -> agrees id d e ->
  v = (val p e + eps) :: nseq (N - 1) 0.
Proof. by rewrite /system /eval_poly => + Ed C A; rewrite Ed /= (V C A) /= => -[<-]. Qed.

Lemma system_size order N p eps x v : system value order N p eps x = Ok v -> size v = maxn 1 N.
Proof. rewrite /system; case: (eval_poly _ _ _ _) => //= u [<-]; rewrite /= size_nseq; lia. Qed.

Lemma falsify_undefined w order (a : atom L) x :
  get_num_falsifying_func O value None w order a x = Err (Exc "NameError").
Proof. by rewrite /get_num_falsifying_func; case: (aop a). Qed.

Theorem falsify_defined eps w order (a : atom L) x f x' v d e : 0 < eps ->
  get_num_falsifying_func O value (Some eps) w order a x = Ok f ->
  f x' = Ok v -> all (fun c => c == 0) v ->
  vect2dict order x' = Ok d -> all (fun v => dmem d v) (variables (apoly a)) -> agrees id d e ->
  match aop a with
  | RLt | RLe | RGt | RGe => atom_true val a e = false
  | REq => exists2 c, pychoice O w [:: -1; 0; 1] = Ok c & atom_true val a e = (c == 0 :> R)
  | RNe => exists2 c, pychoice O w [:: -1; 0; 1] = Ok c & atom_true val a e = (c != 0 :> R)
  end.
Proof.
move=> e0; rewrite /get_num_falsifying_func /atom_true /op_true => F Ef + Ed C A.
case: (aop a) F => F; case: (bind_inv F) => u Eu {F} [E]; rewrite -E in Ef;
  rewrite (system_value Ef Ed C A) /= addr_eq0 => /andP[/eqP -> _]; move: Eu => /=.
- by case=> <-; apply/negbTE; rewrite -leNgt oppr_le0 ltW.
- by case=> <-; apply/negbTE; rewrite opprK -leNgt ltW.
- by case=> <-; apply/negbTE; rewrite opprK -ltNge.
- by case=> <-; apply/negbTE; rewrite -ltNge oppr_lt0.
- move=> H; case: (bind_inv H) => c Ec [<-]; exists c => //.
  by rewrite oppr_eq0 mulf_eq0 gt_eqF.
- move=> H; case: (bind_inv H) => c Ec [<-]; exists c => //.
  by rewrite oppr_eq0 mulf_eq0 gt_eqF.
Qed.

Hypothesis LO : lib_ok id val.

Theorem flipping_system w order (a : atom L) x f x' v d e d' e' :
  get_num_flipping_func O value w order a x = Ok f -> 0 < margin O ->
  vect2dict order x = Ok d -> all (fun v => dmem d v) (variables (apoly a)) -> agrees id d e ->
  vect2dict order x' = Ok d' -> all (fun v => dmem d' v) (variables (apoly a)) -> agrees id d' e' ->
  f x' = Ok v -> size v = maxn 1 (size x) /\
  (all (fun c => c == 0) v ->
   (val (apoly a) e != 0 -> Num.sg (val (apoly a) e') = - Num.sg (val (apoly a) e)) /\
   (val (apoly a) e = 0 -> val (apoly a) e' != 0)).
Proof.
rewrite /get_num_flipping_func => F m0 Ed C A Ed' C' A'; case: (bind_inv F) => u Eu [<-] Ef; split.
  exact: system_size Ef.
rewrite (system_value Ef Ed' C' A') /= => /andP[/eqP E _].
exact: (@flip_sign R L O R [rmorphism of idfun] val LO w order a x d e e' u Eu Ed C A m0 E).
Qed.

Variables (plus : P L -> R -> P L) (square : P L -> P L).
Hypothesis plusE : forall p c e, val (plus p c) e = val p e + c.
Hypothesis squareE : forall p e, val (square p) e = val p e ^+ 2.

Theorem symbolic_flip w order (a : atom L) x q d e e' :
  get_symb_flipping_func O plus square w order a x = Ok q -> 0 < margin O ->
  vect2dict order x = Ok d -> all (fun v => dmem d v) (variables (apoly a)) -> agrees id d e ->
  0 <= val q e' /\
  (val q e' = 0 ->
   (val (apoly a) e != 0 -> Num.sg (val (apoly a) e') = - Num.sg (val (apoly a) e)) /\
   (val (apoly a) e = 0 -> val (apoly a) e' != 0)) /\
  (val (apoly a) e != 0 -> val (apoly a) e' = - (Num.sg (val (apoly a) e) * margin O) -> val q e' = 0).
Proof.
rewrite /get_symb_flipping_func => F m0 Ed C A; case: (bind_inv F) => u Eu [<-].
rewrite squareE plusE sqr_ge0; split=> //; split=> [/eqP|].
  rewrite sqrf_eq0 => /eqP E.
  exact: (@flip_sign R L O R [rmorphism of idfun] val LO w order a x d e e' u Eu Ed C A m0 E).
have := @flip_epsP R L O R [rmorphism of idfun] val LO w order a x d e u Eu Ed C A => /=.
by case: eqP => // _ -> _ ->; rewrite addNr expr0n.
Qed.
End Solver.

(** ** The ball *)
Section Ball.
Variables (R : realDomainType) (L : lib R) (O : oracle L).
Local Notation asg := (dict [eqType of var] R).
Definition uniform_ok : Prop := forall w l u, l <= u -> l <= uniform O w l u <= u.

(** Same keys, and values at a distance of at most [epsilon]. *)
Definition near (epsilon : R) (d d' : asg) : Prop :=
  map fst d' = map fst d /\
  forall v x, dget d v = Ok x -> exists2 x', dget d' v = Ok x' & `|x' - x| <= epsilon.

Lemma perturbe_near epsilon w i d : uniform_ok -> 0 <= epsilon -> near epsilon d (perturbe_dict O epsilon w i d).
Proof.
move=> U e0; elim: d i => [|[k y] d IH] i; first by split.
have [IH1 IH2] := IH i.+1; split=> [|v x /=]; first by rewrite /= IH1.
case: eqP => [_ [<-]|_ /IH2 //]; eexists; first by [].
rewrite addrC addKr ler_norml.
by apply: U; rewrite -subr_ge0 opprK addr_ge0.
Qed.

Theorem ball_near w d k epsilon : uniform_ok -> 0 <= epsilon ->
  size (k_sample_points_in_ball O w d k epsilon) = k /\
  forall d', List.In d' (k_sample_points_in_ball O w d k epsilon) -> near epsilon d d'.
Proof.
move=> U e0; rewrite size_map size_iota; split=> // d'; rewrite /k_sample_points_in_ball.
by elim: (iota 0 k) => //= i l IH [<-|/IH //]; exact: perturbe_near.
Qed.
End Ball.
