(** Concrete runs of the procedure. *)
From mathcomp Require Import all_ssreflect all_algebra.
From mathcomp.zify Require Import zify.
From mathcomp.real_closed Require Import polyrcf.
From Coq Require Import String.
From Verif Require Import Py GrfModel GrfCad GrfSpec GrfFacts GrfCheck GrfLoop GrfRun GrfLine GrfCadFacts GrfInst GrfEx.

Set Implicit Arguments.
Unset Strict Implicit.
Unset Printing Implicit Defensive.
Import GRing.Theory Num.Theory Order.Theory.
Local Open Scope ring_scope.

Definition is_ok (T : Type) (r : res T) : bool := if r is Ok _ then true else false.
Lemma is_okP (T : Type) (r : res T) : is_ok r -> exists x, r = Ok x.
Proof. by case: r => // x; exists x. Qed.

(** *** C48: three hypotheses, [0,1] then [0]. *)
Definition s48 : decide qlib :=
  start (at_ 0 (X 0) RGt) [:: at_ 1 (X 0) RLe; at_ 2 (X 1) RGt; at_ 3 (X 1) REq].
Definition pts48 : seq (dict [eqType of var] rat) :=
  [:: [:: (0%N, -1); (1%N, 1)]; [:: (0%N, -1); (1%N, -1)]].
Lemma ex48 : foldM (bad_step s48) [::] pts48 = Ok [:: [:: 0; 1]; [:: 0]]%N.
Proof. by vm_compute. Qed.
(** The other order replaces the smaller set. *)
Lemma ex48_rev : foldM (bad_step s48) [::] (rev pts48) = Ok [:: [:: 0; 1]]%N.
Proof. by vm_compute. Qed.

(** *** C49 *)
Lemma ex49 : good_hyps brute s48 [:: [:: 0; 1]; [:: 0]]%N = Ok [:: 2%N].
Proof. by vm_compute. Qed.

(** *** Values *)
Definition lx (c : rat) : qpoly := [:: ([:: 1%N], 1); ([::], c)].
Lemma pval_lx (K : rcfType) c e : pval (lx c) e = e 0%N + ratr c :> K.
Proof. by rewrite /lx /= /tval [mval _ _ _]/= [mval _ _ _]/= rmorph1 !mul1r expr1 !mulr1 addr0. Qed.
Lemma atom_at (K : rcfType) i p op e : atom_true (@qval K) (at_ i p op) e = op_true op (pval p e).
Proof. by []. Qed.
Lemma sequent_start (K : rcfType) m hs e : sequent_true (@qval K) (start m hs) e =
  (all_true (@qval K) hs e ==> atom_true (@qval K) m e).
Proof. by []. Qed.
Lemma all_true_cons (K : rcfType) h hs e : all_true (@qval K) (h :: hs) e =
  atom_true (@qval K) h e && all_true (@qval K) hs e.
Proof. by []. Qed.
Lemma all_true_nil (K : rcfType) e : all_true (@qval K) [::] e. Proof. by []. Qed.

(** *** C51: x0 = 5 |- x0 > 0, and |- x0 > 0. *)
Definition s51 := start (at_ 0 (X 0) RGt) [:: at_ 1 (lx (-5%:R)) REq].
Lemma ex51 : run 1 3 s51 = Err IndexError.
Proof. by vm_cast_no_check (erefl (Err IndexError : res (seq (seq nat) * decide qlib))). Qed.
Lemma ex51_valid (K : rcfType) e : sequent_true (@qval K) s51 e.
Proof.
rewrite /s51 sequent_start all_true_cons !atom_at pval_lx pval_X; apply/implyP => /andP[/eqP E _].
rewrite /op_true; move/eqP: E; rewrite rmorphN rmorph_nat subr_eq0 => /eqP ->; by rewrite ltr0n.
Qed.
Definition s51b := start (at_ 0 (X 0) RGt) [::].
Lemma ex51b : run 1 3 s51b = Err IndexError.
Proof. by vm_cast_no_check (erefl (Err IndexError : res (seq (seq nat) * decide qlib))). Qed.

(** *** C56 *)
Definition d56 : dict [eqType of var] rat := [:: (0%N, 1); (1%N, 2%:R)].
Lemma ex56a : dict2vect [:: 2%N] d56 = Err KeyError. Proof. by vm_compute. Qed.
Lemma ex56b : dict2vect [:: 0%N] d56 = Ok [:: 1] /\ vect2dict [:: 0%N] [:: 1 : rat] = Ok [:: (0%N, 1)].
Proof. by vm_compute. Qed.
Lemma ex56c : dict2vect [:: 1; 0]%N d56 = Ok [:: 2%:R; 1]. Proof. by vm_compute. Qed.

(** *** C57: x0 > 0 from x0 = 0, with the hypothesis x0 < 5. *)
Definition h57 := at_ 1 (lx (-5%:R)) RLt.
Definition m57 := at_ 0 (X 0) RGt.
Definition d57 : dict [eqType of var] rat := [:: (0%N, 0)].
Definition n57 : dict [eqType of var] rat := [:: (0%N, 1 / 2%:R)].
Lemma ex57 : (let! r := local_search_sampling qoracle [::] [::] [:: h57] m57 d57 in
              Ok (r.1, head [::] (behead r.2))) = Ok ([:: 0%N], n57).
Proof. by vm_compute. Qed.
Lemma ex57_near : eval_atom m57 n57 = Ok (Some true) /\ eval_atom m57 d57 = Ok (Some false).
Proof. by vm_compute. Qed.

(** *** C67: |- x0^2 (x0^2 - 2) <= 0 *)
Definition s67 := start (at_ 0 mixed RLe) [::].
Lemma ex67 : is_ok (run 1 3 s67). Proof. by vm_compute. Qed.
Lemma mixedE : mixed = [:: ([:: 4%N], 1); ([:: 2%N], -2%:R)]. Proof. by vm_compute. Qed.
Lemma ex67_false (K : rcfType) : ~~ sequent_true (@qval K) s67 (fun _ => 2%:R).
Proof.
rewrite /s67 sequent_start atom_at mixedE /= /tval [mval _ _ _]/= [mval _ _ _]/=.
rewrite rmorph1 !mul1r !mulr1 addr0 rmorphN rmorph_nat mulNr subr_le0 -!natrX -natrM ler_nat.
by [].
Qed.

Definition x2m1 : qpoly := [:: ([:: 2%N], 1); ([::], -1)].
(** x0 > 2, x0 < 3 |- x0^2 > 1 *)
Definition s67b := start (at_ 0 (x2m1) RGt)
  [:: at_ 1 (lx (-2%:R)) RGt; at_ 2 (lx (-3%:R)) RLt ].
Lemma ex67b : is_ok (run 1 3 s67b). Proof. by vm_compute. Qed.
Definition class67 : seq qpoly :=
  [:: X 0; x2m1; lx (-2%:R); lx (-3%:R)].
Definition uclass67 : seq upoly :=
  [:: [:: (1%N, 1)]; [:: (2%N, 1); (0%N, -1)]; [:: (1%N, 1); (0%N, -2%:R)]; [:: (1%N, 1); (0%N, -3%:R)]].
Definition uone (r : res upoly) : upoly := if r is Ok u then u else [::].
Lemma ex67b_univ : [seq uone (quniv p) | p <- class67] = uclass67. Proof. by vm_compute. Qed.
Lemma ex67b_vars : all (fun p => all (pred1 0%N) (qvars p)) class67. Proof. by vm_compute. Qed.
Lemma ex67b_roots : all (fun u : upoly => uroots u != [::]) uclass67. Proof. by vm_compute. Qed.
Lemma ex67b_sq : uroots [:: (2%N, 1); (0%N, -1)] = [:: (-1, 1%N); (1, 1%N)]. Proof. by vm_compute. Qed.
Lemma ex67b_in : in_class (L := qlib) (mem class67) (dgoal s67b) (hyps s67b). Proof. by vm_compute. Qed.

Lemma class67_univ p u : p \in class67 -> quniv p = Ok u -> u \in uclass67.
Proof. by move=> pI Eu; rewrite -ex67b_univ; apply/mapP; exists p => //; rewrite Eu. Qed.

Lemma class67_rational (K : rcfType) u : u \in uclass67 -> rational_roots (L := qlib) ratr (uval K) u.
Proof.
have L1 (c : rat) (v : upoly) : v = [:: (1%N, 1); (0%N, c)] -> uroots v != [::] ->
    rational_roots (L := qlib) ratr (uval K) v.
  move=> -> ne; apply: (@lin_unmixed K 1 c) => //.
  by move=> z; rewrite uval_eval !big_cons big_nil /= expr1 expr0 mulr1 addr0.
rewrite !inE => /or4P[] /eqP ->.
- apply: (@lin_unmixed K 1 0); [by []|by vm_compute|].
  by move=> z; rewrite uval_eval !big_cons big_nil /= expr1 rmorph0.
- move=> z; rewrite /root uval_eval !big_cons big_nil [_.2]/= [_.1]/= [_.2]/= [_.1]/=.
  rewrite rmorph1 mul1r rmorphN rmorph1 expr0 mulr1 addr0 subr_eq0 sqrf_eq1 => /orP[] /eqP ->.
    exists 1, 1%N; split; last by rewrite rmorph1.
    by have : (1, 1%N) \in [:: (-1, 1%N); (1, 1%N) : rat * nat] by []; rewrite -ex67b_sq.
  exists (-1), 1%N; split; last by rewrite rmorphN rmorph1.
  by have : (-1, 1%N) \in [:: (-1, 1%N); (1, 1%N) : rat * nat] by []; rewrite -ex67b_sq.
- by apply: (L1 (-2%:R)) => //; vm_compute.
- by apply: (L1 (-3%:R)) => //; vm_compute.
Qed.

Lemma isolated_nil (K : rcfType) : isolated (L := qlib) ratr (uval K) [::].
Proof. by split=> [i m|i m z z'|z [u []]]. Qed.

Lemma class67_ok (K : rcfType) : rational_class (L := qlib) (uval K) ratr (mem class67).
Proof.
split.
- exact: mem_head.
- by move=> v; rewrite /= /qgen; case: v.
- by move=> p pI; exact: (allP ex67b_vars).
- by move=> p u pI _ Eu; apply: class67_rational; exact: (class67_univ pI).
move=> ps us A Eu; suff -> : no_rational us = [::] by exact: isolated_nil.
elim: ps us A Eu => [|p ps IH] us /=; first by move=> _ [<-].
case/andP=> pI A H; case: (bind_inv H) => u Ep {H} H; case: (bind_inv H) => us' Eus {H} [<-].
rewrite /no_rational /=; have := allP ex67b_roots u (class67_univ pI Ep).
by case: (uroots u) => // r l _; exact: IH.
Qed.

(** *** C68: the same with two variables *)
Lemma ex68 : is_ok (run 2 3 s67b). Proof. by vm_compute. Qed.
Lemma ex68_full :
  check qoracle brute (sample_pt_dicts qoracle 2 1) 3 false 1 1 None [::] s67b = Err AttributeError.
Proof. by vm_cast_no_check (erefl (Err AttributeError : res (seq (seq nat) * decide qlib))). Qed.

(** *** C71: x1 > 0, x0 >= x1 |- x0 > -1 needs both hypotheses *)
Definition s71 := start (at_ 0 (lx 1) RGt) [:: at_ 1 (X 1) RGt; at_ 2 xmy RGe].
Lemma ex71 : run 2 5 s71 = Err IndexError.
Proof. by vm_cast_no_check (erefl (Err IndexError : res (seq (seq nat) * decide qlib))). Qed.
Lemma ex71_valid (K : rcfType) e : sequent_true (@qval K) s71 e.
Proof.
rewrite /s71 sequent_start !all_true_cons !atom_at pval_lx pval_X pval_xmy; apply/implyP => /andP[p /andP[q _]].
rewrite /op_true rmorph1; apply: addr_gt0; last exact: ltr01.
by apply: (lt_le_trans p); rewrite -subr_ge0.
Qed.
