(** How an automatic run can end. *)
From mathcomp Require Import all_ssreflect all_algebra.
From mathcomp.zify Require Import zify.
From mathcomp.real_closed Require Import polyrcf.
From Coq Require Import String Permutation.
From Verif Require Import Py GrfModel GrfCad GrfSpec GrfFacts GrfCheck GrfLoop GrfRun GrfPick GrfLine GrfCadFacts
  GrfLin.

Set Implicit Arguments.
Unset Strict Implicit.
Unset Printing Implicit Defensive.
Import GRing.Theory Num.Theory Order.Theory.
Local Open Scope ring_scope.

(** ** Specification *)
Section OutSpec.
Variables (R : realDomainType) (L : lib R) (O : oracle L).
Local Notation asg := (dict [eqType of var] R).

(** The polynomial is in the first [n] variables. *)
Definition in_ring (n : nat) (p : P L) : bool := all (fun v => (v < n)%N) (variables p).

(** What else is assumed of Sage, random and fsolve. *)
Record total_ok : Prop := TotalOk {
  (* univariate_polynomial() of a polynomial in one variable *)
  tot_univariate : forall (p : P L) v, ~~ is_constant p -> all (pred1 v) (variables p) -> exists u, univariate p = Ok u;
  (* a polynomial in which every variable is replaced is a constant *)
  tot_subst : forall (p : P L) (d : asg), all (fun v => dmem d v) (variables p) -> is_constant (substitute p d);
  tot_reduce : forall n (p : P L) (B : seq (P L)), in_ring n p -> all (in_ring n) B -> in_ring n (reduce p B);
  tot_gb : forall n (l : seq (P L)), all (in_ring n) l -> all (in_ring n) (groebner_basis l);
  tot_choice : forall w m, (0 < m)%N -> (choice O w m < m)%N;
  (* fsolve returns a vector of the size of the start vector, if it returns *)
  tot_fsolve : forall w p eps x y, fsolve O w p eps x = Ok y -> size y = size x
}.
(** An exception of fsolve. *)
Definition fsolve_raises (x : exn) : Prop := exists w p eps v, fsolve O w p eps v = Err x.

(** The atom is in the ring and knows its variables. *)
Definition ring_atom (n : nat) (a : atom L) : bool := all (fun v => (v < n)%N) (avars a) && atom_wf a.
(** The polynomials of a state are in the ring. *)
Definition ring_state (n : nat) (s : decide L) : bool :=
  [&& all (ring_atom n) (hyps s), all (in_ring n) [seq apoly a | a <- main_goal (dgoal s) :: goal_hyps (dgoal s)]
    & all (in_ring n) (gb (dgoal s))].

(** An assignment of all variables that falsifies the goal, and at which every
    remaining hypothesis is True, or none. *)
Definition false_all (n : nat) (s : decide L) : Prop := exists d : asg, [/\ perm_eq (map fst d) (iota 0 n),
  eval_goal (dgoal s) d = Ok false & forall h, List.In h (hyps s) -> eval_atom h d = Ok (Some true)].
Definition false_none (n : nat) (s : decide L) : Prop := exists d : asg, [/\ perm_eq (map fst d) (iota 0 n),
  eval_goal (dgoal s) d = Ok false & forall h, List.In h (hyps s) -> eval_atom h d <> Ok (Some true)].

(** The exceptions of a run from [s]. *)
Definition run_error (n : nat) (s : decide L) (x : exn) : Prop :=
  [\/ x = counterexample /\ exists2 s', run_result s s' & false_all n s',
      x = IndexError /\ exists2 s', run_result s s' & false_none n s' |
      fsolve_raises x].
End OutSpec.

(** A computation raises only such exceptions. *)
Definition raises (E : exn -> Prop) (A : Type) (m : res A) : Prop := forall x, m = Err x -> E x.

Section Raises.
Variable E : exn -> Prop.
Lemma raises_ok (A : Type) (x : A) : raises E (Ok x). Proof. by []. Qed.
Lemma raises_bind (A B : Type) (m : res A) (k : A -> res B) :
  raises E m -> (forall x, m = Ok x -> raises E (k x)) -> raises E (let! x := m in k x).
Proof.
by move=> H Hk x; case Em : m => [a|e] /=; [exact: Hk|case=> <-; exact: H].
Qed.
Lemma raises_mapM (A B : Type) (f : A -> res B) (l : seq A) :
  (forall x, List.In x l -> raises E (f x)) -> raises E (mapM f l).
Proof.
elim: l => //= x l IH H; apply: raises_bind => [|y _]; first by apply: H; left.
by apply: raises_bind => [|ys _]; [apply: IH => z I; apply: H; right|exact: raises_ok].
Qed.
Lemma ok_raises (A : Type) (m : res A) : (exists x, m = Ok x) -> raises E m.
Proof. by case=> x ->. Qed.
Lemma raises_sub (E' : exn -> Prop) (A : Type) (m : res A) : raises E m -> (forall x, E x -> E' x) -> raises E' m.
Proof. by move=> H S x /H/S. Qed.
End Raises.

Section Out.
Variables (R : realDomainType) (L : lib R) (O : oracle L).
Local Notation poly := (P L).
Local Notation asg := (dict [eqType of var] R).
Implicit Types (p q : poly) (v : var) (d : asg) (a h : atom L) (s : decide L) (g : goal L).

(** ** Evaluation *)
Section Eval.
Variable d : asg.
Hypothesis d0 : d != [::].
Lemma eval_atom_ok a : exists b, eval_atom a d = Ok b.
Proof. by rewrite /eval_atom; case: ifP => _; [case: (d) d0 => // kv d' _|]; eexists. Qed.
Lemma some_hyp_false_ok (hs : seq (atom L)) : exists b, some_hyp_false hs d = Ok b.
Proof.
elim: hs => [|h hs [b IH]] /=; first by eexists.
by have [r ->] := eval_atom_ok h; rewrite bind_ok; case: r => [[]|]; eexists; eauto.
Qed.
Lemma eval_goal_ok g : exists b, eval_goal g d = Ok b.
Proof.
rewrite /eval_goal; have [r ->] := eval_atom_ok (main_goal g); rewrite bind_ok.
by case: r => [[]|]; [eexists|exact: some_hyp_false_ok|exact: some_hyp_false_ok].
Qed.
Lemma true_indices_ok i (hs : seq (atom L)) : exists l, true_indices i hs d = Ok l.
Proof.
elim: hs i => [|h hs IH] i /=; first by eexists.
by have [r ->] := eval_atom_ok h; have [l ->] := IH i.+1; rewrite !bind_ok; eexists.
Qed.
Lemma true_atoms_ok (hs : seq (atom L)) : exists l, true_atoms hs d = Ok l.
Proof.
elim: hs => [|h hs [l IH]] /=; first by eexists.
by have [r ->] := eval_atom_ok h; rewrite IH !bind_ok; eexists.
Qed.
End Eval.
Lemma good_on_goal_ok (m : atom L) (pts : seq asg) : (forall d, List.In d pts -> d != [::]) ->
  exists l, good_on_goal m pts = Ok l.
Proof.
elim: pts => [|d pts IH] H /=; first by eexists.
have [|r ->] := @eval_atom_ok d _ m; first by apply: H; left.
by have [|l ->] := IH; [move=> d' I; apply: H; right|rewrite !bind_ok; eexists].
Qed.

Lemma bad_step_raises n s bads d : (0 < n)%N -> perm_eq (map fst d) (iota 0 n) ->
  raises (fun x => x = counterexample /\ false_all n s) (bad_step s bads d).
Proof.
move=> n0 Pd; have d0 : d != [::] by case: (d) Pd => //= /perm_size /=; rewrite size_iota => E; rewrite -E in n0.
rewrite /bad_step; have [t Et] := eval_goal_ok d0 (dgoal s); rewrite Et bind_ok; case: t Et => // Et.
have [b Eb] := true_indices_ok d0 0 (hyps s); rewrite Eb bind_ok; case: eqP => [Sz|_]; last by case: ifP.
by move=> x [<-]; split=> //; exists d; split=> //; exact: (true_indices_all Eb Sz).
Qed.
Lemma bad_fold_raises n s bads (pts : seq asg) : (0 < n)%N ->
  (forall d, List.In d pts -> perm_eq (map fst d) (iota 0 n)) ->
  raises (fun x => x = counterexample /\ false_all n s) (foldM (bad_step s) bads pts).
Proof.
move=> n0; elim: pts bads => [|d pts IH] bads H //=; apply: raises_bind => [|b _].
  by apply: bad_step_raises => //; apply: H; left.
by apply: IH => d' I; apply: H; right.
Qed.

(** ** Local search *)
Hypothesis TO : total_ok O.

Lemma pychoice_ok (T : Type) w (l : seq T) : l <> [::] -> exists2 x, pychoice O w l = Ok x & List.In x l.
Proof.
case: l => // y l _; rewrite /pychoice; have [|x E] := @GrfLoop.pyget_nth T (y :: l) (choice O w (size (y :: l))).
  exact: (tot_choice TO).
by exists x => //; exact: pyget_In E.
Qed.

Lemma perm_nonnil n (o : seq var) : (0 < n)%N -> perm_eq o (iota 0 n) -> o <> [::].
Proof. by move=> n0 P E; have := perm_size P; rewrite E size_iota => E'; rewrite -E' in n0. Qed.
Lemma keys_nonnil n d : (0 < n)%N -> perm_eq (map fst d) (iota 0 n) -> d != [::].
Proof. by move=> n0 /(perm_nonnil n0) H; apply/eqP => E; apply: H; rewrite E. Qed.

Section Chain.
Variables (n : nat) (order : seq var) (hs : seq (atom L)).
Hypotheses (n0 : (0 < n)%N) (Po : perm_eq order (iota 0 n)) (Rh : all (ring_atom n) hs).

Lemma vect_ok (x : seq R) : size x = n -> exists2 d, vect2dict order x = Ok d & perm_eq (map fst d) (iota 0 n).
Proof.
move=> Sx; have So : size order = n by rewrite (perm_size Po) size_iota.
have [d Ed] : exists d, vect2dict order x = Ok d.
  rewrite /vect2dict; case E : order => [|v o]; first by case: (perm_nonnil n0 Po).
  by rewrite -E Sx So eqxx; eexists.
exists d => //; have Uo : uniq order by rewrite (perm_uniq Po) iota_uniq.
by have [_ -> _] := vect2dict_zip Uo Ed.
Qed.

Lemma ring_atom_in a : List.In a hs -> in_ring n (apoly a).
Proof.
move=> /(In_all Rh)/andP[/allP A /allP W]; apply/allP => v /W; exact: A.
Qed.

Local Notation chain_error := (fun x => x = IndexError /\ hs = [::] \/ fsolve_raises O x).
Lemma chain_step_raises w m x : size x = n -> raises chain_error (chain_step O w order hs m x) /\
  forall r, chain_step O w order hs m x = Ok r -> size r.1 = n.
Proof.
move=> Sx; have [d Ed Pd] := vect_ok Sx; have d0 := keys_nonnil n0 Pd; split; last first.
  move=> r H; case: (bind_inv H) => ta _ {H} H; case: (bind_inv H) => a _ {H} H; case: (bind_inv H) => e _ {H} H.
  case: (bind_inv H) => x' Ex {H} H; case: (bind_inv H) => pts _ {H} H; case: (bind_inv H) => kept _ [<-] /=.
  by rewrite (tot_fsolve TO Ex).
apply: raises_bind => [|ta Eta].
  rewrite /choose_atom_true Ed bind_ok; have [l ->] := true_atoms_ok d0 hs; rewrite bind_ok.
  by case: l => [//|b l]; have [|c -> _] := @pychoice_ok _ (0%N :: w) (b :: l) _; last exact: raises_ok.
have Ht := chosen_true Eta Ed; apply: raises_bind => [|a Ea].
  case: ta {Eta} Ht => [//|_]; case E : hs => [|h0 hs']; first by move=> y [<-]; left.
  by apply: ok_raises; have [|a Ea _] := @pychoice_ok _ (1%N :: w) (h0 :: hs') _; last by exists a.
have Ia : List.In a hs.
  by case: ta {Eta} Ht Ea => [b [Ib _] [<-] //|_ E]; apply: pyget_In; move: E; rewrite /choose_atom_random /pychoice; case: (hs) => // h0 hs'; exact: id.
apply: raises_bind => [|e _].
  rewrite /flip_eps Ed bind_ok; have c : is_constant (substitute (apoly a) d).
    apply: (tot_subst TO); apply/allP => v /(allP (ring_atom_in Ia)); rewrite /dmem (perm_mem Pd) mem_iota add0n.
    exact: id.
  case: (cmp0 _); rewrite ?c //.
  by have [|i -> _] := @pychoice_ok R (2%N :: w) [:: -1; 1] _; last exact: raises_ok.
apply: raises_bind => [y Ey|x' Ex]; first by right; do 4 eexists; exact: Ey.
have Sx' : size x' = n by rewrite (tot_fsolve TO Ex).
move: (iota 0 25) => il; set vs := x' :: _; have Sv (v : seq R) : List.In v vs -> size v = n.
  by case=> [<- //|I]; have [i _ ->] := In_map I; rewrite /perturb size_map size_iota.
apply: raises_bind => [|pts Ep].
  by apply: raises_mapM => v /Sv/vect_ok[d' -> _].
have [|l ->] := @good_on_goal_ok m pts; last exact: raises_ok.
move=> d' I; have [v Iv Ev] := GrfCheck.mapM_In Ep I; have [d2 Ed2 Pd2] := vect_ok (Sv v Iv).
by move: Ed2; rewrite Ev => -[->]; exact: (keys_nonnil n0).
Qed.

Lemma chain_raises w m k x : size x = n -> raises chain_error (chain O w order hs m k x).
Proof.
elim: k x => [|k IH] x Sx //=; have [H1 H2] := chain_step_raises (k :: w) m Sx.
by apply: raises_bind => // r /H2/IH H; apply: raises_bind.
Qed.
End Chain.

Definition order_ok n (o : seq var) : Prop := o = [::] \/ perm_eq o (iota 0 n).

Lemma search_raises n w order (hs : seq (atom L)) m d : (0 < n)%N -> order_ok n order ->
  perm_eq (map fst d) (iota 0 n) -> all (ring_atom n) hs ->
  raises (fun x => x = IndexError /\ hs = [::] \/ fsolve_raises O x) (local_search_sampling O w order hs m d).
Proof.
move=> n0 Ho Pd Rh; rewrite /local_search_sampling.
have Po : perm_eq (var_order order d) (iota 0 n).
  by case: Ho => [->//|]; rewrite /var_order; case: order => // /perm_size/esym/eqP; rewrite size_iota /= => /eqP E; rewrite E in n0.
apply: raises_bind => [|x Ex].
  apply: raises_mapM => v Iv; apply: ok_raises; apply: dget_in.
  rewrite (perm_mem Pd) -(perm_mem Po); elim: (var_order order d) Iv => //= u o IH [->|/IH]; rewrite inE ?eqxx // => ->.
  by rewrite orbT.
apply: raises_bind => //; apply: (@chain_raises n) => //.
by rewrite (mapM_size Ex) (perm_size Po) size_iota.
Qed.

(** ** The sample points *)
Lemma bad_subsets_raises n w s d k eps : (0 < n)%N -> order_ok n (vorder s) ->
  perm_eq (map fst d) (iota 0 n) -> all (ring_atom n) (hyps s) ->
  raises (run_error O n s) (bad_subsets_on_dict O w s d k eps) /\
  forall r, bad_subsets_on_dict O w s d k eps = Ok r -> order_ok n r.1 /\ (r.2 = Some [::] -> false_none n s).
Proof.
have refl : run_result s s.
  exists [::] => //; split=> //; exists (nseq (size (hyps s)) true); by rewrite mask_true.
move=> n0 Ho Pd Rh; have d0 := keys_nonnil n0 Pd; have [t Et] := eval_goal_ok d0 (dgoal s).
have Ud : uniq (map fst d) by rewrite (perm_uniq Pd) iota_uniq.
have Ho' : vorder s = [::] \/ perm_eq (vorder s) (map fst d).
  by case: Ho => [->|P1]; [left|right; rewrite (seq.perm_trans P1) // perm_sym].
rewrite /bad_subsets_on_dict Et bind_ok; case: t Et => Et; first by split=> // r [<-].
split.
  apply: raises_bind => [x /(search_raises n0 Ho Pd Rh)|[o pts] El] /=.
    case=> [[-> E0]|]; last by constructor 3.
    by constructor 2; split=> //; exists s => //; exists d; split=> // h; rewrite E0.
  have [_ Hk] := local_search_keys El Ud Ho'; apply: raises_bind => // x Ex.
  have [|-> F] := @bad_fold_raises n s [::] (d :: pts) n0 _ x Ex.
    by move=> d' [<- //|/Hk P1]; exact: seq.perm_trans P1 Pd.
  by constructor 1; split=> //; exists s.
move=> r H; case: (bind_inv H) => -[o pts] El {H} H; case: (bind_inv H) => bads Eb {H} [<-] /=.
have [Po _] := local_search_keys El Ud Ho'; split; first by right; exact: seq.perm_trans Po Pd.
case=> Eb0; exists d; split=> // h Ih Eh; have [_ _ I3] := bad_fold_inv Eb; rewrite Eb0 in I3.
have [b Ei] := true_indices_ok d0 0 (hyps s); have [_ Hb] := I3 d b (or_introl erefl) (conj Et Ei).
case: b Ei Hb => [|i b] Ei Hb; last by have [|b'] := Hb.
have [i Ei'] : exists i, pyget (hyps s) i = Ok h.
  elim: (hyps s) Ih => //= h0 hs IH [->|/IH[i Ei']]; first by exists 0%N.
  by exists i.+1.
by have : i \in [::] by apply/(true_indicesP Ei); exists h; rewrite ?subn0.
Qed.

Lemma all_bads_raises n w i s (ds : seq asg) k eps : (0 < n)%N -> order_ok n (vorder s) ->
  (forall d, List.In d ds -> perm_eq (map fst d) (iota 0 n)) -> all (ring_atom n) (hyps s) ->
  raises (run_error O n s) (all_bads O w i s ds k eps) /\
  forall r, all_bads O w i s ds k eps = Ok r -> order_ok n r.1 /\ (r.2 = Some [::] -> false_none n s).
Proof.
move=> n0; elim: ds i s => [|d ds IH] i s Ho Hd Rh /=; first by split=> // r [<-].
have [H1 H2] := @bad_subsets_raises n (i :: w) s d k eps n0 Ho (Hd d (or_introl erefl)) Rh.
have Hd' d' : List.In d' ds -> perm_eq (map fst d') (iota 0 n) by move=> I; apply: Hd; right.
have IH' r : order_ok n r -> _ := fun Hr => IH i.+1 (Decide (hyps s) (dgoal s) r) Hr Hd' Rh.
split.
  apply: raises_bind => // r /H2[Or _]; have [H3 _] := IH' _ Or.
  by apply: raises_bind => // x /H3.
move=> r H; case: (bind_inv H) => r1 /H2[Or N1] {H} H; case: (bind_inv H) => r2 /(proj2 (IH' _ Or))[Or2 N2] {H} [<-] /=.
split=> //; case: (r1.2) N1 => [b|] N1; case: (r2.2) N2 => [b'|] N2.
- by case=> E; apply: N1; case: b E.
- exact: N1.
- by move=> E; have [d' H'] := N2 E; exists d'.
- by [].
Qed.

(** ** Sampling *)
Section Sampling.
Variables (K : rcfType) (inj : R -> K) (val : poly -> (var -> K) -> K) (uval : U L -> {poly K}).
Hypotheses (LC : cad_ok val uval) (LN : lin_ok inj val uval).

Lemma proj_levels_ok (ord : seq var) i (ps : seq poly) : (i < size ord)%N -> exists sets, proj_levels ord i ps = Ok sets.
Proof.
elim: i ps => [|i IH] ps lt /=; first by eexists.
have [x ->] := GrfLoop.pyget_nth lt; rewrite bind_ok.
by have [sets ->] := IH (bm_proj x ps) (ltnW lt); rewrite bind_ok; eexists.
Qed.

Lemma iso_ok (ps : seq poly) v : (forall q, q \in ps -> ~~ is_constant q /\ all (pred1 v) (variables q)) ->
  exists ris, iso_root_intvls ps = Ok ris.
Proof.
move=> H; suff [us Eu] : exists us, mapM (@univariate R L) ps = Ok us.
  by rewrite /iso_root_intvls Eu bind_ok; eexists.
elim: ps H => [|p ps IH] H /=; first by eexists.
have [nc V] := H p (mem_head _ _); have [u ->] := tot_univariate TO nc V; rewrite bind_ok.
have [|us ->] := IH; last by rewrite bind_ok; eexists.
by move=> q qI; apply: H; rewrite inE qI orbT.
Qed.

Lemma in_ring_filter n (ps : seq poly) : all (in_ring n) ps -> all (in_ring n) (filter_proj_set ps).
Proof.
move=> /allP A; apply/allP => q qI; apply/allP => v /(filter_vars LC qI)[p /A/allP Vp vp]; exact: Vp.
Qed.

Lemma sample_ok n num w og (top : seq poly) ambient : (0 < n)%N -> all (in_ring n) top -> og <> None \/ n = 1%N ->
  exists ds, sample_pt_dicts O n num w og top ambient = Ok (ds, filter_proj_set top).
Proof.
move=> n0 At Og; rewrite /sample_pt_dicts; set ord := compute_proj_ord _ _.
have So : size ord = n by rewrite /ord ord_size.
have [sets Es] := @proj_levels_ok ord n.-1 (filter_proj_set top) ltac:(rewrite So; lia).
have Vt p : p \in top -> all (fun v => (v < n)%N) (variables p) by move=> /(allP At).
have Ss : size sets = n by have [-> _ _] := projP Es; rewrite prednK.
rewrite Es bind_ok (GrfLin.pyget_nth [::]) ?Ss // bind_ok.
have [q qI|ris Er] := @iso_ok (nth [::] sets 0) (nth 0%N ord 0).
  split.
    case: (ltnP 1 n) => [n1|le1].
      by move: qI; rewrite (set_next n0 Es) //; exact: filter_nonconst LN _ _.
    by move: qI; have -> : 0%N = n.-1 by [lia]; have [_ -> _] := projP Es; exact: filter_nonconst LN _ _.
  apply/allP => v /(set_vars LC LN n0 Es Vt n0 qI); rewrite -/ord (take_nth 0%N) ?So // take0 /= inE.
  exact: id.
rewrite Er bind_ok (GrfLin.pyget_nth 0%N) ?So // bind_ok; set cells := map _ _.
have Sc : all (fun c : seq R => size c == 1%N) cells by apply/allP => c /mapP[y _ ->].
suff [pts ->] : exists pts, lift_levels O (1%N :: w) n.-1 0 ord sets og num ambient cells = Ok pts.
  by rewrite bind_ok; eexists.
case: og Og => [g _|[//|n1]]; last by rewrite n1; eexists.
have stack w' l pt : (l.+1 < n)%N -> size pt = l.+1 ->
    exists out, stack_over_cell O w' ord sets l (Some g) num ambient pt = Ok out.
  move=> ln Sp; rewrite /stack_over_cell (GrfLin.pyget_nth [::]) ?Ss // bind_ok.
  have [|t ->] := @eval_goal_ok (sp_dict ord pt) _ g.
    by case: (pt) Sp => // y pt' _; case: (ord) So => //= E; rewrite -E in n0.
  rewrite bind_ok; case: t; first by eexists.
  have [q qI|ris' ->] := @iso_ok (filter_proj_set [seq substitute p (sp_dict ord pt) | p <- nth [::] sets l.+1])
    (nth 0%N ord l.+1).
    split; first exact: (filter_nonconst LN qI).
    apply/allP => v /(filter_vars LC qI)[p' /mapP[p pI ->]] /(lin_subst_vars LN)[vp].
    rewrite dict_mem ?Sp; last exact: ltnW.
    by have := set_vars LC LN n0 Es Vt ln pI vp; rewrite next_mem // => /predU1P[->|->//] _ /=.
  by rewrite bind_ok (GrfLin.pyget_nth 0%N) ?So // bind_ok; eexists.
have lcells w' i l cs : (l.+1 < n)%N -> all (fun c : seq R => size c == l.+1) cs ->
    exists out, lift_cells O w' i ord sets l (Some g) num ambient cs = Ok out.
  move=> ln; elim: cs i => [|c cs IH] i /=; first by eexists.
  move=> /andP[/eqP Sc1 /IH H]; have [st ->] := stack (i :: w') l c ln Sc1; rewrite bind_ok.
  by have [sts ->] := H i.+1; rewrite bind_ok; eexists.
have llev k l cs : (l + k < n)%N -> all (fun c : seq R => size c == l.+1) cs ->
    exists out, lift_levels O (1%N :: w) k l ord sets (Some g) num ambient cs = Ok out.
  elim: k l cs => [|k IH] l cs lk Scs /=; first by eexists.
  have [|out Eo] := lcells (l :: 1%N :: w) 0%N l cs _ Scs; first by lia.
  rewrite Eo bind_ok; apply: IH; first by lia.
  by rewrite (perm_all _ (permEl (perm_sort _ _))) (lift_cells_size Eo Scs).
by apply: llev => //; lia.
Qed.

(** ** The run *)
Lemma promotes_ring n s s' : promotes s s' -> ring_state n s -> ring_state n s'.
Proof.
case=> h [Eg P _]; rewrite /ring_state -(all_C_perm _ P) /=.
move=> /and3P[/andP[Rh Rs] /andP[Rm Rg] Rb]; rewrite Rs /=.
have Vh : in_ring n (apoly h).
  by case/andP: Rh => /allP A /allP W; apply/allP => v /W; exact: A.
have injR B a a' : inject B a = Ok a' -> all (in_ring n) B -> in_ring n (apoly a) -> in_ring n (apoly a').
  by case: B => // b B [<-] AB /= Va; apply: (tot_reduce TO).
move: Eg; rewrite /add_goal_hyp => H; case: (bind_inv H) => -[hs B] EB {H} H; case: (bind_inv H) => gh' Eh {H} [<-] /=.
rewrite Rm map_cat all_cat /= andbT.
have -> : in_ring n (apoly gh').
  by case: (gb (dgoal s)) Eh Rb => [[<-] //|b B'] Eh Rb; apply: injR Eh Rb Vh.
rewrite andbT; move: EB; case: (aop h); try by case=> <- <-; rewrite Rg Rb.
move=> H; case: (bind_inv H) => hs' Em {H} [<- <-].
rewrite (tot_gb TO) ?all_cat ?Rb /= ?Vh // andbT.
have AB : all (in_ring n) (groebner_basis [:: apoly h]) by apply: (tot_gb TO); rewrite /= Vh.
elim: (goal_hyps (dgoal s)) hs' Em Rg => [|a l IH] hs' /=; first by case=> <-.
move=> H; case: (bind_inv H) => a' Ea {H} H; case: (bind_inv H) => l' El {H} [<-] /andP[Va Vl] /=.
by rewrite (injR _ _ _ Ea AB Va) (IH _ El Vl).
Qed.

Lemma run_error_promotes n s s' x : promotes s s' -> run_error O n s' x -> run_error O n s x.
Proof.
move=> P [[-> [s2 R2 F]]|[-> [s2 R2 F]]|F]; last by constructor 3.
  by constructor 1; split=> //; exists s2 => //; exact: promotes_run R2.
by constructor 2; split=> //; exists s2 => //; exact: promotes_run R2.
Qed.

Variable solve : nat -> seq constraint -> seq nat -> res (nat -> bool).
Hypothesis exact : exact_solver solve.
Hypothesis LB : lib_ok inj val.

Lemma check_raises n num fuel (partial : bool) k eps (top : seq poly) s : (0 < n)%N -> partial \/ n = 1%N ->
  (size (hyps s) < fuel)%N -> all (in_ring n) top -> ring_state n s -> order_ok n (vorder s) ->
  raises (run_error O n s) (check O solve (sample_pt_dicts O n num) fuel partial k eps None top s).
Proof.
move=> n0 Pa; elim: fuel top s => [//|fuel IH] top s Fu At Rs Ho /=; set top' := top ++ _.
have Rh : all (ring_atom n) (hyps s) by case/and3P: Rs.
have At' : all (in_ring n) top' by case/and3P: Rs => _ /= Rg _; rewrite all_cat At.
have [|ds Es] := @sample_ok n num [:: fuel.+1; 0%N] (if partial then Some (dgoal s) else None) top' (hyps s) n0 At'.
  by case: Pa => [->|->]; [left|right].
rewrite Es bind_ok; have Hd := sample_keys Es.
have [H1 H2] := @all_bads_raises n [:: fuel.+1; 1%N] 0 s ds k eps n0 Ho Hd Rh.
apply: raises_bind => // -[o ob] Eb; have /= [Oo Nn] := H2 _ Eb; case: ob Eb Nn => [bads|//] Eb Nn.
have same s2 : promotes (Decide (hyps s) (dgoal s) o) s2 -> promotes s s2.
  by case=> h [P1 P2 P3]; exists h.
have refl : run_result s s.
  by exists [::] => //; split=> //; exists (nseq (size (hyps s)) true); rewrite mask_true.
apply: raises_bind => [x|s2 Ea].
  case: (eqVneq bads [::]) => [E0|nb].
    by rewrite /= E0 auto_none // => -[<-]; constructor 2; split=> //; exists s => //; apply: Nn; rewrite /= E0.
  have [|s2 ->] := @auto_ok R L solve exact K inj val LB (Decide (hyps s) (dgoal s) o) bads nb => //.
  exact: (all_bads_some Eb).
have P2 := same _ (autoP Ea); apply: raises_bind => // x Ex; apply: (run_error_promotes P2); apply: IH Ex.
- by have := promotes_size P2; lia.
- exact: in_ring_filter.
- exact: promotes_ring P2 Rs.
- by have [i /promote_vorder ->] := auto_promote Ea.
Qed.

(** ** What it means, without equations *)

Lemma run_plain s s' : run_result s s' -> goal_hyps (dgoal s) = [::] -> gb (dgoal s) = [::] ->
  all (fun h => ~~ is_eqn h) (hyps s) ->
  main_goal (dgoal s') = main_goal (dgoal s) /\ Permutation (goal_hyps (dgoal s') ++ hyps s') (hyps s).
Proof.
case=> ps Ef [P _] G0 B0; rewrite -(all_C_perm _ P) all_cat => /andP[ne _].
have [|E1 _] := promote_no_eqn Ef _ B0.
  by apply/eqP; rewrite -leqn0 leqNgt -has_count -all_predC.
rewrite E1 G0 /=; split=> //; case: (dgoal s) G0 B0 Ef {ne E1} => m gh b /= -> -> Ef.
by have [E _] := promote_implied LB (fun=> 0) Ef.
Qed.

Lemma check_verdict n num fuel (partial : bool) k eps s x : (0 < n)%N -> partial \/ n = 1%N -> (size (hyps s) < fuel)%N ->
  goal_hyps (dgoal s) = [::] -> gb (dgoal s) = [::] -> vorder s = [::] ->
  all (ring_atom n) (main_goal (dgoal s) :: hyps s) -> all (fun h => ~~ is_eqn h) (hyps s) ->
  check O solve (sample_pt_dicts O n num) fuel partial k eps None [::] s = Err x ->
  [\/ x = counterexample /\ exists e, ~~ sequent_true val s e,
      x = IndexError /\ exists e, ~~ atom_true val (main_goal (dgoal s)) e | fsolve_raises O x].
Proof.
move=> n0 Pa Fu G0 B0 V0 /= /andP[Rm Rh] ne Ec.
have Rs : ring_state n s.
  rewrite /ring_state Rh G0 B0 /= !andbT; case/andP: Rm => /allP A /allP W; apply/allP => v /W; exact: A.
have sem s' d e : run_result s s' -> perm_eq (map fst d) (iota 0 n) -> agrees inj d e ->
    eval_goal (dgoal s') d = Ok (goal_true val (dgoal s') e) /\
    forall h, List.In h (hyps s') -> eval_atom h d = Ok (Some (atom_true val h e)).
  move=> Rr Pd A; have d0 := keys_nonnil n0 Pd; have [Em P] := run_plain Rr G0 B0 ne.
  have Dm v : (v < n)%N -> dmem d v by move=> lt; rewrite /dmem (perm_mem Pd) mem_iota.
  have := Rh; rewrite -(all_C_perm _ P) all_cat => /andP[Rg' Rh'].
  have As h : ring_atom n h -> all (fun v => dmem d v) (avars h).
    by case/andP=> /allP A1 _; apply/allP => v /A1/Dm.
  split; last first.
    move=> h /(In_all Rh') Rah; apply: (eval_atom_total LB) => //; first exact: As.
    by case/andP: Rah.
  apply: (eval_goal_total LB) => //.
    by rewrite /= Em As //=; apply: sub_all Rg' => h; exact: As.
  by rewrite /goal_wf /= Em; case/andP: Rm => _ ->; apply: sub_all Rg' => h /andP[].
case: (check_raises n0 Pa Fu _ Rs (or_introl V0) Ec) => // [[-> [s' Rr [d [Pd Ed Eh]]]]|[-> [s' Rr [d [Pd Ed Eh]]]]|F].
- constructor 1; split=> //; have [e A] := agrees_exists inj d; exists e.
  have [Eg Ehs] := sem _ _ _ Rr Pd A; have [Em P] := run_plain Rr G0 B0 ne.
  move: Eg; rewrite Ed => -[/esym/negbT]; rewrite /goal_true negb_imply => /andP[Tg Fm].
  rewrite /sequent_true /goal_true G0 /= -Em negb_imply Fm andbT -(all_true_perm val e P) /all_true all_cat -/(all_true val _ e).
  rewrite Tg /=; apply: all_In => h Ih; by have := Ehs h Ih; rewrite (Eh h Ih) => -[<-].
- constructor 2; split=> //; have [e A] := agrees_exists inj d.
  have [Eg Ehs] := sem _ _ _ Rr Pd A; have [Em P] := run_plain Rr G0 B0 ne.
  by exists e; move: Eg; rewrite Ed -Em => -[/esym/negbT]; rewrite /goal_true negb_imply => /andP[].
- by constructor 3.
Qed.

(** ** Sequents without equations, of polynomials with solvable projections *)
Hypothesis LL : line_ok O inj uval.
Variables (n : nat) (C : pred poly).
Hypothesis SC : solvable_class inj uval C n.

(** The outcomes of a run. *)
Definition sound_outcome s (A : Type) (o : res A) : Prop :=
  match o with
  | Ok _ => forall e, sequent_true val s e
  | Err x => [\/ x = counterexample /\ exists e, ~~ sequent_true val s e,
                 x = IndexError /\ exists e, ~~ atom_true val (main_goal (dgoal s)) e | fsolve_raises O x]
  end.

Lemma check_class_outcome num fuel (partial : bool) k eps s : (0 < n)%N -> (0 < num)%N -> partial \/ n = 1%N ->
  (size (hyps s) < fuel)%N -> goal_hyps (dgoal s) = [::] -> vorder s = [::] ->
  all (ring_atom n) (main_goal (dgoal s) :: hyps s) -> in_lin C s ->
  sound_outcome s (check O solve (sample_pt_dicts O n num) fuel partial k eps None [::] s).
Proof.
move=> n0 m0 Pa Fu G0 V0 Rs Ln; case E : (check _ _ _ _ _ _ _ _ _ _) => [[r s']|x] /=.
  exact: (check_lin_valid LB LC LL LN SC m0 G0 E Ln).
have [B0 ne] : gb (dgoal s) = [::] /\ all (fun h => ~~ is_eqn h) (hyps s) by case/and3P: Ln => _ /eqP.
exact: (check_verdict n0 Pa Fu G0 B0 V0 Rs ne E).
Qed.

(** A goal that is true everywhere is accepted. *)
Lemma check_class_goal num fuel (partial : bool) k eps s : (0 < n)%N -> (0 < num)%N -> partial \/ n = 1%N ->
  (size (hyps s) < fuel)%N -> goal_hyps (dgoal s) = [::] -> vorder s = [::] ->
  all (ring_atom n) (main_goal (dgoal s) :: hyps s) -> in_lin C s ->
  (forall x, ~ fsolve_raises O x) -> (forall e, atom_true val (main_goal (dgoal s)) e) ->
  exists r, check O solve (sample_pt_dicts O n num) fuel partial k eps None [::] s = Ok r.
Proof.
move=> n0 m0 Pa Fu G0 V0 Rs Ln Nf V; have := @check_class_outcome num fuel partial k eps s n0 m0 Pa Fu G0 V0 Rs Ln.
case: (check _ _ _ _ _ _ _ _ _ _) => [r|x] /= H; first by exists r.
case: H => [[_ [e /negP[]]]|[_ [e /negP[]]]|/Nf[]]; last exact: V.
by rewrite /sequent_true /goal_true V !implybT.
Qed.

(** A sequent that is accepted has a hypothesis it does not need. *)
Lemma check_class_spare num fuel (partial : bool) k eps s r : (0 < num)%N -> goal_hyps (dgoal s) = [::] ->
  in_lin C s -> hyps s <> [::] ->
  check O solve (sample_pt_dicts O n num) fuel partial k eps None [::] s = Ok r ->
  exists h rest, Permutation (h :: rest) (hyps s) /\
    forall e, all_true val rest e ==> atom_true val (main_goal (dgoal s)) e.
Proof.
case: r => r s' m0 G0 Ln Nh Ec; have [Rr _] := check_result Ec.
have [B0 ne] : gb (dgoal s) = [::] /\ all (fun h => ~~ is_eqn h) (hyps s) by case/and3P: Ln => _ /eqP.
have [Em P] := run_plain Rr G0 B0 ne; have Nh' := check_last exact Ec Nh.
have V := check_lin_sound LB LC LL LN SC m0 Ec isT Ln.
case Eh : (hyps s') P Nh' => [//|h l] P _; exists h, (goal_hyps (dgoal s') ++ l); split.
  by apply: Permutation_trans P; exact: Permutation_middle.
move=> e; apply/implyP; rewrite /all_true all_cat => /andP[T _].
by have := V e; rewrite /goal_true Em => /implyP; apply.
Qed.

(** A valid sequent that needs all its hypotheses is never accepted. *)
Definition needs_all s : Prop := forall h rest, Permutation (h :: rest) (hyps s) ->
  exists e, all_true val rest e && ~~ atom_true val (main_goal (dgoal s)) e.
Lemma check_class_needs_all num fuel (partial : bool) k eps s : (0 < n)%N -> (0 < num)%N -> partial \/ n = 1%N ->
  (size (hyps s) < fuel)%N -> goal_hyps (dgoal s) = [::] -> vorder s = [::] ->
  all (ring_atom n) (main_goal (dgoal s) :: hyps s) -> in_lin C s ->
  hyps s <> [::] -> needs_all s -> (forall e, sequent_true val s e) ->
  exists2 x, check O solve (sample_pt_dicts O n num) fuel partial k eps None [::] s = Err x &
    x = IndexError \/ fsolve_raises O x.
Proof.
move=> n0 m0 Pa Fu G0 V0 Rs Ln Nh Na V; have := @check_class_outcome num fuel partial k eps s n0 m0 Pa Fu G0 V0 Rs Ln.
case E : (check _ _ _ _ _ _ _ _ _ _) => [r|x] /=.
  have [h [rest [/Na[e /andP[T F]] /(_ e)]]] := check_class_spare m0 G0 Ln Nh E.
  by rewrite T (negbTE F).
by case=> [[_ [e /negP[]]]|[-> _]|F] //; [exists IndexError => //; left|exists x => //; right].
Qed.
End Sampling.
End Out.
