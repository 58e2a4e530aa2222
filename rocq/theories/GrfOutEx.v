(** Runs that end in each of the ways. *)
From mathcomp Require Import all_ssreflect all_algebra.
From mathcomp.zify Require Import zify.
From mathcomp.real_closed Require Import polyrcf.
From Coq Require Import String Permutation.
From Verif Require Import Py GrfModel GrfCad GrfSpec GrfFacts GrfCheck GrfLoop GrfRun GrfLine GrfCadFacts GrfInst
  GrfEx GrfEx2 GrfLin GrfLinInst GrfLinEx GrfOut.

Set Implicit Arguments.
Unset Strict Implicit.
Unset Printing Implicit Defensive.
Import GRing.Theory Num.Theory Order.Theory.
Local Open Scope ring_scope.

(** ** The example library never raises *)
Definition tin (n : nat) (t : term) : Prop := forall v, (n <= v)%N -> nth 0%N t.1 v = 0%N.
Definition tsin (n : nat) (l : seq term) : Prop := forall t, t \in l -> tin n t.

Lemma in_ringP n (p : npoly) : reflect (tsin n (nterms p)) (in_ring (L := nlib) n p).
Proof.
apply: (iffP allP) => [H t tI v le|H v].
  case E : (nth 0%N t.1 v) => [//|k]; suff : (v < n)%N by rewrite ltnNge le.
  apply: H; rewrite mem_undup; apply/flatten_mapP; exists t => //; by rewrite mvars0 E.
move=> /mem_qvars[t tI]; rewrite mvars0; case: (ltnP v n) => // le.
by rewrite (H t tI v le).
Qed.
Lemma nth_madd m m' i : nth 0%N (madd m m') i = (nth 0%N m i + nth 0%N m' i)%N.
Proof.
elim: m m' i => [|a m IH] [|b m'] [|i] //=; rewrite ?nth_nil ?addn0 //; exact: IH.
Qed.
Lemma nth_mdiv m m' r i : mdiv m m' = Some r -> (nth 0%N r i <= nth 0%N m i)%N.
Proof.
elim: m' m r i => [|b m' IH] m r i; first by case: m => [|a m] [<-].
case: m => [|a m] /=; first by case: b => // E; exact: IH E.
case: ifP => // _; case E : (mdiv m m') => [r'|//] [<-].
case: i => [|i] /=; [exact: leq_subr|exact: IH E].
Qed.
Lemma padd1_monos t (p : seq term) u : u \in padd1 t p -> u.1 = t.1 \/ exists2 u', u' \in p & u.1 = u'.1.
Proof.
elim: p => [|t' p IH] /=; first by case: ifP => // _; rewrite mem_seq1 => /eqP ->; left.
case: eqP => [E|_].
  case: ifP => _; first by move=> uI; right; exists u; rewrite // inE uI orbT.
  by rewrite inE => /predU1P[->|uI]; [left|right; exists u; rewrite // inE uI orbT].
case: ifP => _.
  case: ifP => _ uI; first by right; exists u.
  by move: uI; rewrite inE => /predU1P[->|uI]; [left|right; exists u].
rewrite inE => /predU1P[->|/IH[->|[u' I E]]]; [right|left|right] => //.
  by exists t'; rewrite ?mem_head.
by exists u'; rewrite ?inE ?I ?orbT.
Qed.
Lemma norm_monos (l : seq term) u : u \in norm l -> exists2 u', u' \in l & u.1 = u'.1.
Proof.
elim: l u => //= t l IH u /padd1_monos[E|[u' /IH[u2 I E'] E]]; first by exists t; rewrite ?mem_head.
by exists u2; rewrite ?inE ?I ?orbT // E.
Qed.
Lemma red_by_in n p t B p' : tsin n p -> tin n t -> (forall b, b \in B -> tsin n b) -> red_by p t B = Some p' -> tsin n p'.
Proof.
move=> Hp Ht; elim: B => //= b B IH HB.
have HB' b' : b' \in B -> tsin n b' by move=> I; apply: HB; rewrite inE I orbT.
case: b HB => [|l b] HB; first exact: IH.
case E : (mdiv _ _) => [m|]; last exact: IH.
case=> <- u /norm_monos[u']; rewrite mem_cat => /orP[/mapP[u2 I ->] Eu v le|I Eu v le]; rewrite Eu; last exact: Hp.
rewrite nth_madd (HB _ (mem_head _ _) u2 I v le) addn0.
by have := nth_mdiv v E; rewrite (Ht v le) leqn0 => /eqP.
Qed.
Lemma red_step_in n p ts B p' : tsin n p -> tsin n ts -> (forall b, b \in B -> tsin n b) ->
  red_step p ts B = Some p' -> tsin n p'.
Proof.
move=> Hp; elim: ts => //= t ts IH Ht HB.
case E : (red_by _ _ _) => [q|]; last by apply: IH => // u I; apply: Ht; rewrite inE I orbT.
case=> <-; apply: red_by_in E => //; apply: Ht; exact: mem_head.
Qed.
Lemma reduce_n_in n k p B : tsin n p -> (forall b, b \in B -> tsin n b) -> tsin n (reduce_n k p B).
Proof.
move=> + HB; elim: k p => //= k IH p Hp; case E : (red_step _ _ _) => [p'|//].
by apply: IH; exact: red_step_in E.
Qed.

Lemma ntotal_ok : total_ok noracle.
Proof.
split=> //.
- move=> p v _ V; rewrite -[univariate p]/(nuniv p) /nuniv /quniv.
  have : all (pred1 v) (qvars (nterms p)) by exact: V.
  have : uniq (qvars (nterms p)) by exact: undup_uniq.
  case: (qvars (nterms p)) => [|x [|y l]] /=; [by eexists|by eexists|].
  by rewrite inE => /andP[/norP[ne _] _] /and3P[/eqP Ex /eqP Ey _]; rewrite Ex Ey eqxx in ne.
- move=> p d V; change (qconst (nterms (nsubst p d))); rewrite /nsubst.
  have {}V : all (fun v => dmem d v) (qvars (nterms p)) by exact: V.
  have M t : t \in nnorm [seq tsub d t | t <- nterms p] -> t.1 = [::].
    move=> /nnorm_monos[t' /mapP[t0 t0I ->] ->]; rewrite /tsub.
    have := @msub_all t0.1 d 0; case: (msub _ _ _) => c r /= -> //.
    by apply/allP => v vt; apply: (allP V); exact: in_qvars vt.
  change (qconst (nnorm [seq tsub d t | t <- nterms p])).
  have := nnorm_normal [seq tsub d t | t <- nterms p].
  case E : (nnorm _) M => [|[m c] [|[m' c'] l]] M /andP[u a] //.
    by have /= -> := M (m, c) (mem_head _ _).
  have Em : m = [::] by apply: (M (m, c)); rewrite mem_head.
  have Em' : m' = [::] by apply: (M (m', c')); rewrite !inE eqxx orbT.
  by rewrite Em Em' in u.
- move=> n p B /in_ringP Hp HB; apply/in_ringP.
  change (tsin n (nnorm (reduce_n (size (nterms p) * 20) (nterms p) (map nterms B)))).
  move=> t /nnorm_monos[t' I E] v le; rewrite E nth_trim.
  apply: (@reduce_n_in n (size (nterms p) * 20) (nterms p) (map nterms B)) I v le => // b /mapP[q qI ->].
  by apply/in_ringP; exact: (allP HB).
- by move=> w p eps x y [<-].
Qed.
Lemma nfsolve_ok x : ~ fsolve_raises noracle x.
Proof. by case=> w [p [eps [v]]]. Qed.

(** ** Three runs *)

Definition oat (s : decide nlib) : bool := all (ring_atom (L := nlib) 2) (main_goal (dgoal s) :: hyps s).
Lemma ex105_ok : [/\ oat s104, in_lin (linear (L := nlib) 2) s104 & is_ok (nrun 2 4 s104)].
Proof. by split; [vm_compute|exact: ex104_lin|exact: ex104]. Qed.

(** x0 > 0, x1 > 0 |- x0 - x1 > 0 *)
Definition s105c : decide nlib := nstart (lat 0 (l3 1 (-1) 0) RGt)
  [:: lat 1 (l3 1 0 0) RGt; lat 2 (l3 0 1 0) RGt].
(** x0 > 0, x1 > 0 |- x0 + x1 > 0 *)
Definition s105i : decide nlib := nstart (lat 0 (l3 1 1 0) RGt)
  [:: lat 1 (l3 1 0 0) RGt; lat 2 (l3 0 1 0) RGt].
Definition ends (s : decide nlib) : option exn := if nrun 2 4 s is Err x then Some x else None.
Lemma ex105_counter : [/\ oat s105c, in_lin (linear (L := nlib) 2) s105c & ends s105c = Some counterexample].
Proof. by split; vm_compute. Qed.
Lemma ex105_index : [/\ oat s105i, in_lin (linear (L := nlib) 2) s105i & ends s105i = Some IndexError].
Proof. by split; vm_compute. Qed.
Lemma s105i_valid (K : rcfType) e : sequent_true (@lval K) s105i e.
Proof.
rewrite /s105i sequent_nstart !all_cons !lat_true !lval_l3 /op_true.
rewrite !(ratr_nat _ 0) !(ratr_nat _ 1) !mul0r !mul1r !addr0 !add0r.
by apply/implyP => /and3P[a b _]; exact: addr_gt0.
Qed.
Lemma perm2 (T : Type) (a b h : T) rest : Permutation (h :: rest) [:: a; b] -> rest = [:: a] \/ rest = [:: b].
Proof.
move=> P; have I : List.In h [:: a; b] by apply: (Permutation_in _ P); left.
case: I => [E|[E|[]]]; subst h.
  by right; exact: (Permutation_length_1_inv (Permutation_sym (Permutation_cons_inv P))).
left; have P2 := Permutation_trans P (perm_swap b a [::]).
exact: (Permutation_length_1_inv (Permutation_sym (Permutation_cons_inv P2))).
Qed.
Lemma s105i_needs (K : rcfType) : needs_all (@lval K) s105i.
Proof.
move=> h rest P; have [|->|->] := @perm2 _ (lat 1 (l3 1 0 0) RGt) (lat 2 (l3 0 1 0) RGt) h rest.
- exact: P.
- exists (fun v => if v is 0%N then 1 else -1); rewrite [main_goal _]/(lat 0 (l3 1 1 0) RGt) !all_cons !lat_true !lval_l3.
  rewrite /op_true !(ratr_nat _ 0) !(ratr_nat _ 1) !mul0r !mul1r !addr0 ltr01 subrr ltxx.
  by [].
- exists (fun v => if v is 0%N then -1 else 1); rewrite [main_goal _]/(lat 0 (l3 1 1 0) RGt) !all_cons !lat_true !lval_l3.
  rewrite /op_true !(ratr_nat _ 0) !(ratr_nat _ 1) !mul0r !mul1r !addr0 add0r ltr01 addNr ltxx.
  by [].
Qed.
Lemma ends_err s x : ends s = Some x -> nrun 2 4 s = Err x.
Proof. by rewrite /ends; case: (nrun 2 4 s) => [r|y]; [discriminate|case=> ->]. Qed.
Lemma ex105_incomplete : exists s : decide nlib, [/\ goal_hyps (dgoal s) = [::] /\ vorder s = [::],
    all (ring_atom (L := nlib) 2) (main_goal (dgoal s) :: hyps s), in_lin (linear (L := nlib) 2) s,
    nrun 2 4 s = Err IndexError & forall (K : rcfType) e, sequent_true (@lval K) s e].
Proof.
have [a b c] := ex105_index; exists s105i; split; [by split|exact: a|exact: b|exact: ends_err c|exact: s105i_valid].
Qed.

(** x0 > 0 |- 1 > 0 *)
Definition s105t : decide nlib := nstart (lat 0 [:: ([::], 1)] RGt) [:: lat 1 (l3 1 0 0) RGt].
Lemma ex105_goal : [/\ oat s105t, in_lin (linear (L := nlib) 2) s105t & is_ok (nrun 2 2 s105t)].
Proof. by split; vm_compute. Qed.
Lemma s105t_goal (K : rcfType) e : atom_true (@lval K) (main_goal (dgoal s105t)) e.
Proof.
rewrite [main_goal _]/(lat 0 [:: ([::], 1)] RGt) lat_true /= /tval /= addr0 mulr1 rmorph1.
exact: ltr01.
Qed.

(** With an equation: x0 = 0, x1 > 0 |- x0 + x1 < 0 *)
Definition s105e : decide nlib := nstart (lat 0 (l3 1 1 0) RLt)
  [:: lat 1 (l3 1 0 0) REq; lat 2 (l3 0 1 0) RGt].
Lemma ex105_eqn : ring_state 2 s105e /\ ends s105e = Some counterexample.
Proof. by split; vm_compute. Qed.
