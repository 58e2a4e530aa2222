(** An exact 0/1 solver, and concrete runs. *)
From mathcomp Require Import all_ssreflect all_algebra.
From mathcomp.zify Require Import zify.
From mathcomp.real_closed Require Import polyrcf.
From Coq Require Import String.
From Verif Require Import Py GrfModel GrfCad GrfSpec GrfFacts GrfCheck GrfLoop GrfRun GrfLine GrfCadFacts GrfInst.

Set Implicit Arguments.
Unset Strict Implicit.
Unset Printing Implicit Defensive.
Import GRing.Theory Num.Theory Order.Theory.
Local Open Scope ring_scope.

(** ** Solving by trying everything *)
Fixpoint bool_lists (n : nat) : seq (seq bool) :=
  if n is n'.+1 then [seq b :: l | b <- [:: false; true], l <- bool_lists n'] else [:: [::]].
Definition mentions (c : constraint) : nat :=
  match c with AtLeastOne l => foldr maxn 0%N [seq i.+1 | i <- l] | Fix v _ => v.+1 end.
Fixpoint cheapest (f : seq bool -> nat) (ls : seq (seq bool)) : option (seq bool) :=
  match ls with
  | [::] => None
  | l :: ls' => match cheapest f ls' with
                | Some l' => if (f l <= f l')%N then Some l else Some l'
                | None => Some l
                end
  end.
Definition brute (n : nat) (cs : seq constraint) (w : seq nat) : res (nat -> bool) :=
  let N := foldr maxn n [seq mentions c | c <- cs] in
  let ls := [seq l <- bool_lists N | all (meets (nth false l)) cs] in
  if cheapest (fun l => cost w (ones n (nth false l))) ls is Some l then Ok (nth false l)
  else Err (Exc "MIPSolverException"%string).

Lemma bool_listsP n l : size l = n -> l \in bool_lists n.
Proof.
elim: n l => [|n IH] [|b l] //= [/IH I]; rewrite cats0 mem_cat.
by case: b; apply/orP; [right|left]; rewrite mem_map // => x y [].
Qed.

Lemma cheapestP f ls l : cheapest f ls = Some l -> l \in ls /\ forall l', l' \in ls -> (f l <= f l')%N.
Proof.
elim: ls l => //= l0 ls IH l; case E : (cheapest f ls) => [l1|].
  have [I1 H1] := IH _ E; case: ifP => le [<-]; split; rewrite ?mem_head ?inE ?I1 ?orbT // => l'; rewrite inE.
    by case/predU1P=> [->//|/H1]; apply: leq_trans.
  by case/predU1P=> [->|/H1 //]; apply: ltnW; rewrite ltnNge le.
case=> <-; split; first exact: mem_head.
move=> l'; rewrite inE => /predU1P[->//|I].
by case: ls I E {IH} => //= l2 ls _; case: (cheapest f ls) => // a; case: ifP.
Qed.

Lemma cheapest_none f ls : cheapest f ls = None -> ls = [::].
Proof. by case: ls => //= l ls; case: (cheapest f ls) => // a; case: ifP. Qed.

Lemma maxn_ge (ns : seq nat) n x : (x \in ns) || (x == n) -> (x <= foldr maxn n ns)%N.
Proof.
elim: ns => [|y ns IH] /=; first by move/eqP=> ->.
rewrite inE -orbA leq_max => /orP[/eqP ->|/IH ->]; by rewrite ?leqnn ?orbT.
Qed.

Lemma meets_eq x y c : (forall i, (i < mentions c)%N -> x i = y i) -> meets x c = meets y c.
Proof.
case: c => [l|v b] /= H; last by rewrite H.
apply: eq_in_has => i il; apply: H; apply: maxn_ge; apply/orP; left.
by apply/mapP; exists i.
Qed.

Lemma brute_exact : exact_solver brute.
Proof.
move=> n cs w; rewrite /brute; set N := foldr maxn n _.
have cut y : exists2 l, l \in bool_lists N & (forall i, (i < N)%N -> nth false l i = y i).
  by exists (mkseq y N); [apply: bool_listsP; rewrite size_mkseq|move=> i iN; rewrite nth_mkseq].
have cutm y l : (forall i, (i < N)%N -> nth false l i = y i) -> all (meets (nth false l)) cs = all (meets y) cs.
  move=> E; have : forall c, mentions c \in [seq mentions c | c <- cs] -> meets (nth false l) c = meets y c.
    move=> c cI; apply: meets_eq => i im; apply: E; apply: leq_trans im _.
    by apply: maxn_ge; rewrite cI.
  elim: (cs) => //= c cs' IH H; rewrite H ?mem_head // IH // => c' I; apply: H; by rewrite inE I orbT.
have cuto y l : (forall i, (i < N)%N -> nth false l i = y i) -> ones n (nth false l) = ones n y.
  move=> E; apply: eq_in_filter => i; rewrite mem_iota add0n => /andP[_ iN]; apply: E.
  by apply: leq_trans iN _; apply: maxn_ge; rewrite eqxx orbT.
split=> [x|e].
  case E : (cheapest _ _) => [l|//] [<-]; have [I H] := cheapestP E.
  move: I; rewrite mem_filter => /andP[Ml _]; split=> // y My; have [l' I' E'] := cut y.
  by rewrite -(cuto _ _ E'); apply: H; rewrite mem_filter I' (cutm _ _ E') My.
case E : (cheapest _ _) => [//|] [<-]; split=> // y; apply/negP => My; have [l' I' E'] := cut y.
have : l' \in [seq l <- bool_lists N | all (meets (nth false l)) cs] by rewrite mem_filter I' (cutm _ _ E') My.
by rewrite (cheapest_none E).
Qed.

(** ** Concrete runs *)
Definition X (v : nat) : qpoly := qgen v.
Definition lin (l : seq (seq nat * rat)) : qpoly := norm l.
Definition at_ (i : nat) (p : qpoly) (op : relop) : atom qlib := @mk_atom _ qlib i p op.
Definition run n fuel (s : decide qlib) :=
  check qoracle brute (sample_pt_dicts qoracle n 1) fuel true 1 1 None [::] s.
Definition start (m : atom qlib) (hs : seq (atom qlib)) : decide qlib := Decide hs (Goal m [::] [::]) [::].
Definition promote (m : atom qlib) (ps : seq (atom qlib)) := foldM (@add_goal_hyp _ qlib) (Goal m [::] [::]) ps.

Definition qval (K : rcfType) : P qlib -> (var -> K) -> K := @pval K.

(** x0 - x1 and x0 + x1 *)
Definition xmy : qpoly := lin [:: ([:: 1%N], 1); ([:: 0; 1]%N, -1)].
Definition xpy : qpoly := lin [:: ([:: 1%N], 1); ([:: 0; 1]%N, 1)].

Lemma pval_X (K : rcfType) v e : pval (X v) e = e v :> K.
Proof. exact: (val_gen (qcad_ok K)). Qed.
Lemma xmyE : xmy = [:: ([:: 1%N], 1); ([:: 0; 1]%N, -1)]. Proof. by vm_compute. Qed.
Lemma xpyE : xpy = [:: ([:: 1%N], 1); ([:: 0; 1]%N, 1)]. Proof. by vm_compute. Qed.
Lemma pval_xmy (K : rcfType) e : pval xmy e = e 0%N - e 1%N :> K.
Proof. by rewrite xmyE /= /tval /= rmorph1 rmorphN rmorph1 !expr1 expr0 !mul1r !mulr1 addr0 mulN1r. Qed.
Lemma pval_xpy (K : rcfType) e : pval xpy e = e 0%N + e 1%N :> K.
Proof. by rewrite xpyE /= /tval /= rmorph1 !expr1 expr0 !mul1r !mulr1 addr0. Qed.

(** *** C43: x0 < 0 and x0 = x1 promoted, the goal x1 > 0, the assignment x0 = -5. *)
Definition m43 := at_ 0 (X 1) RGt.
Definition ps43 := [:: at_ 1 (X 0) RLt; at_ 2 xmy REq].
Definition d43 : dict [eqType of var] rat := [:: (0%N, -5%:R)].
Definition g43 : goal qlib :=
  Goal m43 [:: Atom (L := qlib) 1 (X 1) RLt [:: 0%N]; at_ 2 xmy REq] [:: xmy].
Lemma ex43 : promote m43 ps43 = Ok g43. Proof. by vm_cast_no_check (erefl (Ok g43)). Qed.
Lemma ex43_eval : eval_goal g43 d43 = Ok true. Proof. by vm_compute. Qed.
Lemma ex43_wf : goal_wf (Goal m43 ps43 [::]). Proof. by vm_compute. Qed.
Lemma ex43_false (K : rcfType) : ~~ goal_true (@qval K) g43 (fun _ => -5%:R).
Proof.
rewrite /goal_true /all_true /= /atom_true /qval !pval_X pval_xmy /= subrr eqxx.
by rewrite oppr_lt0 ltr0n /= oppr_gt0 ltrn0.
Qed.

(** *** C44 and C46: x0 = x1, x0 = -x1 *)
Definition m44 := at_ 0 (lin [:: ([:: 1%N], 1); ([::], 1)]) RGt.
Definition ps44 := [:: at_ 1 xmy REq; at_ 2 xpy REq].
Definition g44 : goal qlib :=
  Goal m44 [:: Atom (L := qlib) 1 [:: ([:: 0; 1]%N, -2%:R)] REq [:: 0; 1]%N;
               Atom (L := qlib) 2 [:: ([:: 0; 1]%N, 2%:R)] REq [:: 0; 1]%N] [:: xmy; xpy].
Lemma ex44 : promote m44 ps44 = Ok g44. Proof. by vm_cast_no_check (erefl (Ok g44)). Qed.
(** The point (-2, 0, 1). *)
Definition e44 (K : rcfType) (v : var) : K := if v is 0 then -2%:R else if v is 1 then 0 else 1.
Lemma ex44_weaker (K : rcfType) : all_true (@qval K) (goal_hyps g44) (@e44 K) && ~~ all_true (@qval K) ps44 (@e44 K).
Proof.
rewrite /all_true /= /atom_true /qval pval_xmy pval_xpy /= /tval /= !expr1 !expr0 !mulr1 !mulr0 !addr0 eqxx.
by rewrite subr0 oppr_eq0 pnatr_eq0.
Qed.

(** z > 0 remains; the sequent x0 = x1, x0 = -x1, x2 > 0 |- x0 > -1 is valid. *)
Definition h46 := at_ 3 (X 2) RGt.
Definition d46 : dict [eqType of var] rat := [:: (0%N, -2%:R); (1%N, 0); (2%N, 1)].
Definition s46 : decide qlib := Decide [:: h46] g44 [::].
Lemma ex46 : bad_subsets_on_dict qoracle [::] s46 d46 1 1 = Err counterexample.
Proof. by vm_compute. Qed.
Lemma m44E : apoly m44 = [:: ([:: 1%N], 1); ([::], 1)]. Proof. by vm_compute. Qed.
Lemma ex46_valid (K : rcfType) e : sequent_true (@qval K) (start m44 (rcons ps44 h46)) e.
Proof.
apply/implyP; rewrite /all_true /= /atom_true /qval pval_xmy pval_xpy /= => /and4P[/eqP d1 /eqP d2 _ _].
rewrite /goal_true /all_true /= /atom_true /qval m44E /= /tval /= !rmorph1 !mul1r expr1 !mulr1 addr0.
have -> : e 0%N = 0.
  have E : e 0%N + e 0%N = 0 by rewrite -[RHS](addr0 0) -{2}d2 -d1 addrACA addNr addr0.
  by apply/eqP; move/eqP: E; rewrite -mulr2n mulrn_eq0.
by rewrite add0r ltr01.
Qed.

(** *** C45 *)
Definition mixed : qpoly := lin [:: ([:: 4%N], 1); ([:: 2%N], -2%:R)].
Definition umixed : upoly := [:: (4%N, 1); (2%N, -2%:R)].
Lemma ex45_univ : mapM quniv [:: mixed] = Ok [:: umixed]. Proof. by vm_compute. Qed.
Lemma ex45_iso : iso_root_intvls (L := qlib) [:: mixed] = Ok [:: ((0, 0), 1%N)]. Proof. by vm_compute. Qed.
Lemma ex45_sps w : sector_sps qoracle w [:: ((0, 0), 1%N)] 1 [::] 0%N = [:: -1; 0; 1].
Proof. by vm_compute. Qed.
Lemma umixed_at (K : rcfType) (x : rat) : (uval K umixed).[ratr x] = ratr (x ^+ 4 - 2%:R * x ^+ 2).
Proof. by rewrite ueval_eval /= mul1r mulNr addr0. Qed.
Lemma ex45_missed (K : rcfType) : ~ root_of (L := qlib) (uval K) [:: umixed] (ratr 2%:R) /\
  forall s, s \in [:: -1; 0; 1] -> ~ same_signs (L := qlib) (uval K) [:: umixed] (ratr 2%:R) (ratr s).
Proof.
split.
  case=> u [<-|//]; rewrite /root umixed_at fmorph_eq0; by vm_compute.
move=> s sI /(_ umixed (or_introl erefl)); rewrite !umixed_at.
have gt : ratr (2%:R ^+ 4 - 2%:R * 2%:R ^+ 2) > 0 :> K by rewrite ltr0q; vm_compute.
have le : ratr (s ^+ 4 - 2%:R * s ^+ 2) <= 0 :> K.
  rewrite -(rmorph0 [rmorphism of @ratr K]) ler_rat; move: s sI; apply/allP; by vm_compute.
by rewrite (gtr0_sg gt) => E; move: le; rewrite leNgt -sgr_gt0 -E ltr01.
Qed.

(** x^2 - 2, 2x - 3 and x: the interval of the square root of 2 contains 3/2. *)
Definition ps45 : seq qpoly := [:: lin [:: ([:: 2%N], 1); ([::], -2%:R)]; lin [:: ([:: 1%N], 2%:R); ([::], -3%:R)]; X 0].
Definition us45 : seq upoly := [:: x2m2; [:: (1%N, 2%:R); (0%N, -3%:R)]; [:: (1%N, 1)]].
Definition ris45 : seq ((rat * rat) * nat) :=
  [:: ((-2%:R, -1), 1%N); ((1, 2%:R), 1%N); ((3%:R / 2%:R, 3%:R / 2%:R), 1%N); ((0, 0), 1%N)].
Lemma ex45b_univ : mapM quniv ps45 = Ok us45. Proof. by vm_compute. Qed.
Lemma ex45b_iso : iso_root_intvls (L := qlib) ps45 = Ok ris45. Proof. by vm_compute. Qed.
Lemma ex45b_hard : no_rational (L := qlib) us45 = [:: x2m2]. Proof. by vm_compute. Qed.
Definition sps45 : seq rat := [:: -3%:R; -5%:R / 4%:R; -1 / 4%:R; 0; 3%:R / 4%:R; 3%:R / 2%:R; 13%:R / 8%:R; 7%:R / 4%:R; 3%:R].
Lemma ex45b_sps w : sector_sps qoracle w ris45 1 [::] 0%N = sps45.
Proof. by vm_compute. Qed.

Lemma x2m2_root (K : rcfType) (z : K) : root (uval K x2m2) z = (z ^+ 2 == 2%:R).
Proof.
rewrite /root uval_eval !big_cons big_nil /= rmorph1 mul1r rmorphN rmorph_nat expr0 mulr1 addr0.
by rewrite subr_eq0.
Qed.

Lemma isolated_x2m2 (K : rcfType) : isolated (L := qlib) ratr (uval K) [:: x2m2].
Proof.
have R1 z : root_of (L := qlib) (uval K) [:: x2m2] z <-> z ^+ 2 = 2%:R.
  by split=> [[u [<-|//]]|E]; [rewrite x2m2_root => /eqP|exists x2m2; [left|rewrite x2m2_root E]].
have two : (0 : K) <= 2%:R by rewrite ler0n.
have le12 : 1 <= Num.sqrt (2%:R : K).
  by rewrite -(@ler_pexpn2r _ 2) ?nnegrE ?sqrtr_ge0 ?ler01 // expr1n sqr_sqrtr // ler1n.
have le22 : Num.sqrt (2%:R : K) <= 2%:R.
  by rewrite -(@ler_pexpn2r _ 2) ?nnegrE ?sqrtr_ge0 // sqr_sqrtr // -natrX ler_nat.
have sq z z' : z ^+ 2 = 2%:R -> z' ^+ 2 = 2%:R -> 0 < z * z' -> z = z' :> K.
  move=> E E' zz; apply/eqP; have : z ^+ 2 == z' ^+ 2 by rewrite E E'.
  rewrite eqf_sqr => /orP[//|/eqP E2]; move: zz; rewrite E2 mulNr oppr_gt0 -expr2 E'.
  by rewrite ltNge two.
have ri : @root_intervals _ qlib [:: x2m2] = [:: ((-2%:R, -1), 1%N); ((1, 2%:R), 1%N)] by [].
split=> [i m|i m z z'|z /R1 E]; rewrite ?ri.
- rewrite !inE => /orP[|] /eqP[-> _].
    exists (- Num.sqrt 2%:R); last by apply/R1; rewrite sqrrN sqr_sqrtr.
    by rewrite /within /= !rmorphN rmorph1 rmorph_nat !ler_opp2 le12 le22.
  exists (Num.sqrt 2%:R); last by apply/R1; rewrite sqr_sqrtr.
  by rewrite /within /= rmorph1 rmorph_nat le12 le22.
- rewrite !inE => /orP[|] /eqP[-> _] /R1 E /R1 E'; rewrite /within /=.
    rewrite !rmorphN rmorph1 => /andP[_ n1] /andP[_ n2]; apply: sq => //.
    by rewrite nmulr_lgt0 (le_lt_trans _ (ltrN10 K)).
  rewrite rmorph1 => /andP[p1 _] /andP[p2 _]; apply: sq => //.
  by rewrite mulr_gt0 // (lt_le_trans ltr01).
- have : z = Num.sqrt 2%:R \/ z = - Num.sqrt 2%:R.
    have : z ^+ 2 == (Num.sqrt 2%:R) ^+ 2 by rewrite E sqr_sqrtr.
    by rewrite eqf_sqr => /orP[/eqP|/eqP]; [left|right].
  case=> ->; [exists (1, 2%:R), 1%N|exists (-2%:R, -1), 1%N]; rewrite ?inE ?eqxx ?orbT; split=> //.
    by rewrite /within /= rmorph1 rmorph_nat le12 le22.
  by rewrite /within /= !rmorphN rmorph1 rmorph_nat !ler_opp2 le12 le22.
Qed.

Lemma lin_unmixed (K : rcfType) (a b : rat) (u : upoly) : a != 0 -> uroots u != [::] ->
  (forall z, (uval K u).[z] = ratr a * z + ratr b) -> rational_roots (L := qlib) ratr (uval K) u.
Proof.
move=> a0 ne E z; rewrite /root E => /eqP z0.
case Er : (uroots u) ne => [//|[r m] l] _; exists r, m; split; first by rewrite /= Er mem_head.
have : root (uval K u) (ratr r) by apply: (roots_root (qline_ok K) (m := m)); rewrite /= Er mem_head.
rewrite /root E -z0 (inj_eq (addIr _)) => /eqP; have : ratr a != 0 :> K by rewrite fmorph_eq0.
by move=> na /(mulfI na).
Qed.

Lemma x2m2_noroot : uroots x2m2 = [::]. Proof. by vm_compute. Qed.

Lemma ex45b_unmixed (K : rcfType) u : List.In u us45 -> unmixed (L := qlib) ratr (uval K) u.
Proof.
have U (v : upoly) : rational_roots (L := qlib) ratr (uval K) v -> unmixed (L := qlib) ratr (uval K) v by move=> H _.
case=> [<-|[<-|[<-|//]]].
- by move=> H; case: (H x2m2_noroot).
- apply: U; apply: (@lin_unmixed K 2%:R (-3%:R)); [by vm_compute|by vm_compute|].
  by move=> z; rewrite uval_eval !big_cons big_nil /= expr1 expr0 mulr1 addr0.
- apply: U; apply: (@lin_unmixed K 1 0); [by vm_compute|by vm_compute|].
  by move=> z; rewrite uval_eval !big_cons big_nil /= expr1 rmorph0.
Qed.

(** No sample point is between the square root of 2 and 3/2. *)
Definition x45 : rat := 29%:R / 20%:R.
Lemma ex45b_missed (K : rcfType) : ~ root_of (L := qlib) (uval K) us45 (ratr x45) /\
  forall s, s \in sps45 -> ~ same_signs (L := qlib) (uval K) us45 (ratr x45) (ratr s).
Proof.
have sg (x : rat) : Num.sg (ratr x : K) = ratr (Num.sg x) by rewrite -ratr_sg.
split.
  case=> u Iu; rewrite /root ueval_eval fmorph_eq0; move: Iu => [<-|[<-|[<-|//]]]; by vm_compute.
move=> s sI S; have {}S u : List.In u us45 -> Num.sg (ueval u x45) = Num.sg (ueval u s).
  by move=> /S; rewrite !ueval_eval !sg => /(fmorph_inj _).
have H : has (fun u => Num.sg (ueval u x45) != Num.sg (ueval u s)) us45.
  by move: s sI {S}; apply/allP; vm_compute.
have /negP[] : ~~ has (fun u => Num.sg (ueval u x45) != Num.sg (ueval u s)) us45.
  rewrite -all_predC; apply: all_In => u /S E; by rewrite /= E eqxx.
exact: H.
Qed.

(** *** A separated list: x^2 - 2 and x - 3. *)
Definition ps45c : seq qpoly := [:: lin [:: ([:: 2%N], 1); ([::], -2%:R)]; lin [:: ([:: 1%N], 1); ([::], -3%:R)]].
Definition us45c : seq upoly := [:: x2m2; [:: (1%N, 1); (0%N, -3%:R)]].
Definition ris45c : seq ((rat * rat) * nat) := [:: ((-2%:R, -1), 1%N); ((1, 2%:R), 1%N); ((3%:R, 3%:R), 1%N)].
Lemma ex45c_univ : mapM quniv ps45c = Ok us45c. Proof. by vm_compute. Qed.
Lemma ex45c_iso : iso_root_intvls (L := qlib) ps45c = Ok ris45c. Proof. by vm_compute. Qed.
Lemma ex45c_separated : separated (R := [realDomainType of rat]) ris45c. Proof. by vm_compute. Qed.
Lemma ex45c_hard : no_rational (L := qlib) us45c = [:: x2m2]. Proof. by vm_compute. Qed.
Lemma ex45c_unmixed (K : rcfType) u : List.In u us45c -> unmixed (L := qlib) ratr (uval K) u.
Proof.
case=> [<-|[<-|//]]; first by move=> H; case: (H x2m2_noroot).
move=> _; apply: (@lin_unmixed K 1 (-3%:R)); [by vm_compute|by vm_compute|].
by move=> z; rewrite uval_eval !big_cons big_nil /= expr1 expr0 mulr1 addr0.
Qed.
