(** Concrete runs for the choices made by GRF. *)
From mathcomp Require Import all_ssreflect all_algebra.
From mathcomp.zify Require Import zify.
From mathcomp.real_closed Require Import polyrcf.
From Coq Require Import String.
From Verif Require Import Py GrfModel GrfCad GrfSpec GrfFacts GrfCheck GrfLoop GrfRun GrfLine GrfCadFacts GrfInst
  GrfEx GrfEx2 GrfPick.

Set Implicit Arguments.
Unset Strict Implicit.
Unset Printing Implicit Defensive.
Import GRing.Theory Num.Theory Order.Theory.
Local Open Scope ring_scope.
Local Notation asg := (dict [eqType of var]).

(** *** C79: a solver that finds the zero of x0 + eps, and nothing else *)
Definition xoracle : oracle qlib :=
  @Oracle [realDomainType of rat] qlib (fun _ l u => l) (fun _ _ => 0%N)
    (fun _ p eps _ => if p == X 0 then Ok [:: - eps] else Err (Exc "fsolve"%string)) 1 1.
Definition exact_fsolve (O : oracle qlib) (order : seq var) : Prop :=
  forall w p eps x x' (K : rcfType) e, fsolve O w p eps x = Ok x' ->
  (forall d, vect2dict order x' = Ok d -> agrees ratr d e) -> @qval K p e + ratr eps = 0.

Lemma xoracle_exact : exact_fsolve xoracle [:: 0%N].
Proof.
move=> w p eps x x' K e /=; case: eqP => // -> [<-] A.
have := A [:: (0%N, - eps)] erefl => /(_ 0%N (- eps) erefl) E.
by rewrite /qval pval_X E rmorphN addNr.
Qed.

Definition ge79 := at_ 0 (X 0) RGe.
Definition ne79 := at_ 1 (X 0) RNe.
Definition goal79 := at_ 2 (X 1) RGt.
Definition vec (r : res (seq rat * seq (asg rat))) : option (seq rat) := if r is Ok (x, _) then Some x else None.
Lemma ex79 :
  vec (chain_step xoracle [::] [:: 0%N] [:: ge79] goal79 [:: 0]) = Some [:: 1] /\
  vec (chain_step xoracle [::] [:: 0%N] [:: ne79] goal79 [:: 1]) = Some [:: -1].
Proof. by split; vm_compute. Qed.
Lemma ex79_true : eval_atom ge79 [:: (0%N, 0)] = Ok (Some true) /\ eval_atom ge79 [:: (0%N, 1)] = Ok (Some true) /\
  eval_atom ne79 [:: (0%N, 1)] = Ok (Some true) /\ eval_atom ne79 [:: (0%N, -1)] = Ok (Some true).
Proof. by do !split; vm_compute. Qed.

Definition keeps_true (O : oracle qlib) (a : atom qlib) : Prop :=
  exists m x x' kept, chain_step O [::] [:: 0%N] [:: a] m [:: x] = Ok ([:: x'], kept) /\
    eval_atom a [:: (0%N, x)] = Ok (Some true) /\ eval_atom a [:: (0%N, x')] = Ok (Some true).

Lemma vecP r x : vec r = Some x -> exists k, r = Ok (x, k).
Proof. by case: r => // -[y k] [<-]; exists k. Qed.
Lemma keepsI O a m x x' : vec (chain_step O [::] [:: 0%N] [:: a] m [:: x]) = Some [:: x'] ->
  eval_atom a [:: (0%N, x)] = Ok (Some true) -> eval_atom a [:: (0%N, x')] = Ok (Some true) -> keeps_true O a.
Proof. by move=> H t t'; have [k E] := vecP H; exists m, x, x', k. Qed.

Lemma ex79_all : exists O : oracle qlib, [/\ 0 < margin O, exact_fsolve O [:: 0%N] &
  (exists2 a, aop a = RGe & keeps_true O a) /\ (exists2 a, aop a = RNe & keeps_true O a)].
Proof.
have [t1 [t2 [t3 t4]]] := ex79_true; exists xoracle; split; [exact: ltr01|exact: xoracle_exact|split].
- exists ge79; [exact: erefl|exact: (keepsI (proj1 ex79) t1 t2)].
- exists ne79; [exact: erefl|exact: (keepsI (proj2 ex79) t3 t4)].
Qed.

(** x0 > 0 is falsified from x0 = 2 *)
Definition gt79 := at_ 3 (X 0) RGt.
Lemma ex79_flip : flip_eps xoracle [::] [:: 0%N] gt79 [:: 2%:R] = Ok 1.
Proof. by vm_compute. Qed.
Lemma ex79_chosen : (let! a := choose_atom_true xoracle [::] [:: 0%N] [:: at_ 0 (X 0) RLt; gt79] [:: 2%:R] in
  Ok (if a is Some a then Some (aid a) else None)) = Ok (Some 3%N).
Proof. by vm_compute. Qed.

(** *** C80: x0^1002 > 0, x1 > 0, x2 > 0 with the goal x0 > 1 *)
Definition s80 := start (at_ 0 (lx (-1)) RGt)
  [:: at_ 1 [:: ([:: 1002%N], 1)] RGt; at_ 2 (X 1) RGt; at_ 3 (X 2) RGt].
Lemma ex80_good : good_hyps brute s80 [:: [:: 2%N]] = Ok [:: 1%N].
Proof. by vm_compute. Qed.
Lemma ex80_related : related (dgoal s80) (at_ 1 [:: ([:: 1002%N], 1)] RGt) /\ ~ related (dgoal s80) (at_ 2 (X 1) RGt).
Proof.
split; first by exists 0%N; [vm_compute|exists (at_ 0 (lx (-1)) RGt); [left|vm_compute]].
case=> v; have -> : variables (apoly (at_ 2 (X 1) RGt)) = [:: 1%N] by vm_compute.
rewrite inE => /eqP -> [a [<-|[]]].
have -> : variables (apoly (at_ 0 (lx (-1)) RGt)) = [:: 0%N] by vm_compute.
by [].
Qed.
Lemma ex80_all : exists (s : decide qlib) (i j : nat) h h' (bads : seq (seq nat)),
  [/\ pyget (hyps s) i = Ok h, pyget (hyps s) j = Ok h', related (dgoal s) h, ~ related (dgoal s) h' &
   [/\ forall b, b \in bads -> (i \notin b) && (j \notin b), bads <> [::] & good_hyps brute s bads = Ok [:: j]]].
Proof.
exists s80, 0%N, 1%N, (at_ 1 [:: ([:: 1002%N], 1)] RGt), (at_ 2 (X 1) RGt), [:: [:: 2%N]].
have [r1 r2] := ex80_related; split; [exact: erefl|exact: erefl|exact: r1|exact: r2|split].
- by move=> b; rewrite inE => /eqP ->.
- by [].
- exact: ex80_good.
Qed.

(** *** C81: x0^2 > 4 and x0 > -9 are suggested, the second is promoted *)
Definition s81 := start (at_ 0 (lx (-1)) RGt)
  [:: at_ 1 [:: ([:: 2%N], 1); ([::], -4%:R)] RGt; at_ 2 (lx 9%:R) RGt; at_ 3 (lx 8%:R) RGt].
Lemma ex81_good : good_hyps brute s81 [:: [:: 1; 2]; [:: 0; 2]]%N = Ok [:: 0; 1]%N.
Proof. by vm_compute. Qed.
Lemma ex81 : (let! s := auto brute s81 [:: [:: 1; 2]; [:: 0; 2]]%N in Ok (map (@aid _ _) (hyps s))) = Ok [:: 1; 3]%N.
Proof. by vm_compute. Qed.

(** *** C82: the user can promote both hypotheses of x1 > 0, x0 >= x1 |- x0 > -1 *)
Definition session82 : seq command :=
  [:: ShowBads; Promote (-1); Promote 7%:Z; Other; Promote 0; ShowSequent; Promote 0].
Definition left_over (r : res (seq (seq nat) * decide qlib)) : option nat :=
  if r is Ok (_, s) then Some (size (hyps s)) else None.
Lemma ex82 : left_over (check qoracle brute (sample_pt_dicts qoracle 2 1) 5 true 1 1 (Some session82) [::] s71) = Some 0%N.
Proof. by vm_compute. Qed.

(** *** C83 *)
Definition amb83 := [:: at_ 0 (X 0) RNe].
Lemma ex83_all : exists ambient : seq (atom qlib),
  (exists x : rat, all (fun h => if eval_atom h [:: (0%N, x)] is Ok (Some true) then true else false) ambient) /\
  forall O w num, exists2 c, sector_sps O w [::] num ambient 0%N = [:: c] &
    has (fun h => if eval_atom h [:: (0%N, c)] is Ok (Some false) then true else false) ambient.
Proof.
exists amb83; split; first by exists 1; vm_compute.
move=> O w num; exists 0; [exact: erefl|by vm_compute].
Qed.
Lemma ex83 w num : sector_sps qoracle w [::] num [:: at_ 0 (X 1) RGt; at_ 1 (X 0) RLt] 0%N = [:: -1].
Proof. by []. Qed.

(** *** C84 *)
Lemma ex84 : bm_proj (L := qlib) 1%N [:: [:: ([:: 1; 2]%N, 3%:R); ([::], 1)]; xmy] = [:: X 0].
Proof. by vm_compute. Qed.

(** *** C85 *)
Definition order_of (r : res (seq (seq nat) * decide qlib)) : option (seq nat) :=
  if r is Ok (_, s) then Some (vorder s) else None.
Lemma ex85 : order_of (run 1 3 s67b) = Some [:: 0%N]. Proof. by vm_compute. Qed.
