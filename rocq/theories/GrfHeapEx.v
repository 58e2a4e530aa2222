(** Two checks that share atoms. *)
From mathcomp Require Import all_ssreflect all_algebra.
From mathcomp.zify Require Import zify.
From mathcomp.real_closed Require Import polyrcf.
From Coq Require Import String.
From Verif Require Import Py GrfModel GrfCad GrfSpec GrfFacts GrfCheck GrfLoop GrfRun GrfLine GrfCadFacts
  GrfInst GrfEx GrfEx2 GrfLin GrfLinInst GrfLinEx GrfHeap GrfHeapFacts.

Set Implicit Arguments.
Unset Strict Implicit.
Unset Printing Implicit Defensive.
Import GRing.Theory Num.Theory Order.Theory.
Local Open Scope ring_scope.

(** The atoms of the caller: x1 > 1, x0 > 2, x0 = x1, x0 < 5. *)
Definition mem0 : heap nlib := fun r =>
  nth (lat 0 (l3 0 1 (-1)) RGt) [:: lat 0 (l3 0 1 (-1)) RGt; lat 1 (l3 1 0 (-2%:R)) RGt;
    lat 2 (l3 1 (-1) 0) REq; lat 3 (l3 1 0 (-5%:R)) RLt] r.
Definition ncheck (m : heap nlib) (s : hdecide nlib) (cs : option (seq command)) :=
  h_check noracle brute (sample_pt_dicts noracle 2 1) 4 true 1 1 cs [::] m s.

Definition first := ncheck mem0 (h_new nlib [:: 1; 2; 3]%N 0%N [::]) None.

Definition left_hyps (r : res (seq (seq nat) * (heap nlib * hdecide nlib))) : option (seq ref) :=
  if r is Ok x then Some (hhyps x.2.2) else None.
Definition error (r : res (seq (seq nat) * (heap nlib * hdecide nlib))) : option exn :=
  if r is Err e then Some e else None.
Lemma ex_first : left_hyps first = Some [:: 3%N]. Proof. by vm_compute. Qed.
Lemma ex_distinct : distinct (h_new nlib [:: 1; 2; 3]%N 0%N [::]) /\ distinct (h_new nlib [:: 1; 3]%N 0%N [::]).
Proof. by []. Qed.
(** x0 > 2 has become x1 > 2. *)
Definition changed (r : res (seq (seq nat) * (heap nlib * hdecide nlib))) : option (seq term) :=
  if r is Ok x then Some (nterms (apoly (x.2.1 1%N))) else None.
Lemma ex_changed : changed first = Some [:: ([:: 0; 1]%N, 1); ([::], -2%:R)]. Proof. by vm_compute. Qed.

Lemma ex_false (K : rcfType) : exists e, all_true (@lval K) (map mem0 [:: 1; 3]%N) e && ~~ atom_true (@lval K) (mem0 0%N) e.
Proof.
exists (fun v => if v is 0%N then 3%:R else 0).
rewrite [map _ _]/= !all_cons ![mem0 _]/= !lat_true !lval_l3 /op_true ?rmorphN /=.
rewrite !(ratr_nat _ 0) !(ratr_nat _ 1) !(ratr_nat _ 2) !(ratr_nat _ 5) !mul0r !mul1r ?addr0 ?add0r ?mulr0 ?add0r.
by rewrite subr_gt0 subr_lt0 !ltr_nat /= -leNgt oppr_le0 ler01.
Qed.

Section Two.
Variables (c : heap nlib -> hdecide nlib -> res (seq (seq nat) * (heap nlib * hdecide nlib))).
Lemma two_ok m s (mk : seq var -> hdecide nlib) l :
  left_hyps (let! f := c m s in c f.2.1 (mk (horder f.2.2))) = Some l ->
  exists r m1 s1, c m s = Ok (r, (m1, s1)) /\ exists x, c m1 (mk (horder s1)) = Ok x.
Proof.
case: (c m s) => // -[r [m1 s1]] /=; case E : (c m1 _) => [x|//] _.
by exists r, m1, s1; split=> //; exists x.
Qed.
Lemma one_err m s e : error (c m s) = Some e -> c m s = Err e.
Proof. by case: (c m s) => // e' [->]. Qed.
End Two.
Definition auto_check m s := ncheck m s None.
Lemma ex_second : left_hyps (let! f := auto_check mem0 (h_new nlib [:: 1; 2; 3]%N 0%N [::]) in
    auto_check f.2.1 (h_new nlib [:: 1; 3]%N 0%N (horder f.2.2))) = Some [:: 3%N].
Proof. by vm_compute. Qed.
Lemma ex_alone : error (auto_check mem0 (h_new nlib [:: 1; 3]%N 0%N [::])) = Some counterexample.
Proof. by vm_compute. Qed.
Lemma shared_pre (c : heap nlib -> hdecide nlib -> res (seq (seq nat) * (heap nlib * hdecide nlib))) m hs hs' g :
  distinct (h_new nlib hs g [::]) /\ distinct (h_new nlib hs' g [::]) ->
  left_hyps (let! f := c m (h_new nlib hs g [::]) in c f.2.1 (h_new nlib hs' g (horder f.2.2))) = Some [:: 3%N] ->
  error (c m (h_new nlib hs' g [::])) = Some counterexample ->
  (forall K : rcfType, exists e, all_true (@lval K) (map m hs') e && ~~ atom_true (@lval K) (m g) e) ->
  exists (m : heap nlib) hs hs' g, [/\ distinct (h_new nlib hs g [::]) /\ distinct (h_new nlib hs' g [::]),
    exists r m1 s1, c m (h_new nlib hs g [::]) = Ok (r, (m1, s1)) /\
      exists x, c m1 (h_new nlib hs' g (horder s1)) = Ok x,
    c m (h_new nlib hs' g [::]) = Err counterexample &
    forall K : rcfType, exists e, all_true (@lval K) (map m hs') e && ~~ atom_true (@lval K) (m g) e].
Proof.
move=> D H1 H2 F; exists m, hs, hs', g; split=> //; last exact: one_err H2.
exact: (two_ok H1).
Qed.
Lemma shared_refuted : exists (m : heap nlib) hs hs' g, [/\ distinct (h_new nlib hs g [::]) /\ distinct (h_new nlib hs' g [::]),
    exists r m1 s1, auto_check m (h_new nlib hs g [::]) = Ok (r, (m1, s1)) /\
      exists x, auto_check m1 (h_new nlib hs' g (horder s1)) = Ok x,
    auto_check m (h_new nlib hs' g [::]) = Err counterexample &
    forall K : rcfType, exists e, all_true (@lval K) (map m hs') e && ~~ atom_true (@lval K) (m g) e].
Proof. exact (shared_pre ex_distinct ex_second ex_alone ex_false). Qed.
