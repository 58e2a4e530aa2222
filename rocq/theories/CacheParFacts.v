(** Proofs about CachePar. *)
From mathcomp Require Import all_ssreflect all_algebra.
From mathcomp.zify Require Import zify.
From Coq Require Import String.
From Verif Require Import Py VtsModel VtsCount VtsDiscr VtsSpec VtsBridge VtsInst CacheModel CacheSpec CacheFacts CachePar.

Set Implicit Arguments.
Unset Strict Implicit.
Unset Printing Implicit Defensive.
Import GRing.Theory.

(** ** One process alone: the model of C15 and C16 *)
Lemma prun_bind A B (p : prog A) (g : A -> prog B) d : prun (pbind p g) d = prun (g (prun p d).1) (prun p d).2.
Proof. by elim: p d => //= [k f IH|k f IH|k p IH|k m p IH] d; rewrite IH. Qed.

Section Facts.
Variable mx_inv : rmatrix -> rmatrix.
Local Notation content := (content mx_inv).

Definition tabs (s : proc) : tables := (lookup s, inv_lookup s).
Lemma read_alone k s : cache_hit k s ->
  read_cache k s = match dget (files s) k with Ok (Whole m) => Ok m | Ok Partial => Err EOFError | Err e => Err e end.
Proof. by rewrite /read_cache; case: (dget _ _) => [[|m]|e]. Qed.

Lemma matrix_alone n s : prun (matrix_prog n (tabs s)) (files s) =
  ((get_matrix_nat n s).1, tabs (get_matrix_nat n s).2, files (get_matrix_nat n s).2).
Proof.
elim: n s => [//|n IH] s; cbn [matrix_prog get_matrix_nat]; rewrite [(tabs s).1]/=.
case: (dget (lookup s) n.+1) => [//|_]; case: ifP => [//|_]; cbn [prun].
rewrite /cache_hit; case H : (dmem (files s) (0%N, n.+1)).
  by cbn [prun]; rewrite -(read_alone H); case: (read_cache _ _).
rewrite prun_bind IH; case: (get_matrix_nat n s) => [[previous|e] s1] //; cbn [fst snd tabs].
by case: (dget (lookup s1) 1).
Qed.

Lemma inverse_alone n s : prun (inverse_prog mx_inv n (tabs s)) (files s) =
  ((get_inverse_nat mx_inv n s).1, tabs (get_inverse_nat mx_inv n s).2, files (get_inverse_nat mx_inv n s).2).
Proof.
rewrite /inverse_prog /get_inverse_nat; case: ifP => // _; rewrite [(tabs s).2]/=.
case: (dget (inv_lookup s) n) => [//|_]; case: ifP => [//|_]; cbn [prun].
rewrite /cache_hit; case H : (dmem (files s) (1%N, n)).
  by cbn [prun]; rewrite -(read_alone H); case: (read_cache _ _).
by rewrite prun_bind matrix_alone; case: (get_matrix_nat n s) => [[m|e] s1].
Qed.

Lemma call_alone inv n s : prun (call_prog mx_inv inv n (tabs s)) (files s) =
  ((call mx_inv inv n s).1, tabs (call mx_inv inv n s).2, files (call mx_inv inv n s).2).
Proof. by case: n => [[n|n]|] //; case: inv; [exact: inverse_alone|exact: matrix_alone]. Qed.

Lemma import_alone d : prun (import_prog mx_inv) d =
  ((import_module mx_inv d).1, tabs (import_module mx_inv d).2, files (import_module mx_inv d).2).
Proof.
rewrite /import_prog /import_module; set s := MkProc _ _ _ _; cbn [prun].
rewrite /cache_hit -[d]/(files s); case H : (dmem (files s) (2%N, 0%N)).
  by cbn [prun]; rewrite -(read_alone H); case: (read_cache _ _).
by rewrite -[X in matrix_prog 1 X]/(tabs s) prun_bind matrix_alone; case: (get_matrix_nat 1 s) => [[m|e] s1].
Qed.

(** ** Safe programs *)
(** Under any interference: [S] are the files known to exist. *)
Fixpoint safe (A : Type) (Q : A -> Prop) (S : seq fname) (p : prog A) : Prop :=
  match p with
  | Ret a => Q a
  | Hit k f => safe Q (k :: S) (f true) /\ safe Q S (f false)
  | Read k f => [/\ k \in S, safe Q S (f (Ok (content k))) & safe Q S (f (Err EOFError))]
  | Open k p => safe Q S p /\ exists m q, p = Dump k m q
  | Dump k m p => m = content k /\ safe Q S p
  end.

Lemma safe_bind A B (P : A -> Prop) (Q : B -> Prop) S p (g : A -> prog B) : safe P S p ->
  (forall S a, P a -> safe Q S (g a)) -> safe Q S (pbind p g).
Proof.
move=> + G; elim: p S => [a|k f IH|k f IH|k p IH|k m p IH] S /=.
- exact: G.
- by case=> H1 H2; split; exact: IH.
- by case=> kS H1 H2; split=> //; exact: IH.
- by case=> H [m [q E]]; split; [exact: IH|rewrite E /=; exists m, (pbind q g)].
- by case=> E H; split=> //; exact: IH.
Qed.
Lemma safe_weak A (P Q : A -> Prop) S p : (forall a, P a -> Q a) -> safe P S p -> safe Q S p.
Proof.
move=> PQ; elim: p S => [a|k f IH|k f IH|k p IH|k m p IH] S /=.
- exact: PQ.
- by case=> H1 H2; split; exact: IH.
- by case=> kS H1 H2; split=> //; exact: IH.
- by case=> H ex; split=> //; exact: IH.
- by case=> -> H; split=> //; exact: IH.
Qed.
Lemma safe_write A (Q : A -> Prop) S k p : safe Q S p -> safe Q S (write k (content k) p).
Proof. by move=> H; split=> //; exists (content k), p. Qed.

Definition good_tabs (t : tables) : Prop :=
  good_memo (fun n => content (0, n)) t.1 /\ good_memo (fun n => content (1, n)) t.2.
Definition right (inv : bool) (n : nat) (r : res rmatrix) : Prop :=
  if (1 <= n <= 5)%N then right_or_eof r (value_of mx_inv inv n) else exists e, r = Err e.

Lemma matrix_safe n t S : good_tabs t ->
  safe (fun x => good_tabs x.2 /\ right false n x.1) S (matrix_prog n t).
Proof.
elim: n S => [|n IH] S gt; first by split=> //; eexists.
have [hl hi] := gt; cbn [matrix_prog].
case E: (dget t.1 n.+1) => [m|e].
  by have [-> h5] := hl.2 _ _ E; split=> //; rewrite /right h5; left.
have n0 : (0 < n)%N by case: (n) E => //; rewrite hl.1.
case: ifP => h5; first by split=> //; rewrite /right ifN; [eexists|lia].
have hn : (1 <= n.+1 <= 5)%N by lia.
split.
  split; first by rewrite inE eqxx.
    split; last by rewrite /right hn; left.
    by split=> //; exact: (good_memo_set (c := fun n => content (0, n))).
  by split=> //; rewrite /right hn; right.
apply: safe_bind (IH S gt) _ => S' [r t'] /= [gt' rt].
have n5 : (n <= 5)%N by lia.
move: rt; rewrite {1}/right n0 n5; case=> ->; last first.
  by split=> //; rewrite /right hn; right.
have [hl1 hi1] := gt'; rewrite hl1.1.
have -> : tensor_product (sign_matrix n) (content (0%N, 1%N)) = content (0, n.+1) by case: (n) n0.
apply: safe_write; split; last by rewrite /right hn; left.
by split=> //; exact: (good_memo_set (c := fun n => content (0, n))).
Qed.

Lemma inverse_safe n t S : good_tabs t ->
  safe (fun x => good_tabs x.2 /\ right true n x.1) S (inverse_prog mx_inv n t).
Proof.
move=> gt; have [hl hi] := gt; rewrite /inverse_prog; case: ifP => n0.
  by split=> //; rewrite /right ifN; [eexists|lia].
case E: (dget t.2 n) => [m|e].
  by have [-> h5] := hi.2 _ _ E; split=> //; rewrite /right h5; left.
case: ifP => h5; first by split=> //; rewrite /right ifN; [eexists|lia].
have hn : (1 <= n <= 5)%N by lia.
split.
  split; first by rewrite inE eqxx.
    split; last by rewrite /right hn; left.
    by split=> //; exact: (good_memo_set (c := fun n => content (1, n))).
  by split=> //; rewrite /right hn; right.
apply: safe_bind (matrix_safe n S gt) _ => S' [r t'] /= [gt' rt].
move: rt; rewrite {1}/right hn; case=> ->; last by split=> //; rewrite /right hn; right.
have [hl1 hi1] := gt'.
apply: (@safe_write _ _ _ (1%N, n)); split; last by rewrite /right hn; left.
by split=> //; exact: (good_memo_set (c := fun n => content (1, n))).
Qed.

Definition right_arg (c : bool * pyarg) (r : res rmatrix) : Prop :=
  if in_range c.2 then right_or_eof r (value_of mx_inv c.1 (arg_nat c.2)) else exists e, r = Err e.

Lemma call_safe inv n t S : good_tabs t ->
  safe (fun x => good_tabs x.2 /\ right_arg (inv, n) x.1) S (call_prog mx_inv inv n t).
Proof.
by case: n => [[n|n]|] gt /=; [case: inv; [exact: inverse_safe|exact: matrix_safe]| |]; split=> //; eexists.
Qed.

Definition init_tabs : tables := ([:: (1%N, sign_matrix1)], [:: (1%N, mx_inv sign_matrix1)]).
Lemma init_good : good_tabs init_tabs.
Proof. by split; split=> //= n m; case: eqVneq => [->|] //; case=> <-. Qed.

Lemma import_safe S : safe (fun x => good_tabs x.2 /\ (x.1 = Ok tt \/ x.1 = Err EOFError)) S (import_prog mx_inv).
Proof.
have gt := init_good; split; first by split; [by rewrite inE eqxx|split=> //; left|split=> //; right].
apply: safe_bind (matrix_safe 1 S gt) _ => S' [r t'] /= [gt' rt].
case: rt => ->; last by split=> //; right.
by apply: (@safe_write _ _ _ (2%N, 0%N)); split=> //; left.
Qed.

(** What a process answers to its calls. *)
Lemma calls_safe cs0 cs t out S : good_tabs t -> List.Forall2 right_arg cs0 out ->
  safe (fun out' => List.Forall2 right_arg (cs0 ++ cs) out') S (calls_prog mx_inv cs t out).
Proof.
elim: cs cs0 t out S => [|[inv n] cs IH] cs0 t out S gt F; first by rewrite cats0.
apply: safe_bind (call_safe inv n S gt) _ => S' [r t'] [gt' R] /=.
rewrite -cat_rcons; apply: IH => //; rewrite -!cats1.
by apply: List.Forall2_app => //; constructor.
Qed.

Definition outcome_ok (cs : seq (bool * pyarg)) (x : res (seq (res rmatrix))) : Prop :=
  x = Err EOFError \/ exists2 out, x = Ok out & List.Forall2 right_arg cs out.
Lemma session_safe cs S : safe (outcome_ok cs) S (session mx_inv cs).
Proof.
apply: safe_bind (import_safe S) _ => S' [r t] /= [gt R].
case: R => ->; last by left.
apply: safe_bind (@calls_safe [::] cs t [::] S' gt _) _ => [|S2 out H]; first by constructor.
by right; exists out.
Qed.

(** ** The system *)
Section System.
Variables (A : Type) (Q : nat -> A -> Prop).

(** The files known to process [i] exist. *)
Definition known (S : seq fname) (d : disk) : Prop := forall k, k \in S -> dmem d k.
Definition sys_ok (s : system A) : Prop :=
  sane_disk mx_inv s.2 /\
  forall i p, pyget s.1 i = Ok p -> exists2 S, known S s.2 & safe (Q i) S p.

Lemma known_dset S d k f : known S d -> known S (dset d k f).
Proof. by move=> K k' /K; rewrite !dmem_get dget_dset; case: eqVneq. Qed.

Lemma pstep_ok (P : A -> Prop) S p d : sane_disk mx_inv d -> known S d -> safe P S p ->
  sane_disk mx_inv (pstep p d).2 /\ exists2 S', known S' (pstep p d).2 & safe P S' (pstep p d).1.
Proof.
move=> sd K; case: p => [a|k f|k f|k p|k m p] /=.
- by split=> //; exists S.
- case=> H1 H2; split=> //; case E : (dmem d k); last by exists S.
  by exists (k :: S) => // k'; rewrite inE => /orP[/eqP ->|/K].
- case=> kS H1 H2; split=> //; exists S => //; move: (K _ kS); rewrite dmem_get.
  by case E : (dget d k) => [f'|//] _; case: (sd _ _ E) => ->.
- by case=> H _; split; [apply: sane_dset => //; left|exists S => //; exact: known_dset].
- by case=> -> H; split; [apply: sane_dset => //; right|exists S => //; exact: known_dset].
Qed.
Lemma pstep_grows S p d : known S d -> known S (@pstep A p d).2.
Proof. by move=> K; case: p => //= *; exact: known_dset. Qed.

Lemma pyget_upd (T : Type) (l : seq T) i x j : (i < size l)%N ->
  pyget (take i l ++ x :: drop i.+1 l) j = if j == i then Ok x else pyget l j.
Proof.
elim: l i j => [//|y l IH] [|i] [|j] //= lt; first by rewrite /pyget /= drop0.
by rewrite -[LHS]/(pyget (take i l ++ x :: drop i.+1 l) j) IH.
Qed.

Lemma sys_step_ok s i : sys_ok s -> sys_ok (sys_step s i).
Proof.
case: s => ps d [sd H]; rewrite /sys_step /=; case E : (drop i ps) => [//|p r].
have lt : (i < size ps)%N by rewrite ltnNge; apply/negP => ge; rewrite drop_oversize in E.
have Ep : pyget ps i = Ok p by rewrite /pyget E.
have [S K sp] := H _ _ Ep; have := pstep_ok sd K sp.
have G := @pstep_grows _ p d; case: (pstep p d) G => p' d' G [sd' [S' K' sp']].
split=> //= j q; rewrite pyget_upd //; case: eqP => [-> [<-]|_ Eq]; first by exists S'.
by have [S2 K2 s2] := H _ _ Eq; exists S2 => //; exact: G.
Qed.
Lemma sys_run_ok sched s : sys_ok s -> sys_ok (sys_run s sched).
Proof. by elim: sched s => [//|i sched IH] s H; exact: IH (sys_step_ok i H). Qed.
Lemma ended_ok s i a : sys_ok s -> ended s i = Some a -> Q i a.
Proof.
case=> _ H; rewrite /ended; case E : (drop i s.1) => [//|[a'||||] r] // [<-].
by have [|S _] := H i (Ret a'); first by rewrite /pyget E.
Qed.

(** An incomplete file is being written. *)
Definition writing (s : system A) : Prop :=
  forall k, dget s.2 k = Ok Partial -> exists i m p, pyget s.1 i = Ok (Dump k m p).
Lemma sys_step_writing s i : sys_ok s -> writing s -> writing (sys_step s i).
Proof.
case: s => ps d [_ H] W; rewrite /sys_step /=; case E : (drop i ps) => [//|p r].
have lt : (i < size ps)%N by rewrite ltnNge; apply/negP => ge; rewrite drop_oversize in E.
have Ep : pyget ps i = Ok p by rewrite /pyget E.
have [S _ sp] := H _ _ Ep.
have other k p' : dget d k = Ok Partial -> (forall m q, p <> Dump k m q) ->
    exists j m q, pyget (take i ps ++ p' :: drop i.+1 ps) j = Ok (Dump k m q).
  move=> /W[j [m [q Eq]]] N; exists j, m, q; rewrite pyget_upd //; case: eqP => [Ej|//].
  by move: Eq; rewrite /= Ej Ep => -[/N].
move=> k; case: p Ep sp other {E} => [a|k' f|k' f|k' q|k' m q] Ep sp other /=.
- by move=> /other; apply.
- by move=> /other; apply.
- by move=> /other; apply.
- rewrite dget_dset; case: eqVneq => [-> _|_ /other]; last by apply.
  by case: sp => _ [m [q' ->]]; exists i, m, q'; rewrite pyget_upd // eqxx.
- rewrite dget_dset; case: eqVneq => [//|ne /other]; apply=> m' q' [Ek _ _].
  by rewrite Ek eqxx in ne.
Qed.
Lemma sys_run_writing sched s : sys_ok s -> writing s -> writing (sys_run s sched).
Proof.
elim: sched s => [//|i sched IH] s H W; apply: IH; [exact: sys_step_ok|exact: sys_step_writing].
Qed.
Lemma all_ended_good s : sys_ok s -> writing s -> all_ended s -> good_disk mx_inv s.2.
Proof.
case=> sd _ W al k f E; case: (sd _ _ E) => // Ef; rewrite Ef in E.
have [i [m [p]]] := W _ E; rewrite /pyget => Ed.
have : all (fun p => if p is Ret _ then true else false) (drop i s.1).
  by move: al; rewrite /all_ended -{1}(cat_take_drop i s.1) all_cat => /andP[].
by case: (drop i s.1) Ed => // p' l [->].
Qed.
End System.

(** ** Every process ends after a bounded number of its own steps *)
Fixpoint within (A : Type) (N : nat) (p : prog A) {struct p} : Prop :=
  match p, N with
  | Ret _, _ => True
  | _, 0 => False
  | Hit _ f, N'.+1 => forall b, within N' (f b)
  | Read _ f, N'.+1 => forall r, within N' (f r)
  | Open _ p, N'.+1 => within N' p
  | Dump _ _ p, N'.+1 => within N' p
  end.
Lemma within_le A N M (p : prog A) : within N p -> (N <= M)%N -> within M p.
Proof.
elim: p N M => [a|k f IH|k f IH|k p IH|k m p IH] [|N] [|M] //= H le.
- by move=> b; exact: IH (H b) le.
- by move=> b; exact: IH (H b) le.
- exact: IH H le.
- exact: IH H le.
Qed.
Lemma within_bind A B N M (p : prog A) (g : A -> prog B) : within N p -> (forall a, within M (g a)) ->
  within (N + M) (pbind p g).
Proof.
move=> + G; elim: p N => [a N|k f IH [|N]|k f IH [|N]|k p IH [|N]|k m p IH [|N]] //= H.
- by apply: within_le (G a) _; lia.
- by move=> b; exact: IH (H b).
- by move=> b; exact: IH (H b).
- exact: IH H.
- exact: IH H.
Qed.
Lemma within0 A (p : prog A) : within 0 p -> exists a, p = Ret a.
Proof. by case: p => // a; exists a. Qed.

Lemma matrix_within n t : within (3 * minn n 5) (matrix_prog n t).
Proof.
elim: n t => [//|n IH] t; cbn [matrix_prog].
case: (dget t.1 n.+1) => [//|_]; case: ifP => [//|le].
have -> : (3 * minn n.+1 5 = (3 * minn n 5 + 2).+1)%N by lia.
case=> /=; first by move: (_ + 2)%N (addn2 (3 * minn n 5)) => ? ->.
by apply: within_bind (IH t) _ => -[[m|e] t'] //=; case: (dget _ _).
Qed.
Lemma call_within inv n t : within 18 (call_prog mx_inv inv n t).
Proof.
have le k : (3 * minn k 5 <= 15)%N by lia.
case: n => [[n|n]|] //; case: inv => /=; last exact: within_le (matrix_within n t) (leq_trans (le n) _).
rewrite /inverse_prog; case: ifP => // _; case: (dget t.2 n) => [//|_]; case: ifP => // _.
case=> //; apply: within_le (within_bind (M := 2) (matrix_within n t) _) _ => [[[m|e] t'] //|].
by have := le n; lia.
Qed.
Lemma import_within : within 6 (import_prog mx_inv).
Proof. by rewrite /import_prog /=; case. Qed.
Lemma calls_within cs t out : within (18 * size cs) (calls_prog mx_inv cs t out).
Proof.
elim: cs t out => [//|c cs IH] t out; rewrite [size _]/= mulnS.
by apply: within_bind (call_within _ _ _) _ => x; exact: IH.
Qed.
Lemma session_within cs : within (6 + 18 * size cs) (session mx_inv cs).
Proof.
apply: within_bind import_within _ => -[[u|e] t] //=.
by rewrite -[X in within X]addn0; apply: within_bind (calls_within _ _ _) _.
Qed.

Lemma run_within A (s : system A) sched i p N : pyget s.1 i = Ok p -> within N p ->
  exists2 p', pyget (sys_run s sched).1 i = Ok p' & within (N - count_mem i sched) p'.
Proof.
elim: sched s p N => [|j sched IH] s p N Ep W; first by exists p => //; rewrite subn0.
suff [p' Ep' W'] : exists2 p', pyget (sys_step s j).1 i = Ok p' & within (N - (j == i)) p'.
  by have [q Eq Wq] := IH _ _ _ Ep' W'; exists q => //; rewrite /= subnDA.
rewrite /sys_step; case E : (drop j s.1) => [|q r].
  by exists p => //; apply: within_le W _; case: eqP Ep => [<-|_ _]; [rewrite /pyget E|rewrite subn0].
have lt : (j < size s.1)%N by rewrite ltnNge; apply/negP => ge; rewrite drop_oversize in E.
case Es : (pstep q s.2) => [q' d'] /=; rewrite pyget_upd //.
case: (eqVneq j i) => [Ei|ne]; last by exists p => //; rewrite subn0.
exists q' => //.
move: Ep; rewrite -Ei /pyget E => -[Eq]; move: Es; rewrite Eq.
case: p W {Eq Ei lt E} => [a|k f|k f|k p|k m p]; case: N => [|N] //= W [<- _]; rewrite ?subn1 //=.
Qed.
Lemma wait_free (css : seq (seq (bool * pyarg))) d sched i cs : pyget css i = Ok cs ->
  (6 + 18 * size cs <= count_mem i sched)%N ->
  exists x, ended (sys_run ([seq session mx_inv cs | cs <- css], d) sched) i = Some x.
Proof.
move=> Ec le; have Ep : pyget [seq session mx_inv cs | cs <- css] i = Ok (session mx_inv cs).
  by move: Ec; rewrite /pyget -map_drop; case: (drop i css) => // c r [->].
have [p Ep' W] := @run_within _ (_, d) sched _ _ _ Ep (session_within cs).
have Z : (6 + 18 * size cs - count_mem i sched = 0)%N by apply/eqP; rewrite subn_eq0.
rewrite Z in W; have [a Ea] := within0 W; move: Ep'; rewrite Ea.
by rewrite /pyget /ended; case: (drop i _) => // p' l [->]; exists a.
Qed.

(** ** Results *)
Lemma sessions_ok css : sys_ok (fun i x => forall cs, pyget css i = Ok cs -> outcome_ok cs x)
  ([seq session mx_inv cs | cs <- css], [::]).
Proof.
split=> // i p; rewrite /pyget -map_drop; case E : (drop i css) => [//|cs r] [<-].
exists [::] => //; apply: safe_weak (session_safe cs [::]) => x H cs'; by case=> <-.
Qed.

Lemma calls_alone_good cs s out : good mx_inv s ->
  exists out' d, prun (calls_prog mx_inv cs (tabs s) out) (files s) = (out ++ out', d) /\
    List.Forall2 (fun c r => if in_range c.2 then r = Ok (value_of mx_inv c.1 (arg_nat c.2)) else exists e, r = Err e) cs out'.
Proof.
elim: cs s out => [|[inv n] cs IH] s out gs; first by exists [::], (files s); rewrite cats0; split; [|constructor].
cbn [calls_prog]; rewrite prun_bind call_alone; cbn [fst snd].
case hn : (in_range n).
  have [s' -> gs'] := call_good inv gs hn; have [o [d [E F]]] := IH s' (rcons out (Ok (value_of mx_inv inv (arg_nat n)))) gs'.
  exists (Ok (value_of mx_inv inv (arg_nat n)) :: o), d; rewrite -cat_rcons; split=> //.
  by constructor=> //=; rewrite hn.
have [e ->] := call_bad inv gs hn; have [o [d [E F]]] := IH s (rcons out (Err e)) gs.
exists (Err e :: o), d; rewrite -cat_rcons; split=> //.
by constructor=> //=; rewrite hn; exists e.
Qed.
Lemma session_alone_good cs d0 : good_disk mx_inv d0 ->
  exists out d, prun (session mx_inv cs) d0 = (Ok out, d) /\
    List.Forall2 (fun c r => if in_range c.2 then r = Ok (value_of mx_inv c.1 (arg_nat c.2)) else exists e, r = Err e) cs out.
Proof.
move=> gd; rewrite /session prun_bind import_alone; have [s -> gs] := import_good gd; cbn [fst snd].
by rewrite prun_bind; have [out [d [-> F]]] := calls_alone_good cs [::] gs; exists out, d.
Qed.

Hypothesis mx_inv_c : inv_contract mx_inv.
Lemma right_arg_answer c r : right_arg c r -> answer_or_eof c r.
Proof.
rewrite /right_arg; case: in_rangeP => hr h; split.
- move=> k hk; case: h => ->; [right|by left]; eexists; first by [].
  by rewrite (valid_arg_nat hk); apply: value_of_expected => //; case: hk => _ /andP[].
- by case: hr => k hk /(_ k).
- by move=> k hk; case: hr; exists k.
- by [].
Qed.
Lemma good_answer c r : (if in_range c.2 then r = Ok (value_of mx_inv c.1 (arg_nat c.2)) else exists e, r = Err e) ->
  answer c r.
Proof.
case: in_rangeP => hr h; split.
- move=> k hk; rewrite h; eexists; first by [].
  by rewrite (valid_arg_nat hk); apply: value_of_expected => //; case: hk => _ /andP[].
- by case: hr => k hk /(_ k).
- by move=> k hk; case: hr; exists k.
- by [].
Qed.
Lemma Forall2_weak A B (P Q : A -> B -> Prop) l l' : (forall a b, P a b -> Q a b) -> List.Forall2 P l l' -> List.Forall2 Q l l'.
Proof. by move=> PQ; elim=> *; constructor; auto. Qed.

Lemma par_never_wrong css sched i cs x : pyget css i = Ok cs ->
  ended (sys_run ([seq session mx_inv cs | cs <- css], [::]) sched) i = Some x ->
  x = Err EOFError \/ exists2 out, x = Ok out & List.Forall2 answer_or_eof cs out.
Proof.
move=> Ec /(ended_ok (sys_run_ok sched (sessions_ok css))) /(_ _ Ec) [->|[out -> F]]; first by left.
by right; exists out => //; exact: Forall2_weak right_arg_answer F.
Qed.
Lemma par_no_damage css sched cs :
  let s := sys_run ([seq session mx_inv cs | cs <- css], [::]) sched in all_ended s ->
  exists out d, prun (session mx_inv cs) s.2 = (Ok out, d) /\ List.Forall2 answer cs out.
Proof.
move=> s al; have ok := sys_run_ok sched (sessions_ok css).
have W : writing s by apply: (sys_run_writing (sessions_ok css)).
have [out [d [E F]]] := session_alone_good cs (all_ended_good ok W al).
by exists out, d; split=> //; exact: Forall2_weak good_answer F.
Qed.
End Facts.

(** ** Examples *)
(** Process 0 opens the file of the module; process 1 finds and reads it;
    process 0 completes it. *)
Lemma par_refuted (mx_inv : rmatrix -> rmatrix) :
  let s := sys_run ([seq session mx_inv cs | cs <- [:: [::]; [::]]], [::]) [:: 0; 0; 1; 1; 0]%N in
  [/\ all_ended s, ended s 0 = Some (Ok [::]) & ended s 1 = Some (Err EOFError)].
Proof. by []. Qed.

(** Two processes write the second matrix at the same time, a third one fails in
    between; all goes well for the first two. *)
Definition css107 : seq (seq (bool * pyarg)) :=
  [:: [:: (false, PyInt 2)]; [:: (false, PyInt 2); (false, PyInt 6)]; [:: (false, PyInt 2)]].
Definition sched107 : seq nat := [:: 0; 0; 0; 1; 1; 2; 2; 0; 1; 0; 0; 1; 2; 2; 1]%N.
Definition kinds (x : option (res (seq (res rmatrix)))) : seq (option bool) :=
  if x is Some (Ok l) then [seq (match r with Ok m => Some (m == sign_matrix 2) | Err EOFError => Some false | _ => None end) | r <- l]
  else [::].
Lemma ex107 : let s := sys_run ([seq session inv_run cs | cs <- css107], [::]) sched107 in
  [/\ all_ended s, kinds (ended s 0) = [:: Some true], kinds (ended s 1) = [:: Some true; None] &
      kinds (ended s 2) = [:: Some false]].
Proof. by vm_compute. Qed.
