(** Facts about the main loop of GRF/test.py. *)
From mathcomp Require Import all_ssreflect all_algebra.
From mathcomp.zify Require Import zify.
From Verif Require Import Py GrfSmt GrfCheck GrfLoop GrfSched.

Set Implicit Arguments.
Unset Strict Implicit.
Unset Printing Implicit Defensive.
Import GRing.Theory Num.Theory Order.Theory.
Local Open Scope ring_scope.

Section Facts.
Variables (R : realDomainType) (param : Type).
Local Notation sched := (sched R param).
Local Notation proc := (proc R param).
Local Notation report := (report R param).
Variables (E : env R) (Timeout : R) (Cores : nat).
Implicit Types (s : sched) (p : proc) (r : report) (l : seq proc) (params : seq param).

(** *** What a line is about *)
Definition line_id r : nat := match r with Finished i _ _ _ => i | TimedOut i _ => i end.
Definition line_params r : param := match r with Finished _ p _ _ => p | TimedOut _ p => p end.

(** The line is justified: the process had exited and its result was there,
    or the process was alive after the time had run out. *)
Definition justified r : Prop :=
  match r with
  | Finished i _ el h => exists t j t' j' res,
      [/\ ~~ alive E t i, return_dict E t i = Some res, h = hides res & el = clock E t j - clock_start E t' j']
  | TimedOut i _ => exists t j t' j', alive E t i /\ Timeout < clock E t j - clock_start E t' j'
  end.

(** The invariant; [params] are the parameters the harness was started with. *)
Record good (params : seq param) s : Prop := Good {
  good_PQ : PQ s = size (param_queue s);
  good_RQ : RQ s = size (running_queue s);
  good_cores : (size (running_queue s) <= Cores)%N;
  good_master : master_id s = (size params - size (param_queue s)).+1;
  good_queue : exists n, param_queue s = take n params;
  good_ids : perm_eq (map (@pid R param) (running_queue s) ++ map line_id (lines s)) (iota 1 (master_id s).-1);
  good_procs : forall p, List.In p (running_queue s) ->
    pyget (rev params) (pid p).-1 = Ok (pparams p) /\ exists t i, start_time p = clock_start E t i;
  good_lines : forall r, List.In r (lines s) ->
    pyget (rev params) (line_id r).-1 = Ok (line_params r) /\ justified r
}.

Lemma good_asserts params s : good params s -> asserts s.
Proof. by move=> G; rewrite /asserts (good_PQ G) (good_RQ G) !eqxx. Qed.

Lemma init_good params : good params (init R params).
Proof. by split=> //=; [rewrite subnn|exists (size params); rewrite take_size]. Qed.

Lemma In_rcons (T : Type) (l : seq T) x y : List.In y (rcons l x) <-> List.In y l \/ y = x.
Proof.
elim: l => [|z l IH] /=; first by split=> [[]|[]] // ->; [right|left].
by rewrite IH; split=> [[|[]]|[[]|]]; intuition.
Qed.

Lemma In_pop (T : Type) (l : seq T) i x : List.In x (pop l i) -> List.In x l.
Proof.
rewrite /pop => H; rewrite -(cat_take_drop i l); apply: List.in_or_app.
case: (List.in_app_or _ _ _ H) => I; [by left|right].
case E1 : (drop i l) I => [|y l'].
  have -> : drop i.+1 l = [::] by rewrite -add1n -drop_drop E1.
  by [].
have -> : drop i.+1 l = l' by rewrite -add1n -drop_drop E1 /= drop0.
by move=> I; right.
Qed.

Lemma pop_perm l i p : pyget l i = Ok p ->
  perm_eq (map (@pid R param) l) (pid p :: map (@pid R param) (pop l i)) /\ size l = (size (pop l i)).+1.
Proof.
rewrite /pyget; case E1 : (drop i l) => [//|y l'] [<-].
have E2 : drop i.+1 l = l' by rewrite -add1n -drop_drop E1 /= drop0.
split.
  rewrite -{1}(cat_take_drop i l) E1 /pop E2 !map_cat /=.
  by rewrite -cat1s perm_catCA.
by rewrite -{1}(cat_take_drop i l) E1 /pop E2 !size_cat /= addnS.
Qed.

Lemma remove_good params s i p r : good params s -> pyget (running_queue s) i = Ok p ->
  line_id r = pid p -> line_params r = pparams p -> justified r -> good params (remove s i r).
Proof.
case=> g1 g2 g3 g4 g5 g6 g7 g8 Ei Ir Pr J; have [P1 S1] := pop_perm Ei.
have Ip : List.In p (running_queue s).
  move: Ei; rewrite /pyget; case E1 : (drop _ _) => [//|y l'] [<-].
  by rewrite -(cat_take_drop i (running_queue s)) E1; apply: List.in_or_app; right; left.
split=> //=.
- by rewrite g2 S1.
- by apply: leq_trans g3; rewrite S1.
- apply: seq.perm_trans g6; rewrite map_rcons Ir -cats1; apply/permP => q.
  by rewrite !count_cat (permP P1 q) /=; lia.
- by move=> q Iq; apply: g7; exact: In_pop Iq.
move=> q Iq; have [Jq|->] := (proj1 (In_rcons _ _ _) Iq); first exact: g8.
split=> //; rewrite Ir Pr; exact: (proj1 (g7 _ Ip)).
Qed.

(** A round over the queue: nothing changes, or one job leaves, or a process
    has exited without a result. *)
Definition due t i p : bool := ~~ alive E t (pid p) || (Timeout < clock E t i - start_time p).

Lemma pollP params t n i s : good params s -> (i + n = RQ s)%N ->
  match poll E Timeout t n i s with
  | Ok s1 => good params s1 /\
      (s1 = s /\ (forall j p, (i <= j)%N -> pyget (running_queue s) j = Ok p -> ~~ due t j p) \/
       [/\ PQ s1 = PQ s, (RQ s1).+1 = RQ s & param_queue s1 = param_queue s])
  | Err e => e = KeyError /\ exists p, [/\ List.In p (running_queue s), ~~ alive E t (pid p) &
       return_dict E t (pid p) = None]
  end.
Proof.
move=> G; elim: n i => [|n IH] i Ei /=.
  split=> //; left; split=> // j p le; rewrite /pyget drop_oversize //.
  by rewrite -(good_RQ G) -Ei addn0.
have lt : (i < size (running_queue s))%N by rewrite -(good_RQ G) -Ei; lia.
have [p Ep] := pyget_nth lt; rewrite Ep bind_ok.
have [P1 S1] := pop_perm Ep.
have Ip : List.In p (running_queue s).
  move: Ep; rewrite /pyget; case E1 : (drop _ _) => [//|y l'] [<-].
  by rewrite -(cat_take_drop i (running_queue s)) E1; apply: List.in_or_app; right; left.
have [_ [t' [j' St]]] := good_procs G Ip.
case: ifP => Al.
  case Rd : (return_dict E t (pid p)) => [rr|]; last by split=> //; exists p; split.
  split; last by right; split=> //=; rewrite (good_RQ G) S1.
  apply: remove_good Ep _ _ _ => //=; exists t, i, t', j', rr; by rewrite St.
move/negbFE: Al => Al; case: ifP => To.
  split; last by right; split=> //=; rewrite (good_RQ G) S1.
  by apply: remove_good Ep _ _ _ => //=; exists t, i, t', j'; rewrite -St.
have := IH i.+1; rewrite addSn -addnS => /(_ Ei); case: (poll _ _ _ _ _ _) => [s1|e] //.
case=> G1 [[-> Nd]|]; [split=> //; left; split=> //|by split=> //; right].
move=> j q; rewrite leq_eqVlt => /orP[/eqP <-|lj]; last exact: Nd.
by rewrite Ep => -[<-]; rewrite /due Al To.
Qed.

Lemma pylast_rcons (T : Type) (l : seq T) x : pylast (rcons l x) = Ok x.
Proof. by case: l => //= y l; rewrite last_rcons. Qed.
Lemma pybutlast_rcons (T : Type) (l : seq T) x : pybutlast (rcons l x) = l.
Proof. by rewrite /pybutlast size_rcons -cats1 take_size_cat. Qed.

Lemma restockP params fuel t i s : good params s -> (PQ s <= fuel)%N ->
  exists2 s1, restock E Cores fuel t i s = Ok s1 &
    [/\ good params s1, (PQ s1 + RQ s1 = PQ s + RQ s)%N, (RQ s <= RQ s1)%N,
        (PQ s1 == 0)%N || (Cores <= RQ s1)%N &
        exists l, running_queue s1 = running_queue s ++ l].
Proof.
elim: fuel i s => [|fuel IH] i s G le /=.
  have -> : (0 < PQ s)%N = false by lia.
  by exists s; split=> //; [apply/orP; left; lia|exists [::]; rewrite cats0].
case: ifP => [/andP[Pp Rc]|N]; last first.
  exists s => //; split=> //; last by exists [::]; rewrite cats0.
  by move: N; case: (PQ s) => //= q; lia.
have [g1 g2 g3 g4 [n g5] g6 g7 g8] := G.
case: (lastP (param_queue s)) g1 g4 g5 Pp => [|pq x] g1 g4 g5 Pp; first by rewrite g1 in Pp.
rewrite pylast_rcons bind_ok pybutlast_rcons; set s2 := Sched _ _ _ _ _ _.
have Sn : (size pq < size params)%N.
  by have := congr1 size g5; rewrite size_rcons size_take; case: ltnP; lia.
have Epq : pq = take (size pq) params /\ pyget (rev params) (size params - (size pq).+1) = Ok x.
  have Ep : params = rcons pq x ++ drop n params by rewrite g5 cat_take_drop.
  split; first by rewrite Ep cat_rcons take_size_cat.
  rewrite {1}Ep rev_cat rev_rcons /pyget drop_size_cat // size_rev.
  by have := congr1 size Ep; rewrite size_cat size_rcons; lia.
have Em : master_id s = (size params - size pq)%N by rewrite g4 size_rcons; lia.
have G2 : good params s2.
  split=> //=.
  - by rewrite g1 size_rcons.
  - by rewrite size_rcons g2.
  - by rewrite size_rcons -g2.
  - by rewrite Em.
  - by exists (size pq); case: Epq.
  - have -> : iota 1 (master_id s) = iota 1 (master_id s).-1 ++ [:: master_id s].
      have {1}-> : master_id s = ((master_id s).-1 + 1)%N by lia.
      by rewrite iotaD /=; congr (_ ++ [:: _]); lia.
    rewrite map_rcons -cats1; apply/permP => q; have := permP g6 q; rewrite !count_cat /=; lia.
  move=> p Iq; have [Jq|->] := (proj1 (In_rcons _ _ _) Iq); first exact: g7.
  split=> /=; last by exists t, i.
  by rewrite Em -subnS; case: Epq.
have [|s1 E1 [G1 S1 le1 D1 [l El]]] := IH i.+1 _ G2; first by rewrite /s2 /=; lia.
exists s1 => //; split=> //; first by rewrite S1 /s2 /=; lia.
  by apply: leq_trans le1; rewrite /s2 /=.
by exists (Proc (master_id s) (clock_start E t i) x :: l); rewrite El /s2 /= cat_rcons.
Qed.

(** *** One iteration *)
Definition crashed t s : Prop := exists p, [/\ List.In p (running_queue s), ~~ alive E t (pid p) &
  return_dict E t (pid p) = None].
Definition measure s : nat := (2 * PQ s + RQ s)%N.

Lemma iterationP params t s : good params s ->
  match iteration E Timeout Cores t s with
  | Ok s1 => good params s1 /\
      ((measure s1 < measure s)%N \/
       [/\ measure s1 = measure s, running_queue s1 = running_queue s,
           (forall j p, pyget (running_queue s) j = Ok p -> ~~ due t j p) &
           (PQ s1 == 0)%N || (Cores <= RQ s1)%N])
  | Err e => e = KeyError /\ crashed t s
  end.
Proof.
move=> G; rewrite /iteration (good_asserts G) /=.
have := @pollP params t (RQ s) 0 s G erefl; case: (poll _ _ _ _ _ _) => [s1|e] //= [G1 H].
rewrite (good_asserts G1) /=; have [s2 -> [G2 S2 le D [l El]]] := restockP t 0 G1 (leqnn _).
split=> //; case: H => [[E1 Nd]|[Ep Er _]]; last by left; rewrite /measure; lia.
subst s1; have [lt|ge] := ltnP (measure s2) (measure s); [by left|right].
have [EP ER] : PQ s2 = PQ s /\ RQ s2 = RQ s by move: ge; rewrite /measure; lia.
split=> //; first by rewrite /measure EP ER.
- rewrite El; have := congr1 size El; rewrite size_cat -(good_RQ G) -(good_RQ G2) ER => Sl.
  have -> : l = [::] by apply/nilP; rewrite /nilp; lia.
  by rewrite cats0.
by move=> j p; exact: Nd.
Qed.

(** The state after [n] iterations. *)
Fixpoint after (params : seq param) (n : nat) : res sched :=
  if n is n'.+1 then let! s := after params n' in iteration E Timeout Cores n' s else Ok (init R params).

Theorem after_safe params n :
  match after params n with
  | Ok s => [/\ PQ s = size (param_queue s), RQ s = size (running_queue s),
                (size (running_queue s) <= Cores)%N &
                uniq (map (@pid R param) (running_queue s) ++ map line_id (lines s))]
  | Err e => e = KeyError
  end.
Proof.
suff : match after params n with Ok s => good params s | Err e => e = KeyError end.
  case: (after params n) => // s [g1 g2 g3 _ _ g6 _ _]; split=> //.
  by rewrite (perm_uniq g6) iota_uniq.
elim: n => [|n IH] /=; first exact: init_good.
case: (after params n) IH => //= s G; have := iterationP n G.
by case: (iteration _ _ _ _ _) => [s1|e] [].
Qed.

(** *** The whole run *)
Lemma run_good params fuel t s : good params s ->
  match run E Timeout Cores fuel t s with
  | Ok s1 => good params s1 /\ (PQ s1 = 0 /\ RQ s1 = 0)%N
  | Err e => e = OutOfFuel \/ e = KeyError /\ exists t' i,
      [/\ (0 < i <= size params)%N, ~~ alive E t' i & return_dict E t' i = None]
  end.
Proof.
elim: fuel t s => [|fuel IH] t s G /=; case: ifP => H.
- by left.
- by split=> //; move: H; case: (PQ s); case: (RQ s).
- have := iterationP t G; case: (iteration _ _ _ _ _) => [s1|e] /=; first by case=> G1 _; exact: IH.
  case=> -> [p [Ip Al Rd]]; right; split=> //; exists t, (pid p); split=> //.
  have : pid p \in iota 1 (master_id s).-1.
    rewrite -(perm_mem (good_ids G)) mem_cat; apply/orP; left.
    by elim: (running_queue s) Ip => //= q l IHl [<-|/IHl]; rewrite inE ?eqxx // => ->; rewrite orbT.
  by rewrite mem_iota (good_master G) /=; lia.
by split=> //; move: H; case: (PQ s); case: (RQ s).
Qed.

Theorem run_reports params fuel s : run E Timeout Cores fuel 0 (init R params) = Ok s ->
  perm_eq (map line_id (lines s)) (iota 1 (size params)) /\
  forall r, List.In r (lines s) -> pyget (rev params) (line_id r).-1 = Ok (line_params r) /\ justified r.
Proof.
move=> Er; have := run_good fuel 0 (init_good params); rewrite Er => -[[g1 g2 _ g4 _ g6 _ g8] [P0 R0]].
have S1 : size (param_queue s) = 0%N by rewrite -g1.
have S2 : running_queue s = [::] by apply/nilP; rewrite /nilp -g2 R0.
by split; [move: g6; rewrite S2 g4 S1 subn0|exact: g8].
Qed.

Theorem run_errors params fuel e : run E Timeout Cores fuel 0 (init R params) = Err e ->
  e = OutOfFuel \/ e = KeyError /\ exists t i,
    [/\ (0 < i <= size params)%N, ~~ alive E t i & return_dict E t i = None].
Proof. by move=> Er; have := run_good fuel 0 (init_good params); rewrite Er. Qed.

(** Every job exits or runs out of time in the end. *)
Definition eventually_due : Prop := forall i st, exists t0, forall t j, (t0 <= t)%N ->
  ~~ alive E t i || (Timeout < clock E t j - st).

Lemma run_ends params t s : eventually_due -> (0 < Cores)%N -> good params s ->
  exists fuel, (exists s1, run E Timeout Cores fuel t s = Ok s1) \/ run E Timeout Cores fuel t s = Err KeyError.
Proof.
move=> Due C0; have [m] := ubnP (measure s); elim: m t s => // m IH t s Lm G.
have step t' s' s1 : (0 < PQ s')%N || (0 < RQ s')%N -> iteration E Timeout Cores t' s' = Ok s1 ->
    (exists fuel, (exists s2, run E Timeout Cores fuel t'.+1 s1 = Ok s2) \/ run E Timeout Cores fuel t'.+1 s1 = Err KeyError) ->
    exists fuel, (exists s2, run E Timeout Cores fuel t' s' = Ok s2) \/ run E Timeout Cores fuel t' s' = Err KeyError.
  by move=> W Ei [fuel Hf]; exists fuel.+1; rewrite /= W Ei bind_ok.
have stop t' s' e : (0 < PQ s')%N || (0 < RQ s')%N -> iteration E Timeout Cores t' s' = Err e -> e = KeyError ->
    exists fuel, (exists s2, run E Timeout Cores fuel t' s' = Ok s2) \/ run E Timeout Cores fuel t' s' = Err KeyError.
  by move=> W + Ee; rewrite Ee => Ei; exists 1%N; right; rewrite /= W Ei.
case W : ((0 < PQ s)%N || (0 < RQ s)%N); last by exists 0%N; left; exists s; rewrite /= W.
case Rq : (running_queue s) => [|p l].
  have := iterationP t G; case Ei : (iteration _ _ _ _ _) => [s1|e]; last by case=> /(stop _ _ _ W Ei).
  case=> G1 [lt|[Em Eq _ D]]; first by apply: step W Ei _; apply: IH => //; lia.
  have R1 : RQ s1 = 0%N by rewrite (good_RQ G1) Eq Rq.
  have R0 : RQ s = 0%N by rewrite (good_RQ G) Rq.
  by move: Em W D; rewrite /measure R1 R0; lia.
have [t0 Ht0] := Due (pid p) (start_time p).
have [d] := ubnP (t0 - t)%N; elim: d t s Lm G W Rq => // d IHd t s Lm G W Rq Ld.
have := iterationP t G; case Ei : (iteration _ _ _ _ _) => [s1|e]; last by case=> /(stop _ _ _ W Ei).
case=> G1 [lt|[Em Eq Nd _]]; first by apply: step W Ei _; apply: IH => //; lia.
have Ep : pyget (running_queue s) 0 = Ok p by rewrite Rq.
have lt0 : (t < t0)%N.
  by rewrite ltnNge; apply/negP => le; have := Nd _ _ Ep; rewrite /due Ht0.
apply: step W Ei _; apply: IHd => //.
- by rewrite Em.
- by rewrite (good_RQ G1) Eq Rq /= orbT.
- by rewrite Eq.
- lia.
Qed.

Theorem run_terminates params : eventually_due -> (0 < Cores)%N ->
  (forall t i, ~~ alive E t i -> return_dict E t i <> None) ->
  exists fuel s, run E Timeout Cores fuel 0 (init R params) = Ok s.
Proof.
move=> Due C0 Nc; have [fuel [[s Es]|Es]] := run_ends 0 Due C0 (init_good params); first by exists fuel, s.
by have [|[_ [t [i [_ Al /(Nc _ _ Al)]]]]] := run_errors Es.
Qed.

(** A job that never gives a result and is not stopped in time ends it all. *)
Theorem run_crash params i : eventually_due -> (0 < Cores)%N -> (0 < i <= size params)%N ->
  (forall t, return_dict E t i = None) ->
  (forall t j t' j', alive E t i -> clock E t j - clock_start E t' j' <= Timeout) ->
  (forall fuel s, run E Timeout Cores fuel 0 (init R params) <> Ok s) /\
  exists fuel, run E Timeout Cores fuel 0 (init R params) = Err KeyError.
Proof.
move=> Due C0 Bi Rd Nt; have Nok fuel s : run E Timeout Cores fuel 0 (init R params) <> Ok s.
  move=> Er; have [Pi Hl] := run_reports Er.
  have : i \in map line_id (lines s) by rewrite (perm_mem Pi) mem_iota; lia.
  have : forall r, List.In r (lines s) -> justified r by move=> r /Hl[].
  elim: (lines s) => //= r l IHl J; rewrite inE => /orP[/eqP Ei|]; last first.
    by apply: IHl => q Iq; apply: J; right.
  have := J r (or_introl erefl); case: r Ei {J} => [k p el h|k p] /= <-.
    by case=> t [j [t' [j' [res [_]]]]]; rewrite Rd.
  by case=> t [j [t' [j' [Al]]]]; rewrite ltNge (Nt _ _ _ _ Al).
split=> //; have [fuel [[s /Nok //]|Er]] := run_ends 0 Due C0 (init_good params).
by exists fuel.
Qed.
End Facts.

(** Without cores nothing ever happens. *)
Theorem run_no_cores (R : realDomainType) (param : Type) (E : env R) (Timeout : R) (params : seq param) fuel :
  params <> [::] -> run E Timeout 0 fuel 0 (init R params) = Err OutOfFuel.
Proof.
case: params => // p l _; suff H : forall t, run E Timeout 0 fuel t (init R (p :: l)) = Err OutOfFuel by [].
elim: fuel => [//|fuel IH] t /=.
have -> : iteration E Timeout 0 t (init R (p :: l)) = Ok (init R (p :: l)).
  by rewrite /iteration /asserts /= eqxx.
exact: IH.
Qed.
