(** Proofs about CacheModel. *)
From mathcomp Require Import all_ssreflect all_algebra.
From mathcomp.zify Require Import zify.
From Coq Require Import String.
From Verif Require Import Py VtsModel VtsCount VtsDiscr VtsSpec VtsBridge.
From Verif Require Import CacheModel CacheSpec.

Set Implicit Arguments.
Unset Strict Implicit.
Unset Printing Implicit Defensive.
Import GRing.Theory.

Section Facts.
Variable mx_inv : rmatrix -> rmatrix.

Definition content (k : fname) : rmatrix :=
  match k with
  | (0, n) => sign_matrix n
  | (1, n) => mx_inv (sign_matrix n)
  | (_, _) => mx_inv sign_matrix1
  end.

Definition good_disk (d : disk) : Prop :=
  forall k f, dget d k = Ok f -> f = Whole (content k).
Definition good_memo (c : nat -> rmatrix) (l : memo) : Prop :=
  dget l 1%N = Ok (c 1%N) /\
  forall n m, dget l n = Ok m -> m = c n /\ (1 <= n <= 5)%N.
Definition good (s : proc) : Prop :=
  [/\ good_disk (files s), good_memo (fun n => content (0, n)) (lookup s) &
      good_memo (fun n => content (1, n)) (inv_lookup s)].

Lemma dmem_get (K : eqType) (V : Type) (d : dict K V) k :
  dmem d k = if dget d k is Ok _ then true else false.
Proof. by elim: d => [|[a w] d IH] //=; rewrite /dmem /= inE -/(dmem d k) IH; case: eqVneq. Qed.

Lemma good_put s k : good s -> good (write_to_cache k (content k) s).
Proof.
case=> hd hl hi; split=> // k' f; rewrite /write_to_cache /put_file /= !dget_dset.
by case: eqVneq => [->|_]; [case|exact: hd].
Qed.

Lemma good_memo_set c l n : good_memo c l -> (1 <= n <= 5)%N -> good_memo c (dset l n (c n)).
Proof.
case=> h1 h n5; split; first by rewrite dget_dset; case: eqVneq => [<-|_].
by move=> k m; rewrite dget_dset; case: eqVneq => [->|_]; [case=> <-|exact: h].
Qed.

Lemma read_good k s : good s -> cache_hit k s -> read_cache k s = Ok (content k).
Proof.
case=> hd _ _; rewrite /cache_hit dmem_get /read_cache.
by case E: (dget _ _) => [f|] // _; rewrite (hd _ _ E).
Qed.

Lemma get_matrix_good n s : good s -> (1 <= n <= 5)%N ->
  exists2 s', get_matrix_nat n s = (Ok (sign_matrix n), s') & good s'.
Proof.
elim: n s => [|n IH] s gs hn //; rewrite /get_matrix_nat -/get_matrix_nat.
have [hd hl hi] := gs.
case E: (dget (lookup s) n.+1) => [m|e].
  by exists s => //; have [-> _] := hl.2 _ _ E.
have n0 : (0 < n)%N by case: (n) E => //; rewrite hl.1.
have -> : (5 < n.+1)%N = false by lia.
case: ifP => [hit|_].
  rewrite (read_good gs hit); eexists; first by [].
  split=> //; exact: (good_memo_set (c := fun n => content (0, n))).
have [|s1 -> gs1] := IH s gs; first by lia.
have [hd1 hl1 hi1] := gs1; rewrite hl1.1.
have -> : tensor_product (sign_matrix n) (content (0%N, 1%N)) = sign_matrix n.+1 by case: (n) n0.
eexists; first by [].
have := @good_put _ (0%N, n.+1) gs1; case=> h1 h2 h3; split=> //.
exact: (good_memo_set (c := fun n => content (0, n))).
Qed.

Lemma get_inverse_good n s : good s -> (1 <= n <= 5)%N ->
  exists2 s', get_inverse_nat mx_inv n s = (Ok (mx_inv (sign_matrix n)), s') & good s'.
Proof.
move=> gs hn; have [hd hl hi] := gs; rewrite /get_inverse_nat.
have -> : (n < 1)%N = false by lia.
case E: (dget (inv_lookup s) n) => [m|e].
  by exists s => //; have [-> _] := hi.2 _ _ E.
have -> : (5 < n)%N = false by lia.
case: ifP => [hit|_].
  rewrite (read_good gs hit); eexists; first by [].
  split=> //; exact: (good_memo_set (c := fun n => content (1, n))).
have [s1 -> gs1] := get_matrix_good gs hn.
eexists; first by [].
have := @good_put _ (1%N, n) gs1; case=> h1 h2 h3; split=> //.
exact: (good_memo_set (c := fun n => content (1, n))).
Qed.

Definition in_range (n : pyarg) : bool :=
  if n is PyInt (Posz k) then (1 <= k <= 5)%N else false.
Definition arg_nat (n : pyarg) : nat := if n is PyInt (Posz k) then k else 0%N.

Lemma call_bad inv n s : good s -> in_range n = false ->
  exists e, call mx_inv inv n s = (Err e, s).
Proof.
case: n => [[k|k]|] gs /= hk; try by eexists.
have [hd hl hi] := gs.
have none (c : nat -> rmatrix) (l : memo) : good_memo c l ->
    exists e, dget l k = Err e.
  move=> h; case E: (dget l k) => [m|e]; last by exists e.
  by have [_] := h.2 _ _ E; rewrite hk.
case: inv.
  rewrite /get_inverse_nat; case: ifP => h1; first by eexists.
  have [e ->] := none _ _ hi; have -> : (5 < k)%N by lia.
  by eexists.
case: k hk none => [|k] hk none; first by eexists.
rewrite /get_matrix_nat -/get_matrix_nat; have [e ->] := none _ _ hl.
have -> : (5 < k.+1)%N by lia.
by eexists.
Qed.

Definition value_of (inv : bool) (n : nat) : rmatrix :=
  if inv then mx_inv (sign_matrix n) else sign_matrix n.

Lemma call_good inv n s : good s -> in_range n ->
  exists2 s', call mx_inv inv n s = (Ok (value_of inv (arg_nat n)), s') & good s'.
Proof.
case: n => [[k|k]|] gs //= hk; case: inv; last exact: get_matrix_good.
exact: get_inverse_good.
Qed.

Definition good_machine (m : machine) : Prop :=
  good_disk (mdisk m) /\ if mproc m is Some s then good s /\ files s = mdisk m else True.

Lemma import_good d : good_disk d ->
  exists2 s, import_module mx_inv d = (Ok tt, s) & good s.
Proof.
move=> gd; rewrite /import_module.
set s := MkProc _ _ _ _; have gs : good s.
  split=> //; split=> //= n m; case: eqVneq => [->|] //; by case=> <-.
case: ifP => hit; first by rewrite (read_good gs hit); exists s.
by eexists; first by []; exact: (@good_put _ (2%N, 0%N)).
Qed.

Lemma step_good e m : ~~ dies e -> good_machine m -> good_machine (step mx_inv e m).2.
Proof.
case: e => [|inv n|//|//] _ [gd gm] /=.
  by have [s -> gs] := import_good gd; have [? ? ?] := gs.
case E: (mproc m) gm => [s|] gm; last by split=> //=; rewrite E.
have [gs Es] := gm; case h: (in_range n).
  by have [s' -> gs'] := call_good inv gs h; have [? ? ?] := gs'.
by have [e ->] := call_bad inv gs h; have [? ? ?] := gs.
Qed.

Lemma run_good es m : ~~ has dies es -> good_machine m -> good_machine (run mx_inv es m).
Proof.
elim: es m => [|e es IH] m //=; rewrite negb_or => /andP[h1 h2] gm.
exact: IH (step_good h1 gm).
Qed.

Lemma fresh_good : good_machine fresh. Proof. by split. Qed.

(** After any history without a dying process, starting a new process works
    and every call in range gives the right matrix, others raise and change
    nothing. *)
Lemma cache_transparent es inv n : ~~ has dies es ->
  let m := run mx_inv es fresh in
  (exists s, step mx_inv Start m = (None, MkMachine (files s) (Some s))) /\
  forall s, mproc m = Some s ->
  if in_range n
  then exists m', step mx_inv (Call inv n) m = (Some (Ok (value_of inv (arg_nat n))), m')
  else exists e, step mx_inv (Call inv n) m = (Some (Err e), m).
Proof.
move=> h m; have [gd gp] : good_machine m by apply: run_good h fresh_good.
split; first by rewrite /step; have [s -> gs] := import_good gd; exists s.
move=> s E; rewrite E in gp; have [gs Es] := gp; rewrite /step E.
case: ifP => hn; first by have [s' -> _] := call_good inv gs hn; eexists.
by have [e ->] := call_bad inv gs hn; exists e; rewrite Es -E; case: (m).
Qed.

(** ** Histories in which processes die *)
(** Every file is either incomplete or has the right content. *)
Definition sane_disk (d : disk) : Prop :=
  forall k f, dget d k = Ok f -> f = Partial \/ f = Whole (content k).
Definition sane (s : proc) : Prop :=
  [/\ sane_disk (files s), good_memo (fun n => content (0, n)) (lookup s),
      good_memo (fun n => content (1, n)) (inv_lookup s) &
      List.Forall sane_disk (trace s)].

Lemma sane_dset d k f : sane_disk d -> f = Partial \/ f = Whole (content k) ->
  sane_disk (dset d k f).
Proof. by move=> sd hf k' f'; rewrite dget_dset; case: eqVneq => [->|_]; [case=> <-|exact: sd]. Qed.

Lemma sane_put s k : sane s -> sane (write_to_cache k (content k) s).
Proof.
case=> hd hl hi ht; split=> //=; first by do 2![apply: sane_dset; auto].
by do 2![constructor; first by do ?[apply: sane_dset; auto]].
Qed.

Lemma read_sane k s : sane s -> cache_hit k s ->
  read_cache k s = Ok (content k) \/ read_cache k s = Err EOFError.
Proof.
case=> hd _ _ _; rewrite /cache_hit dmem_get /read_cache.
by case E: (dget _ _) => [f|] // _; case: (hd _ _ E) => ->; [right|left].
Qed.

(** The right value or EOFError. *)
Definition right_or_eof (r : res rmatrix) (v : rmatrix) : Prop :=
  r = Ok v \/ r = Err EOFError.

Lemma get_matrix_sane n s : sane s -> (1 <= n <= 5)%N ->
  let: (r, s') := get_matrix_nat n s in right_or_eof r (sign_matrix n) /\ sane s'.
Proof.
elim: n s => [|n IH] s gs hn //; rewrite /get_matrix_nat -/get_matrix_nat.
have [hd hl hi ht] := gs.
case E: (dget (lookup s) n.+1) => [m|e].
  by have [-> _] := hl.2 _ _ E; split=> //; left.
have n0 : (0 < n)%N by case: (n) E => //; rewrite hl.1.
have -> : (5 < n.+1)%N = false by lia.
case: ifP => [hit|_].
  case: (read_sane gs hit) => ->; split=> //; [by left| |by right].
  split=> //; exact: (good_memo_set (c := fun n => content (0, n))).
have {IH} := IH s gs; case: (get_matrix_nat n s) => r s1 /(_ ltac:(lia)) [[]-> gs1]; last first.
  by split=> //; right.
have [hd1 hl1 hi1 ht1] := gs1; rewrite hl1.1.
have -> : tensor_product (sign_matrix n) (content (0%N, 1%N)) = sign_matrix n.+1 by case: (n) n0.
split; first by left.
have := @sane_put _ (0%N, n.+1) gs1; case=> h1 h2 h3 h4; split=> //.
exact: (good_memo_set (c := fun n => content (0, n))).
Qed.

Lemma get_inverse_sane n s : sane s -> (1 <= n <= 5)%N ->
  let: (r, s') := get_inverse_nat mx_inv n s in
  right_or_eof r (mx_inv (sign_matrix n)) /\ sane s'.
Proof.
move=> gs hn; have [hd hl hi ht] := gs; rewrite /get_inverse_nat.
have -> : (n < 1)%N = false by lia.
case E: (dget (inv_lookup s) n) => [m|e].
  by have [-> _] := hi.2 _ _ E; split=> //; left.
have -> : (5 < n)%N = false by lia.
case: ifP => [hit|_].
  case: (read_sane gs hit) => ->; split=> //; [by left| |by right].
  split=> //; exact: (good_memo_set (c := fun n => content (1, n))).
have := get_matrix_sane gs hn; case: (get_matrix_nat n s) => r s1 [[]-> gs1]; last first.
  by split=> //; right.
split; first by left.
have := @sane_put _ (1%N, n) gs1; case=> h1 h2 h3 h4; split=> //.
exact: (good_memo_set (c := fun n => content (1, n))).
Qed.

Lemma call_out_of_range inv n s : sane s -> in_range n = false ->
  exists2 e, call mx_inv inv n s = (Err e, s) & e <> EOFError.
Proof.
case: n => [[k|k]|] gs /= hk; try by eexists.
have [hd hl hi ht] := gs.
have none (c : nat -> rmatrix) (l : memo) : good_memo c l ->
    exists e, dget l k = Err e.
  move=> h; case E: (dget l k) => [m|e]; last by exists e.
  by have [_] := h.2 _ _ E; rewrite hk.
case: inv.
  rewrite /get_inverse_nat; case: ifP => h1; first by eexists.
  have [e ->] := none _ _ hi; have -> : (5 < k)%N by lia.
  by eexists.
case: k hk none => [|k] hk none; first by eexists.
rewrite /get_matrix_nat -/get_matrix_nat; have [e ->] := none _ _ hl.
have -> : (5 < k.+1)%N by lia.
by eexists.
Qed.

Lemma call_sane inv n s : sane s ->
  let: (r, s') := call mx_inv inv n s in
  (in_range n -> right_or_eof r (value_of inv (arg_nat n))) /\ sane s'.
Proof.
move=> gs; case h: (in_range n); last first.
  by have [e -> _] := call_out_of_range inv gs h.
case: n h => [[k|k]|] //= hk; case: inv => /=.
  by have := get_inverse_sane gs hk; case: get_inverse_nat => r s' [].
by have := get_matrix_sane gs hk; case: get_matrix_nat => r s' [].
Qed.

Lemma import_sane d : sane_disk d ->
  let: (r, s) := import_module mx_inv d in (r = Ok tt \/ r = Err EOFError) /\ sane s.
Proof.
move=> gd; rewrite /import_module.
set s := MkProc _ _ _ _; have gs : sane s.
  split=> //; last by constructor=> //; constructor.
    by split=> //= n m; case: eqVneq => [->|] //; case=> <-.
  by split=> //= n m; case: eqVneq => [->|] //; case=> <-.
case: ifP => hit; first by case: (read_sane gs hit) => ->; split=> //; auto.
split; first by left.
exact: (@sane_put _ (2%N, 0%N)).
Qed.

Definition sane_machine (m : machine) : Prop :=
  sane_disk (mdisk m) /\ if mproc m is Some s then sane s /\ files s = mdisk m else True.

Lemma sane_nth l d k : List.Forall sane_disk l -> sane_disk d -> sane_disk (nth d l k).
Proof. by elim: l k => [|x l IH] [|k] //= /List.Forall_cons_iff[h1 h2] hd; auto. Qed.

Lemma step_sane e m : sane_machine m -> sane_machine (step mx_inv e m).2.
Proof.
case: e => [|inv n|k|inv n k] [gd gm] /=.
- have := import_sane gd; case: import_module => r s [hr [h1 h2 h3 h4]].
  by case: hr => ->; split=> //=.
- case E: (mproc m) gm => [s|] gm; last by split=> //=; rewrite E.
  have [gs Es] := gm; have := call_sane inv n gs; case: call => r s' [_ gs'].
  by have [? ? ? ?] := gs'.
- have := import_sane gd; case: import_module => r s [hr [h1 h2 h3 h4]].
  by split=> //=; exact: sane_nth.
- case E: (mproc m) gm => [s|] gm; last by split=> //=; rewrite E.
  have [[h1 h2 h3 h4] Es] := gm.
  have gs : sane (MkProc (lookup s) (inv_lookup s) (files s) [:: files s]).
    by split=> //; constructor=> //; constructor.
  have := call_sane inv n gs; case: call => r s' [_ [? ? ? ?]].
  by split=> //=; exact: sane_nth.
Qed.

Lemma run_sane es m : sane_machine m -> sane_machine (run mx_inv es m).
Proof. by elim: es m => [|e es IH] m //= gm; exact: IH (step_sane e gm). Qed.

(** Whatever happened before, a wrong matrix is never returned. *)
Lemma cache_never_wrong es inv n s :
  let m := run mx_inv es fresh in
  mproc m = Some s ->
  if in_range n
  then exists r m', step mx_inv (Call inv n) m = (Some r, m') /\
       right_or_eof r (value_of inv (arg_nat n))
  else exists e, step mx_inv (Call inv n) m = (Some (Err e), m).
Proof.
move=> m E; have [gd gp] : sane_machine m by apply: run_sane; split.
rewrite E in gp; have [gs Es] := gp; rewrite /step E.
case: ifP => hn.
  have := call_sane inv n gs; case: call => r s' [/(_ hn) hr _].
  by exists r, (MkMachine (files s') (Some s')).
by have [e -> _] := call_out_of_range inv gs hn; exists e; rewrite Es -E; case: (m).
Qed.

(** ** An incomplete file is never repaired *)
Section Stuck.
Variables (k : fname) (f : file).
Definition has_file (d : disk) : Prop := dget d k = Ok f.
Definition keeps (s : proc) : Prop := has_file (files s) /\ List.Forall has_file (trace s).

Lemma keeps_put k' m s : keeps s -> k' != k -> keeps (write_to_cache k' m s).
Proof.
case=> h1 h2 /negbTE ne; have h (d : disk) g : has_file d -> has_file (dset d k' g).
  by rewrite /has_file dget_dset eq_sym ne.
split=> /=; first exact: h _ _ (h _ _ h1).
constructor; first exact: h _ _ (h _ _ h1).
by constructor=> //; exact: h.
Qed.

Lemma keeps_miss k' s : keeps s -> cache_hit k' s = false -> k' != k.
Proof. by case=> h _; apply: contraFneq => ->; rewrite /cache_hit dmem_get h. Qed.

Lemma keeps_matrix n s : keeps s ->
  let s' := (get_matrix_nat n s).2 in
  keeps s' /\ forall j, (n < j)%N ->
    dget (files s') (0%N, j) = dget (files s) (0%N, j).
Proof.
elim: n s => [|n IH] s ks //=.
case: dget => [m|_] //; case: ifP => // _; case: ifP => [hit|miss].
  by case: read_cache => [m|e].
have := IH s ks; case: get_matrix_nat => [[prev|e] s1] /= [ks1 same]; last first.
  by split=> // j hj; apply: same; exact: ltn_trans hj.
case: dget => [first|e]; last by split=> // j hj; apply: same; exact: ltn_trans hj.
split=> [|j hj]; last first.
  rewrite /= !dget_dset -same; last exact: ltn_trans hj.
  by case: eqVneq => // -[E]; rewrite E ltnn in hj.
have := @keeps_put (0%N, n.+1) (tensor_product prev first) s1 ks1.
by case; first exact: keeps_miss ks miss.
Qed.

Lemma keeps_inverse n s : keeps s -> keeps (get_inverse_nat mx_inv n s).2.
Proof.
move=> ks; rewrite /get_inverse_nat; case: ifP => // _.
case: dget => [m|_] //; case: ifP => // _; case: ifP => [hit|miss].
  by case: read_cache.
have := keeps_matrix n ks; case: get_matrix_nat => [[prev|e] s1] /= [ks1 _] //.
have := @keeps_put (1%N, n) (mx_inv prev) s1 ks1.
by case; first exact: keeps_miss ks miss.
Qed.

Lemma keeps_call inv n s : keeps s -> keeps (call mx_inv inv n s).2.
Proof.
case: n => [[n|n]|] //= ks; case: inv; first exact: keeps_inverse.
by case: (keeps_matrix n ks).
Qed.

Lemma keeps_import d : has_file d -> keeps (import_module mx_inv d).2.
Proof.
move=> hd; rewrite /import_module; set s := MkProc _ _ _ _.
have ks : keeps s by split=> //; constructor=> //; constructor.
case: ifP => [hit|miss]; first by case: read_cache.
by have := @keeps_put (2%N, 0%N) (mx_inv sign_matrix1) s ks; apply; exact: keeps_miss ks miss.
Qed.

Definition machine_keeps (m : machine) : Prop :=
  has_file (mdisk m) /\ if mproc m is Some s then keeps s /\ files s = mdisk m else True.

Lemma keeps_nth l d i : List.Forall has_file l -> has_file d -> has_file (nth d l i).
Proof. by elim: l i => [|x l IH] [|i] //= /List.Forall_cons_iff[h1 h2] hd; auto. Qed.

Lemma step_keeps e m : machine_keeps m -> machine_keeps (step mx_inv e m).2.
Proof.
case: e => [|inv n|i|inv n i] [gd gm] /=.
- have := keeps_import gd; case: import_module => [[u|e] s] [h1 h2]; by split.
- case E: (mproc m) gm => [s|] gm; last by split=> //=; rewrite E.
  have [gs Es] := gm; have := keeps_call inv n gs; case: call => r s' gs'.
  by have [? ?] := gs'.
- have := keeps_import gd; case: import_module => r s [h1 h2].
  by split=> //=; exact: keeps_nth.
- case E: (mproc m) gm => [s|] gm; last by split=> //=; rewrite E.
  have [[h1 h2] Es] := gm.
  have ks : keeps (MkProc (lookup s) (inv_lookup s) (files s) [:: files s]).
    by split=> //; constructor=> //; constructor.
  have := keeps_call inv n ks; case: call => r s' [? ?].
  by split=> //=; exact: keeps_nth.
Qed.
End Stuck.

(** With an incomplete matrix_of_signs_inverse.pkl the module cannot be
    imported any more. *)
Lemma stuck_import es m : has_file (2%N, 0%N) Partial (mdisk m) -> mproc m = None ->
  let m' := run mx_inv es m in
  mproc m' = None /\ (step mx_inv Start m').1 = Some (Err EOFError).
Proof.
move=> hd hp; have start d : has_file (2%N, 0%N) Partial d ->
    import_module mx_inv d = (Err EOFError, MkProc [:: (1%N, sign_matrix1)]
      [:: (1%N, mx_inv sign_matrix1)] d [:: d]).
  move=> h; rewrite /import_module /cache_hit dmem_get /read_cache /=.
  by rewrite /has_file in h; rewrite h.
suff [h1 h2] : mproc (run mx_inv es m) = None /\
    has_file (2%N, 0%N) Partial (mdisk (run mx_inv es m)).
  by split=> //; rewrite /step (start _ h2).
elim: es m hd hp => [|e es IH] m hd hp //=.
apply: IH; last first.
  by case: e => [|inv n|i|inv n i] /=; rewrite ?hp // start.
by case: (@step_keeps (2%N, 0%N) Partial e m) => //; split=> //; rewrite hp.
Qed.

(** With an incomplete matrix_of_signs_n.pkl no process can ever obtain the
    n-th matrix. *)
Lemma stuck_matrix es m n s : (2 <= n <= 5)%N ->
  has_file (0%N, n) Partial (mdisk m) -> mproc m = None ->
  let m' := run mx_inv es m in
  mproc m' = Some s ->
  (step mx_inv (Call false (PyInt n)) m').1 = Some (Err EOFError).
Proof.
move=> hn hd hp m'.
pose inv m := machine_keeps (0%N, n) Partial m /\
   if mproc m is Some s then exists e, dget (lookup s) n = Err e else True.
have look j s1 : keeps (0%N, n) Partial s1 -> (exists e, dget (lookup s1) n = Err e) ->
    exists e, dget (lookup (get_matrix_nat j s1).2) n = Err e.
  elim: j s1 => [|j IH] s1 ks [e E] /=; first by exists e.
  case: (dget (lookup s1) j.+1) => [x|_]; first by exists e.
  case: ifP => _; first by exists e.
  case: ifP => [hit|miss].
    case R: read_cache => [x|e']; last by exists e.
    rewrite /= dget_dset; case: eqVneq => [En|_]; last by exists e.
    by move: R; rewrite /read_cache -En; have [-> _] := ks.
  have := IH s1 ks (ex_intro _ e E); have := keeps_matrix j ks.
  case: get_matrix_nat => [[x|e'] s2] //= [ks2 _] [e2 E2].
  case: (dget (lookup s2) 1%N) => [y|e']; last by exists e2.
  rewrite /= dget_dset; case: eqVneq => [En|_]; last by exists e2.
  by have := keeps_miss ks miss; rewrite -En eqxx.
have lookc j b s1 : keeps (0%N, n) Partial s1 -> (exists e, dget (lookup s1) n = Err e) ->
    exists e, dget (lookup (call mx_inv b j s1).2) n = Err e.
  case: j => [[j|j]|] //= ks E; case: b; last exact: look.
  rewrite /get_inverse_nat; case: ifP => // _; case: (dget (inv_lookup s1) j) => // _.
  case: ifP => // _; case: ifP => _; first by case: read_cache.
  by have := look j s1 ks E; case: get_matrix_nat => [[x|e'] s2].
have stp e m1 : inv m1 -> inv (step mx_inv e m1).2.
  case=> h1 h2; split; first exact: step_keeps.
  have [hd1 hp1] := h1.
  case: e => [|b j|i|b j i] /=.
  - have : exists e, dget (lookup (import_module mx_inv (mdisk m1)).2) n = Err e.
      rewrite /import_module; case: ifP => _; first case: read_cache => *.
      + by exists KeyError => /=; have -> : (n == 1)%N = false by lia.
      + by exists KeyError => /=; have -> : (n == 1)%N = false by lia.
      by exists KeyError => /=; have -> : (n == 1)%N = false by lia.
    by case: import_module => [[u|e] s1].
  - case E: (mproc m1) h2 hp1 => [s1|] h2 hp1; last by rewrite /= E.
    by have := lookc j b s1 hp1.1 h2; case: call.
  - by case: import_module.
  - case E: (mproc m1) h2 hp1 => [s1|] h2 hp1; last by rewrite /= E.
    by case: call.
have : inv m' by apply: (_ : inv m -> _); [rewrite /m'; elim: (es) (m) => //= e es' IH m1 /(stp e)/IH|
  split; [split=> //|]; rewrite hp].
case=> [[hd' ks] lk] E; rewrite E in ks lk; rewrite /step E /=.
have [e le] := lk; have [[hf _] _] := ks.
case: n hn hd le hf {look lookc stp inv hd' ks lk} => // n hn hd le hf.
rewrite /get_matrix_nat -/get_matrix_nat le.
have -> : (5 < n.+1)%N = false by lia.
by rewrite /cache_hit dmem_get /read_cache hf.
Qed.

(** ** In the vocabulary of CacheSpec *)
Lemma in_rangeP n : reflect (exists k, valid_arg n k) (in_range n).
Proof.
case: n => [[k|k]|] /=.
- apply: (iffP idP) => [h|[k' [[->]]] //]; by exists k.
- by right=> -[k' []].
- by right=> -[k' []].
Qed.

Lemma valid_arg_nat n k : valid_arg n k -> arg_nat n = k.
Proof. by case=> ->. Qed.

Lemma square_sign_matrix n : (0 < n)%N -> square_list (3 ^ n) (sign_matrix n).
Proof.
move=> n0; rewrite sign_matrixE // /square_list size_map words_size eqxx /=.
by apply/allP => r /mapP[e _ ->]; rewrite size_map words_size.
Qed.

Lemma sign_matrix_expected n : (0 < n)%N -> is_sign_matrix n (sign_matrix n).
Proof.
move=> n0; split; first exact: square_sign_matrix.
by move=> i j hi hj; exact: sign_matrix_entry.
Qed.

Lemma sign_matrix_unique n S : (0 < n)%N -> is_sign_matrix n S ->
  mx_of (3 ^ n) S = mx_of (3 ^ n) (sign_matrix n).
Proof.
move=> n0 [_ h]; apply/matrixP => i j; rewrite !mxE h ?ltn_ord //.
by rewrite (sign_matrix_expected n0).2.
Qed.

Hypothesis mx_inv_c : inv_contract mx_inv.

Lemma sign_matrix_unit n : (0 < n)%N -> mx_of (3 ^ n) (sign_matrix n) \in unitmx.
Proof.
move=> n0; have [sM sN NM] := sign_matrix_left_inverse n0.
by case/mulmx1_unit: (mulmm_mx sM sN NM).
Qed.

Lemma value_of_expected inv n : (0 < n)%N -> is_expected inv n (value_of inv n).
Proof.
move=> n0; case: inv => /=; last exact: sign_matrix_expected.
have [h1 h2] := mx_inv_c (square_sign_matrix n0) (sign_matrix_unit n0).
split=> // S /(sign_matrix_unique n0) ->.
by rewrite h2 mulVmx // sign_matrix_unit.
Qed.

Lemma cache_right es inv n : ~~ has dies es ->
  let m := run mx_inv es fresh in
  (exists s, step mx_inv Start m = (None, MkMachine (files s) (Some s))) /\
  forall s, mproc m = Some s ->
  (forall k, valid_arg n k ->
     exists M m', step mx_inv (Call inv n) m = (Some (Ok M), m') /\ is_expected inv k M) /\
  ((forall k, ~ valid_arg n k) ->
     exists e, step mx_inv (Call inv n) m = (Some (Err e), m)).
Proof.
move=> h m; have [h1 h2] := cache_transparent inv n h; split=> // s E.
have {h2} := h2 s E; case: in_rangeP => hr h2; split.
- move=> k hk; have [m' E'] := h2; exists (value_of inv (arg_nat n)), m'; split=> //.
  by rewrite (valid_arg_nat hk); apply: value_of_expected; case: hk => _ /andP[].
- by case: hr => k hk /(_ k).
- by move=> k hk; case: hr; exists k.
- by move=> _.
Qed.

Lemma cache_never_wrong_spec es inv n s :
  let m := run mx_inv es fresh in
  mproc m = Some s ->
  (forall k, valid_arg n k ->
     exists r m', step mx_inv (Call inv n) m = (Some r, m') /\
     (r = Err EOFError \/ exists2 M, r = Ok M & is_expected inv k M)) /\
  ((forall k, ~ valid_arg n k) ->
     exists e, step mx_inv (Call inv n) m = (Some (Err e), m)).
Proof.
move=> m E; have := cache_never_wrong inv n E; rewrite -/m.
case: in_rangeP => hr h2; split.
- move=> k hk; have [r [m' [E' hv]]] := h2; exists r, m'; split=> //.
  case: hv => ->; [right|by left]; eexists; first by [].
  by rewrite (valid_arg_nat hk); apply: value_of_expected; case: hk => _ /andP[].
- by case: hr => k hk /(_ k).
- by move=> k hk; case: hr; exists k.
- by move=> _.
Qed.

(** The cache-free function used by the model of uni_vts. *)
Lemma cache_refines es n s : ~~ has dies es ->
  let m := run mx_inv es fresh in mproc m = Some s ->
  (step mx_inv (Call true (PyInt (Posz n))) m).1 = Some (get_matrix_inverse mx_inv n).
Proof.
move=> h m E; have [gd gp] : good_machine m by apply: run_good h fresh_good.
rewrite E in gp; have [gs Es] := gp; have [hd hl hi] := gs.
rewrite /step E /= /get_matrix_inverse.
case: (ltnP n 1) => [h1|h1]; first by rewrite /get_inverse_nat h1.
case: (ltnP 5 n) => [h5|h5]; last first.
  have hn : (1 <= n <= 5)%N by rewrite h1.
  by have [s' -> _] := get_inverse_good gs hn.
rewrite /get_inverse_nat ltnNge h1 /=.
case D: (dget _ _) => [M|e]; last by rewrite h5.
by have [_ /andP[_]] := hi.2 _ _ D; rewrite leqNgt h5.
Qed.

End Facts.

(** ** Witnesses of the crash problems *)
Definition crash_in_matrix : seq event := [:: Start; DieInCall false (PyInt 2) 1].
Definition crash_in_import : seq event := [:: DieInStart 1].

Lemma run_cat mx_inv es es' m : run mx_inv (es ++ es') m = run mx_inv es' (run mx_inv es m).
Proof. by elim: es m => //=. Qed.

Lemma crash_loses_matrix mx_inv :
  exists es, (exists s, mproc (run mx_inv (rcons es Start) fresh) = Some s) /\
  forall es' s, let m := run mx_inv (es ++ es') fresh in
  mproc m = Some s ->
  (step mx_inv (Call false (PyInt 2)) m).1 = Some (Err EOFError).
Proof.
exists crash_in_matrix; split; first by eexists.
move=> es' s m; rewrite /m run_cat => E.
by apply: (@stuck_matrix mx_inv es' _ 2 s).
Qed.

Lemma crash_loses_module mx_inv :
  exists es, forall es', let m := run mx_inv (es ++ es') fresh in
  mproc m = None /\ (step mx_inv Start m).1 = Some (Err EOFError).
Proof. by exists crash_in_import => es' m; rewrite /m run_cat; exact: stuck_import. Qed.
