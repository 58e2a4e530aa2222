(** Runs of the model of cohenhorm - Copy.py. *)
From Coq Require Import ZArith String.
From mathcomp Require Import all_ssreflect all_algebra all_real_closed.
From mathcomp.zify Require Import ssrZ zify.
From Verif Require Import Py VtsInst MuchModel MuchSpec MuchSeq MuchReal MuchInst MuchFull MuchEx.
From Verif Require Import CohenModel CohenSpec CohenExp CohenSem CohenEx CohenEx2 CohenOld CohenOldStop.

Set Implicit Arguments.
Unset Strict Implicit.
Unset Printing Implicit Defensive.
Import GRing.Theory Num.Theory Order.TTheory.
Local Open Scope ring_scope.

Definition orun polys con iter := old_table algxy deg_set deg_plus id polys con iter.

(** The signs of the rows in the order of the columns, and the contexts. *)
Definition showo (r : res (seq (diagram Pxy [eqType of rat] * context Pxy))) :=
  if r is Ok l then
    Ok [seq ([seq (rd k.1, map snd (sort (fun a b => a.1 <= b.1) k.2)) | k : Pxy * dict [eqType of rat] int <- x.1],
             [seq (rd k.1, k.2) | k : Pxy * int <- x.2]) | x <- l]
  else if r is Err e then Err e else Ok [::].

Local Open Scope Z_scope.
(** x^3 - x, x^2 - 1 and y x + 1. *)
Definition px_x3mx : Pxy := px [:: [::]; [:: -1]; [::]; [:: 1]].
Definition px_x2m1 : Pxy := px [:: [:: -1]; [::]; [:: 1]].
Definition px_yxp1 : Pxy := px [:: [:: 1]; [:: 0; 1]].
Local Close Scope Z_scope.

Definition polys_yxp1 : seq Pxy := [:: px_x2m1; px_yxp1].
Definition con_y0 : context Pxy := [:: (px_y, 0)].

Lemma closed_accepted con p : (p == a_zero algxy) = false -> ~~ a_has_variable algxy (a_LC algxy p) ->
  accepted algxy idx con [:: p].
Proof.
move=> pz pv; right; split=> // [q|]; last by rewrite inE eq_sym pz.
by rewrite inE => /eqP-> _; split; [move/eqP; rewrite pz|left].
Qed.

Lemma x3mx_accepted con : accepted algxy idx con [:: px_x3mx].
Proof.
by apply: closed_accepted; [apply/negbTE; vm_compute|vm_compute].
Qed.

Lemma x2y_old_accepted con : accepted algxy idx con [:: px_x2y].
Proof.
by apply: closed_accepted; [apply/negbTE; vm_compute|vm_compute].
Qed.

Lemma yxp1_accepted : accepted algxy idx con_y0 polys_yxp1.
Proof.
have sE : (size (idx px_x2m1) <= size (idx px_yxp1))%N = false by vm_compute.
have zE : (px_x2m1 == a_zero algxy) = false by vm_compute.
have zF : (a_zero algxy \in polys_yxp1) = false by vm_compute.
have vE : ~~ a_has_variable algxy (a_LC algxy px_x2m1) by vm_compute.
right; split=> [//|p|]; last by rewrite zF.
rewrite !inE => /orP[]/eqP-> h; last by have := h px_x2m1 (mem_head _ _); rewrite sE.
by split; [move/eqP; rewrite zE|left].
Qed.

(** x^2 + y: the three signs of y. *)
Local Open Scope Z_scope.
Lemma x2y_old : showo (orun [:: px_x2y] [::] 10%R) = Ok
  [:: ([:: ([:: [::]; [:: 2]], [:: -1; -1; -1; -1; 0; 1; 1; 1; 1]%R);
           ([:: [:: 0; 1]; [::]; [:: 1]], [:: 1; 1; 0; -1; -1; -1; 0; 1; 1]%R)], [:: ([:: [:: 0; 4]], (-1)%R)]);
      ([:: ([:: [::]; [:: 2]], [:: -1; -1; 0; 1; 1]%R);
           ([:: [:: 0; 1]; [::]; [:: 1]], [:: 1; 1; 0; 1; 1]%R)], [:: ([:: [:: 0; 4]], (0)%R)]);
      ([:: ([:: [::]; [:: 2]], [:: -1; -1; 0; 1; 1]%R);
           ([:: [:: 0; 1]; [::]; [:: 1]], [:: 1; 1; 1; 1; 1]%R)], [:: ([:: [:: 0; 4]], (1)%R)])].
Proof. by vm_compute. Qed.
Local Close Scope Z_scope.

(** x^2 + y with too few iterations. *)
Lemma x2y_few : [seq (if orun [:: px_x2y] [::] i is Err (Exc s) then s else ""%string) | i <- [:: 0; 1; 2; 3]] =
  [:: "iter"; "iter"; "iter"; ""]%string.
Proof. by vm_compute. Qed.

Definition key_error (r : res (seq (diagram Pxy [eqType of rat] * context Pxy))) : bool :=
  if r is Err KeyError then true else false.
Definition no_row (p : Pxy) (r : res (seq (diagram Pxy [eqType of rat] * context Pxy))) : bool :=
  if r is Ok [:: x] then p \notin rows x.1 else false.

Lemma key_errorP r : key_error r = true -> r = Err KeyError.
Proof. by case: r => // -[]. Qed.

Lemma no_rowP p r : no_row p r = true -> exists2 x, r = Ok [:: x] & p \notin rows x.1.
Proof. by case: r => [[|x [|//]]|//] // h; exists x. Qed.

(** x^3 - x: the remainder by 3 x^2 - 1 has no row in the table that is
    extended. *)
Lemma x3mx_run : key_error (orun [:: px_x3mx] [::] 10) = true.
Proof. by vm_compute. Qed.

Lemma x3mx_raises iter : orun [:: px_x3mx] [::] iter = Err (Exc "iter") \/
  orun [:: px_x3mx] [::] iter = Err KeyError.
Proof.
have ne : KeyError <> Exc "iter" by [].
exact (old_only iter (key_errorP x3mx_run) ne).
Qed.

(** x^2 - 1 and y x + 1 where y is zero: there is a row of 1, none of y x + 1. *)
Lemma yxp1_run : no_row px_yxp1 (orun polys_yxp1 con_y0 10) = true.
Proof. by vm_compute. Qed.

Local Open Scope Z_scope.
Lemma yxp1_show : showo (orun polys_yxp1 con_y0 10%R) = Ok
  [:: ([:: ([:: [::]; [:: 2]], [:: -1; -1; -1; -1; 0; 1; 1; 1; 1]%R);
           ([:: [:: 1]], [:: 1; 1; 1; 1; 1; 1; 1; 1; 1]%R);
           ([:: [:: -1]; [::]; [:: 1]], [:: 1; 1; 0; -1; -1; -1; 0; 1; 1]%R)], [:: ([:: [:: 0; 1]], (0)%R)])].
Proof. by vm_compute. Qed.
Local Close Scope Z_scope.

(** The constant y. *)
Lemma y_old : (if orun [:: px_y] [::] 10 is Err (Exc s) then s else ""%string) = "might reach this"%string.
Proof. by vm_compute. Qed.

(** *** What does not hold. *)
Lemma old_raises_refuted : exists polys : seq Pxy, accepted algxy idx [::] polys /\
  forall iter, old_table algxy deg_set deg_plus id polys [::] iter = Err (Exc "iter") \/
    old_table algxy deg_set deg_plus id polys [::] iter = Err KeyError.
Proof. by exists [:: px_x3mx]; split; [exact: x3mx_accepted|exact: x3mx_raises]. Qed.

Lemma old_rows_missing_refuted : exists (con : context Pxy) (polys : seq Pxy) (iter : int) ret x p,
  [/\ accepted algxy idx con polys, old_table algxy deg_set deg_plus id polys con iter = Ok ret,
      List.In x ret, p \in polys & p \notin rows x.1].
Proof.
have [x E h] := no_rowP yxp1_run.
exists con_y0, polys_yxp1, 10, [:: x], x, px_yxp1; split; [exact: yxp1_accepted|exact: E|by left| |exact: h].
by rewrite !inE eqxx orbT.
Qed.
