(** What the text of a sequent says. *)
From mathcomp Require Import all_ssreflect all_algebra.
From mathcomp.zify Require Import zify.
From mathcomp.real_closed Require Import polyrcf.
From Coq Require Import String Ascii Permutation.
From Verif Require Import Py GrfModel GrfCad GrfSpec GrfFacts GrfCheck GrfLoop GrfRun GrfLine GrfCadFacts
  GrfLin GrfOut GrfPick GrfPrint GrfInst GrfEx GrfEx2 GrfLinInst GrfLinEx.

Set Implicit Arguments.
Unset Strict Implicit.
Unset Printing Implicit Defensive.
Local Notation "s +++ t" := (String.append s t) (at level 60, right associativity).

(** ** Numbers *)
Lemma decimal_length_n n k d : (k < n)%N -> (k < 10 ^ d.+1)%N -> (d = 0 \/ 10 ^ d <= k)%N ->
  String.length (decimal_n n k) = d.+1.
Proof.
elim: n k d => // n IH k d kn lt ge; cbn [decimal_n]; case: ltnP => [k10|k10].
  by case: d ge {lt} => [//|d] [//|ge]; have : (10 <= 10 ^ d.+1)%N by [rewrite expnS leq_pmulr // expn_gt0]; lia.
rewrite length_app addn1; case: d lt ge => [|d] lt ge; first by rewrite expn1 in lt; lia.
congr (_.+1); apply: IH.
- by have := leq_div2r 10 (ltnW kn); have := ltn_Pdiv (isT : 1 < 10)%N (leq_trans (isT : 0 < 10)%N k10); lia.
- by rewrite ltn_divLR // -expnSr.
- by right; rewrite leq_divRL // -expnSr; case: ge.
Qed.
Lemma decimal_length k d : (k < 10 ^ d.+1)%N -> (d = 0 \/ 10 ^ d <= k)%N -> String.length (decimal k) = d.+1.
Proof. exact: decimal_length_n. Qed.

(** The goal starts in the column of the last hypothesis. *)
Lemma aligned l : (0 < l)%N -> (l <= 100 * 1000)%N ->
  String.length (num_spaces l) = String.length ("  H" +++ decimal l.-1 +++ ": ").
Proof.
move=> l0 l5; rewrite !length_app /num_spaces.
case: ifP => l1; first by rewrite (@decimal_length _ 0); [|rewrite expn1; lia|left].
case: ifP => l2; first by rewrite (@decimal_length _ 1); [|rewrite !expnS expn0; lia|right; rewrite expn1; lia].
case: ifP => l3; first by rewrite (@decimal_length _ 2); [|rewrite !expnS expn0; lia|right; rewrite !expnS expn0; lia].
case: ifP => l4; first by rewrite (@decimal_length _ 3); [|rewrite !expnS expn0; lia|right; rewrite !expnS expn0; lia].
by rewrite (@decimal_length _ 4); [|rewrite !expnS expn0; lia|right; rewrite !expnS expn0; lia].
Qed.

Lemma unaligned l : (100 * 1000 < l)%N -> (l <= 1000 * 1000)%N ->
  (String.length (num_spaces l) < String.length ("  H" +++ decimal l.-1 +++ ": "))%N.
Proof.
move=> l0 l5; rewrite !length_app (@decimal_length _ 5); [|rewrite !expnS expn0; lia|right; rewrite !expnS expn0; lia].
by rewrite /num_spaces; repeat case: ifP.
Qed.

(** ** Atoms *)
Lemma app_inj s s' t t' : String.length t = String.length t' -> s +++ t = s' +++ t' -> s = s' /\ t = t'.
Proof.
elim: s s' => [|c s IH] [|c' s'] //= El.
- by move=> E; move: El; rewrite E /= length_app; lia.
- by move=> E; move: El; rewrite -E /= length_app; lia.
by case=> -> /(IH _ El)[-> ->].
Qed.

Section Atoms.
Variables (R : realDomainType) (L : lib R) (str : P L -> string).
Implicit Types (a h : atom L) (s : decide L) (g : goal L).

Lemma op_inj x y o o' : x +++ " " +++ op_str o +++ " 0]" = y +++ " " +++ op_str o' +++ " 0]" -> x = y /\ o = o'.
Proof.
have same : String.length (op_str o) = String.length (op_str o') -> x +++ " " +++ op_str o +++ " 0]" = y +++ " " +++ op_str o' +++ " 0]" ->
    x = y /\ o = o'.
  move=> El E; have [|-> /= [E']] := app_inj _ E; first by rewrite !length_app El.
  by split=> //; case: (o) (o') E' => [] [].
have more x' y' t t' : String.length t = 5 -> String.length t' = 5 -> x' +++ " " +++ t' = y' +++ t -> t' = t.
  by move=> E E'; rewrite appA => /app_inj[|_ ->]; rewrite ?E ?E'.
have [E|] := eqVneq (String.length (op_str o)) (String.length (op_str o')); first exact: same.
case: o {same}; case: o' => // _ E.
all: try by have := @more x y _ _ _ _ E => /(_ erefl erefl).
all: by have := @more y x _ _ _ _ (esym E) => /(_ erefl erefl).
Qed.

Lemma atom_str_inj a h : injective str -> atom_str str a = atom_str str h -> (apoly a, aop a) = (apoly h, aop h).
Proof. by move=> inj [] /op_inj[/inj -> ->]. Qed.
Lemma map_atom_str_inj (l l' : seq (atom L)) : injective str -> map (atom_str str) l = map (atom_str str) l' ->
  [seq (apoly a, aop a) | a <- l] = [seq (apoly a, aop a) | a <- l'].
Proof.
move=> inj; elim: l l' => [|a l IH] [|h l'] // H.
have E : atom_str str a = atom_str str h := congr1 (head ""%string) H.
by rewrite !map_cons (IH l' (congr1 behead H)) (atom_str_inj inj E).
Qed.

(** Equal texts are texts of equal sequents. *)
Lemma decide_str_inj s s' : (forall p, one_line (str p)) -> injective str -> decide_str str s = decide_str str s' ->
  [/\ [seq (apoly a, aop a) | a <- hyps s] = [seq (apoly a, aop a) | a <- hyps s'],
      [seq (apoly a, aop a) | a <- goal_hyps (dgoal s)] = [seq (apoly a, aop a) | a <- goal_hyps (dgoal s')] &
      (apoly (main_goal (dgoal s)), aop (main_goal (dgoal s))) =
      (apoly (main_goal (dgoal s')), aop (main_goal (dgoal s')))].
Proof.
move=> str1 inj E.
have Eh := read_hypsP str1 s; rewrite E (read_hypsP str1) in Eh.
have Eg := read_goalP str1 s; rewrite E (read_goalP str1) in Eg.
move: Eg; rewrite !cats1 => /rcons_inj E'.
have Eg := congr1 fst E'; have Em := congr1 snd E'; rewrite /fst /snd in Eg Em.
split; [exact: map_atom_str_inj inj (esym Eh)|exact: map_atom_str_inj inj (esym Eg)|exact: atom_str_inj inj (esym Em)].
Qed.

(** The line of a hypothesis. *)
Lemma hyp_line s i h : (forall p, one_line (str p)) -> pyget (hyps s) i = Ok h ->
  nth ""%string (lines (decide_str str s)) i.+1 =
    "  H" +++ decimal i +++ ": " +++ atom_str str h +++ (if (i.+1 < size (hyps s))%N then " "%string else ""%string).
Proof.
move=> str1 Eh; have lt : (i < size (hyps s))%N.
  by rewrite ltnNge; apply/negP=> ge; move: Eh; rewrite /pyget drop_oversize.
have Eh' : nth h (hyps s) i = h by move: Eh; rewrite (GrfLin.pyget_nth h lt) => -[].
have El : hyp_lines str s = glue "" " " "" (hyp_strs str 0 (hyps s)) by rewrite /hyp_lines; case: (hyps s) lt.
have size_glue ls : forall p, size (glue p " " "" ls) = size ls.
  by elim: ls => [//|x [|y ls] IH] p //; rewrite -[LHS]/((size (glue "" " " "" (y :: ls))).+1) IH.
rewrite decide_lines // cat1s -[LHS]/(nth _ (hyp_lines str s ++ _) i) nth_cat El size_glue size_hyp_strs lt.
rewrite nth_glue ?size_hyp_strs // (nth_hyp_strs str 0 h lt) Eh' add0n.
by case: (i) {Eh Eh' lt}; intros; rewrite -!appA.
Qed.

(** The hypothesis that is promoted is the one that has the entered number in the text. *)
Variable solve : nat -> seq constraint -> seq nat -> res (nat -> bool).
Lemma promote_line s bads (i : nat) cs s' b cs' : (forall p, one_line (str p)) -> (i < size (hyps s))%N ->
  interact solve s bads (Promote (Posz i) :: cs) = Ok (s', b, cs') ->
  exists h, [/\ nth ""%string (lines (decide_str str s)) i.+1 =
                  "  H" +++ decimal i +++ ": " +++ atom_str str h +++ (if (i.+1 < size (hyps s))%N then " "%string else ""%string),
                add_goal_hyp (dgoal s) h = Ok (dgoal s') &
                exists l1 l2, [/\ size l1 = i, hyps s = l1 ++ h :: l2 & hyps s' = l1 ++ l2]].
Proof.
move=> str1 lt /=; rewrite [X in if X then _ else _](_ : _ = true) // => H; case: (bind_inv H) => s2 P [<- _ _] {H}.
have [h Eh [Eg E _]] := GrfPick.promote_rightP P; exists h; split=> //; first exact: hyp_line.
exists (take i (hyps s)), (drop i.+1 (hyps s)); split=> //; first by rewrite size_take lt.
exact: pyget_split.
Qed.
End Atoms.

(** ** The final hypotheses *)
Lemma join_concat l sep : join l sep = String.concat sep l.
Proof. by elim: l => [//|x [//|y l] IH]; rewrite [LHS]/= [RHS]/= -/(join (y :: l) sep) IH. Qed.

Section Final.
Variables (R : realDomainType) (L : lib R) (O : oracle L) (str : P L -> string).
Variable solve : nat -> seq constraint -> seq nat -> res (nat -> bool).
Variable sample : addr -> option (goal L) -> seq (P L) -> seq (atom L) ->
  res (seq (dict [eqType of var] R) * seq (P L)).

Lemma final_lines fuel partial k eps cs top s r s' :
  check O solve sample fuel partial k eps cs top s = Ok (r, s') ->
  goal_hyps (dgoal s) = [::] -> gb (dgoal s) = [::] -> all (fun h => ~~ is_eqn h) (hyps s) ->
  exists used unused, Permutation (used ++ unused) (hyps s) /\
    final_str str s' = "   " +++ String.concat ", " [seq atom_str str h | h <- used].
Proof.
move=> /check_result[[ps Ef [P1 _]] _] G0 B0 ne.
have [|E _] := promote_no_eqn Ef _ B0.
  apply/eqP; rewrite -leqn0 leqNgt -has_count -all_predC.
  by move: ne; rewrite -(all_C_perm _ P1) all_cat => /andP[].
by exists (goal_hyps (dgoal s')), (hyps s'); split; [rewrite E G0|rewrite /final_str join_concat].
Qed.
End Final.

(** ** Examples *)
Section Apart.
Variables (R : realDomainType) (L : lib R) (str : P L -> string).
Definition final_goal (x : res (seq (seq nat) * decide L)) : seq (atom L) :=
  if x is Ok (_, s) then goal_hyps (dgoal s) else [::].
Definition apart (hs gs : seq (atom L)) : bool := has (fun g => all (fun h => apoly h != apoly g) hs) gs.
Lemma apart_text (s : decide L) (x : res (seq (seq nat) * decide L)) : injective str ->
  apart (hyps s) (final_goal x) ->
  exists r s' g, [/\ x = Ok (r, s'), List.In g (goal_hyps (dgoal s')) &
    ~ List.In (atom_str str g) [seq atom_str str h | h <- hyps s]].
Proof.
move=> inj; case: x => [[r s']|//] A; suff [g I N] : exists2 g, List.In g (goal_hyps (dgoal s')) &
    ~ List.In (atom_str str g) [seq atom_str str h | h <- hyps s] by exists r, s', g.
move: A; rewrite /final_goal /apart; move: (hyps s) => hs.
elim: (goal_hyps _) => //= g gs IH /orP[A|/IH[g' I N]]; last by exists g' => //; right.
exists g; first by left.
elim: hs A {IH} => [_ []|h hs IH /andP[ne /IH N] [E|//]].
by move: ne; have [-> _] := atom_str_inj inj E; rewrite eqxx.
Qed.
End Apart.
Lemma ex106_final : apart (hyps s104c) (final_goal (nrun 2 4 s104c)). Proof. by vm_compute. Qed.
Lemma ex106_start : goal_hyps (dgoal s104c) = [::]. Proof. by []. Qed.
Lemma final_changed (str : P nlib -> string) : injective str -> exists s : decide nlib, goal_hyps (dgoal s) = [::] /\
  exists r s' g, [/\ nrun 2 4 s = Ok (r, s'), List.In g (goal_hyps (dgoal s')) &
      ~ List.In (atom_str str g) [seq atom_str str h | h <- hyps s]].
Proof. by move=> inj; exists s104c; split; [exact: ex106_start|exact: apart_text inj ex106_final]. Qed.

(** An injective text of polynomials, in one line. *)
Fixpoint tally (n : nat) : string := if n is n'.+1 then String "x" (tally n') else ""%string.
Lemma tally_length n : String.length (tally n) = n. Proof. by elim: n => //= n ->. Qed.
Lemma tally_one n : one_line (tally n). Proof. by elim: n. Qed.
Definition nstr (p : P nlib) : string := tally (pickle (nterms (p : npoly))).
Lemma nstr_inj : injective nstr.
Proof.
move=> p q /(congr1 String.length); rewrite !tally_length => /(pcan_inj pickleK) E.
by apply: val_inj.
Qed.
Lemma nstr_one p : one_line (nstr p). Proof. exact: tally_one. Qed.

(** The text of x0 < 0, x0 = x1, x0 < 5 |- x0 > 3, and after two hypotheses are promoted. *)
Definition xstr (p : P nlib) : string :=
  if p == mk (l3 1 0 0) then "x0"%string else if p == mk (l3 1 (-1) 0) then "x0 - x1"%string
  else if p == mk (l3 1 0 (-5%:R)) then "x0 - 5"%string else if p == mk (l3 1 0 (-3%:R)) then "x0 - 3"%string
  else "x1"%string.
Definition text106 : string := nl +++ "  H0: [x0 < 0] " +++ nl +++ "  H1: [x0 - x1 = 0] " +++ nl +++ "  H2: [x0 - 5 < 0]"
  +++ nl +++ "|-----------------------------------------  " +++ nl +++ "      [x0 - 3 > 0]".
Lemma ex106_text : decide_str xstr s104c = text106. Proof. by vm_compute. Qed.
Lemma ex106_read : read_hyps text106 = [:: "[x0 < 0]"; "[x0 - x1 = 0]"; "[x0 - 5 < 0]"]%string /\
  read_goal text106 = [:: "[x0 - 3 > 0]"]%string.
Proof. by vm_compute. Qed.
Definition end106 : string := if nrun 2 4 s104c is Ok (_, s) then final_str xstr s else ""%string.
Lemma ex106_end : end106 = "   [x1 < 0], [x0 - x1 = 0]"%string. Proof. by vm_compute. Qed.
