(** C106: what the printed sequents of grf.sage say. *)
From mathcomp Require Import all_ssreflect all_algebra.
From Coq Require Import String Permutation.
From Verif Require Import Py GrfModel GrfFacts GrfPrint GrfPrintFacts GrfInst GrfLinInst GrfLinEx.

Set Implicit Arguments.
Unset Strict Implicit.
Unset Printing Implicit Defensive.
Local Notation "s +++ t" := (String.append s t) (at level 60, right associativity).

(** The atoms read back from the text are those of the sequent, in order. *)
Theorem C106_read_hyps (R : realDomainType) (L : lib R) (str : P L -> string) (s : decide L) :
  (forall p, one_line (str p)) -> read_hyps (decide_str str s) = [seq atom_str str h | h <- hyps s].
Proof. exact (fun str1 => read_hypsP str1 s). Qed.
Print Assumptions C106_read_hyps.

Theorem C106_read_goal (R : realDomainType) (L : lib R) (str : P L -> string) (s : decide L) :
  (forall p, one_line (str p)) ->
  read_goal (decide_str str s) =
    [seq atom_str str h | h <- goal_hyps (dgoal s)] ++ [:: atom_str str (main_goal (dgoal s))].
Proof. exact (fun str1 => read_goalP str1 s). Qed.
Print Assumptions C106_read_goal.

(** Sequents with the same text are the same. *)
Theorem C106_injective (R : realDomainType) (L : lib R) (str : P L -> string) (s s' : decide L) :
  (forall p, one_line (str p)) -> injective str -> decide_str str s = decide_str str s' ->
  [/\ [seq (apoly a, aop a) | a <- hyps s] = [seq (apoly a, aop a) | a <- hyps s'],
      [seq (apoly a, aop a) | a <- goal_hyps (dgoal s)] = [seq (apoly a, aop a) | a <- goal_hyps (dgoal s')] &
      (apoly (main_goal (dgoal s)), aop (main_goal (dgoal s))) =
      (apoly (main_goal (dgoal s')), aop (main_goal (dgoal s')))].
Proof. exact (@decide_str_inj R L str s s'). Qed.
Print Assumptions C106_injective.

(** Entering i promotes the hypothesis on the line that starts with Hi. *)
Theorem C106_index (R : realDomainType) (L : lib R) (str : P L -> string)
  (solve : nat -> seq constraint -> seq nat -> res (nat -> bool)) (s : decide L) bads (i : nat) cs s' b cs' :
  (forall p, one_line (str p)) -> (i < size (hyps s))%N ->
  interact solve s bads (Promote (Posz i) :: cs) = Ok (s', b, cs') ->
  exists h, [/\ nth ""%string (lines (decide_str str s)) i.+1 =
                  "  H" +++ decimal i +++ ": " +++ atom_str str h
                        +++ (if (i.+1 < size (hyps s))%N then " "%string else ""%string),
                add_goal_hyp (dgoal s) h = Ok (dgoal s') &
                exists l1 l2, [/\ size l1 = i, hyps s = l1 ++ h :: l2 & hyps s' = l1 ++ l2]].
Proof. exact (@promote_line R L str solve s bads i cs s' b cs'). Qed.
Print Assumptions C106_index.

(** The goal is indented as far as the last hypothesis, up to 10^5 hypotheses. *)
Theorem C106_aligned (l : nat) : (0 < l)%N -> (l <= 100 * 1000)%N ->
  String.length (num_spaces l) = String.length ("  H" +++ decimal l.-1 +++ ": ").
Proof. exact (@aligned l). Qed.
Print Assumptions C106_aligned.

Theorem C106_aligned_refuted (l : nat) : (100 * 1000 < l)%N -> (l <= 1000 * 1000)%N ->
  (String.length (num_spaces l) < String.length ("  H" +++ decimal l.-1 +++ ": "))%N.
Proof. exact (@unaligned l). Qed.
Print Assumptions C106_aligned_refuted.

(** Without equations the final hypotheses are among those that were asserted. *)
Theorem C106_final (R : realDomainType) (L : lib R) (O : oracle L) (str : P L -> string)
  (solve : nat -> seq constraint -> seq nat -> res (nat -> bool)) sample fuel partial k eps cs top (s : decide L) r s' :
  check O solve sample fuel partial k eps cs top s = Ok (r, s') ->
  goal_hyps (dgoal s) = [::] -> gb (dgoal s) = [::] -> all (fun h => ~~ is_eqn h) (hyps s) ->
  exists used unused, Permutation (used ++ unused) (hyps s) /\
    final_str str s' = "   " +++ String.concat ", " [seq atom_str str h | h <- used].
Proof. exact (@final_lines R L O str solve sample fuel partial k eps cs top s r s'). Qed.
Print Assumptions C106_final.

(** With an equation they need not be. *)
Theorem C106_final_refuted (str : P nlib -> string) : injective str ->
  exists s : decide nlib, goal_hyps (dgoal s) = [::] /\
  exists r s' g, [/\ nrun 2 4 s = Ok (r, s'), List.In g (goal_hyps (dgoal s')) &
      ~ List.In (atom_str str g) [seq atom_str str h | h <- hyps s]].
Proof. exact (@final_changed str). Qed.
Print Assumptions C106_final_refuted.

(** *** Cases *)
Example C106_contracts : injective nstr /\ forall p, one_line (nstr p).
Proof. split; [exact nstr_inj|exact nstr_one]. Qed.
Example C106_text : decide_str xstr s104c =
  nl +++ "  H0: [x0 < 0] " +++ nl +++ "  H1: [x0 - x1 = 0] " +++ nl +++ "  H2: [x0 - 5 < 0]"
  +++ nl +++ "|-----------------------------------------  " +++ nl +++ "      [x0 - 3 > 0]".
Proof. exact ex106_text. Qed.
Example C106_read : read_hyps text106 = [:: "[x0 < 0]"; "[x0 - x1 = 0]"; "[x0 - 5 < 0]"]%string /\
  read_goal text106 = [:: "[x0 - 3 > 0]"]%string.
Proof. exact ex106_read. Qed.
Example C106_end : end106 = "   [x1 < 0], [x0 - x1 = 0]"%string.
Proof. exact ex106_end. Qed.
