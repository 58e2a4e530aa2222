(** The text of sequents in GRF/grf.sage: __str__ of RCF_Atom (g 62-63), RCF_Goal
    (g 155-178) and RCF_GD_Decide (g 762-776), and what check prints at the end
    (g 973-978).  [str] is str() of a polynomial. *)
From mathcomp Require Import all_ssreflect all_algebra.
From mathcomp.zify Require Import zify.
From Coq Require Import String Ascii Permutation.
From Verif Require Import Py GrfModel GrfCad GrfSpec GrfFacts GrfCheck GrfLoop GrfRun GrfLine GrfCadFacts
  GrfLin GrfOut.

Set Implicit Arguments.
Unset Strict Implicit.
Unset Printing Implicit Defensive.
Local Notation "s +++ t" := (String.append s t) (at level 60, right associativity).

(** ** Model *)
Definition nl : string := String "010" EmptyString.
(** string.join *)
Fixpoint join (l : seq string) (sep : string) : string :=
  match l with [::] => ""%string | [:: x] => x | x :: l' => x +++ sep +++ join l' sep end.
(** str of a number *)
Definition digit (k : nat) : string := String (ascii_of_nat (48 + k)) EmptyString.
Fixpoint decimal_n (fuel k : nat) : string :=
  if fuel is fuel'.+1 then
    if (k < 10)%N then digit k else decimal_n fuel' (k %/ 10) +++ digit (k %% 10)
  else ""%string.
Definition decimal (k : nat) : string := decimal_n k.+1 k.

Definition op_str (o : relop) : string :=
  match o with RGt => ">" | RLt => "<" | RLe => "<=" | RGe => ">=" | REq => "=" | RNe => "!=" end%string.

(** g 157-168 *)
Definition num_spaces (l : nat) : string :=
  if (l <= 10)%N then "      "%string
  else if (l <= 100)%N then "       "%string
  else if (l <= 1000)%N then "        "%string
  else if (l <= 100 * 100)%N then "         "%string
  else "          "%string.
Definition bar : string := "|-----------------------------------------  "%string.
Definition arrow : string := "        -->"%string.

Section Model.
Variables (R : realDomainType) (L : lib R) (str : P L -> string).
Definition atom_str (a : atom L) : string := "[" +++ str (apoly a) +++ " " +++ op_str (aop a) +++ " 0]".
(** g 170-178; [l] is num_antecedent_hyps. *)
Definition imp_str (l : nat) (g : goal L) : string :=
  if goal_hyps g is [::] then ""%string else nl +++ arrow +++ nl +++ num_spaces l.
Definition goal_str (l : nat) (g : goal L) : string :=
  num_spaces l +++ join [seq atom_str a | a <- goal_hyps g] (" /\" +++ nl +++ num_spaces l)
    +++ imp_str l g +++ atom_str (main_goal g).
Fixpoint hyp_strs (i : nat) (hs : seq (atom L)) : seq string :=
  if hs is h :: hs' then ("  H" +++ decimal i +++ ": " +++ atom_str h) :: hyp_strs i.+1 hs' else [::].
Definition decide_str (s : decide L) : string :=
  nl +++ join (hyp_strs 0 (hyps s)) (" " +++ nl) +++ nl +++ bar +++ nl +++ goal_str (size (hyps s)) (dgoal s).
(** g 976: the line after Final hypotheses to use. *)
Definition final_str (s : decide L) : string := "   " +++ join [seq atom_str h | h <- goal_hyps (dgoal s)] ", ".
End Model.

(** ** Specification: reading the text *)

(** The lines of a text. *)
Fixpoint lines (s : string) : seq string :=
  match s with
  | EmptyString => [:: ""%string]
  | String c s' =>
      if Ascii.eqb c "010" then ""%string :: lines s'
      else if lines s' is l :: ls then String c l :: ls else [::]
  end.
Fixpoint one_line (s : string) : bool := if s is String c s' then ~~ Ascii.eqb c "010" && one_line s' else true.

(** The part of a line from the first bracket to the last. *)
Fixpoint from_bracket (s : string) : string :=
  if s is String c s' then (if Ascii.eqb c "[" then s else from_bracket s') else ""%string.
Fixpoint upto_bracket (s : string) : string :=
  if s is String c s' then
    (let t := upto_bracket s' in
     if t is EmptyString then (if Ascii.eqb c "]" then String c ""%string else ""%string) else String c t)
  else ""%string.
Definition bracketed (s : string) : string := upto_bracket (from_bracket s).
(** The bracketed parts before and after the bar, without lines that have none. *)
Definition atoms_of (ls : seq string) : seq string := [seq a <- map bracketed ls | ~~ String.eqb a ""].
Definition before (ls : seq string) : seq string := take (find (String.eqb bar) ls) ls.
Definition after (ls : seq string) : seq string := drop (find (String.eqb bar) ls).+1 ls.
Definition read_hyps (text : string) : seq string := atoms_of (before (lines text)).
Definition read_goal (text : string) : seq string := atoms_of (after (lines text)).

(** ** Texts and lines *)
Lemma appA s t u : s +++ (t +++ u) = (s +++ t) +++ u.
Proof. by elim: s => //= c s ->. Qed.
Lemma app0 s : s +++ "" = s.
Proof. by elim: s => //= c s ->. Qed.
Lemma length_app s t : String.length (s +++ t) = (String.length s + String.length t)%N.
Proof. by elim: s => //= c s ->. Qed.
Lemma one_line_app s t : one_line (s +++ t) = one_line s && one_line t.
Proof. by elim: s => //= c s ->; rewrite andbA. Qed.
Lemma lines_one s : one_line s -> lines s = [:: s].
Proof. by elim: s => //= c s IH /andP[/negbTE -> /IH ->]. Qed.
Lemma lines_cons s t : one_line s -> lines (s +++ nl +++ t) = s :: lines t.
Proof. by elim: s => //= c s IH /andP[/negbTE -> /IH ->]. Qed.

Lemma one_line_digit k : (k < 10)%N -> one_line (digit k).
Proof. by do 10 case: k => [|k] //. Qed.
Lemma one_line_decimal k : one_line (decimal k).
Proof.
rewrite /decimal; move: k.+1 => n; elim: n k => //= n IH k; case: ifP => [|_]; first exact: one_line_digit.
by rewrite one_line_app IH one_line_digit // ltn_mod.
Qed.
Lemma one_line_spaces l : one_line (num_spaces l).
Proof. by rewrite /num_spaces; repeat case: ifP. Qed.
Lemma one_line_op o : one_line (op_str o). Proof. by case: o. Qed.

(** Joined lines. *)
Fixpoint glue (p sep pre : string) (ls : seq string) : seq string :=
  match ls with
  | [::] => [::]
  | [:: x] => [:: p +++ x]
  | x :: ls' => (p +++ x +++ sep) :: glue pre sep pre ls'
  end.
Lemma lines_join p sep pre (ls : seq string) t : ls <> [::] -> all one_line [:: p, sep, pre & ls] ->
  lines (p +++ join ls (sep +++ nl +++ pre) +++ nl +++ t) = glue p sep pre ls ++ lines t.
Proof.
move=> + /and4P[+ Os Op +]; elim: ls p => [//|x [|y ls] IH] p _ O1 /andP[O2 O3].
  by rewrite [join _ _]/= appA lines_cons ?one_line_app ?O1 ?O2.
have -> : p +++ join (x :: y :: ls) (sep +++ nl +++ pre) +++ nl +++ t =
    (p +++ x +++ sep) +++ nl +++ (pre +++ join (y :: ls) (sep +++ nl +++ pre) +++ nl +++ t).
  by rewrite -[join (x :: y :: ls) _]/(x +++ (sep +++ nl +++ pre) +++ join (y :: ls) (sep +++ nl +++ pre)) -!appA.
rewrite lines_cons ?one_line_app ?O1 ?O2 //; congr (_ :: _); exact: IH.
Qed.
Lemma nth_glue p sep ls i : (i < size ls)%N ->
  nth ""%string (glue p sep "" ls) i =
    (if i is 0 then p else ""%string) +++ nth ""%string ls i +++ (if (i.+1 < size ls)%N then sep else ""%string).
Proof.
elim: ls p i => [//|x [|y ls] IH] p [|i] //=; first by rewrite app0.
by move=> lt; rewrite -/(glue "" sep "" (y :: ls)) IH //; case: i lt.
Qed.

(** ** Brackets *)
Fixpoint no_char (c : ascii) (s : string) : bool := if s is String d s' then ~~ Ascii.eqb d c && no_char c s' else true.
Lemma from_app u w : no_char "[" u -> from_bracket (u +++ w) = from_bracket w.
Proof. by elim: u => //= c u IH /andP[/negbTE -> /IH]. Qed.
Lemma upto_none v : no_char "]" v -> upto_bracket v = ""%string.
Proof. by elim: v => //= c v IH /andP[/negbTE -> /IH ->]. Qed.
Lemma upto_app m v : no_char "]" v -> upto_bracket (m +++ "]" +++ v) = m +++ "]".
Proof.
move=> V; elim: m => [|c m IH] /=; first by rewrite upto_none.
by rewrite IH; case: m {IH}.
Qed.
Lemma bracketed_app u m v : no_char "[" u -> no_char "]" v -> bracketed (u +++ ("[" +++ m +++ "]") +++ v) = "[" +++ m +++ "]".
Proof.
move=> U V; rewrite /bracketed from_app // -appA.
have -> : from_bracket ("[" +++ (m +++ "]") +++ v) = ("[" +++ m) +++ "]" +++ v by rewrite -!appA.
by rewrite upto_app.
Qed.
Lemma bracketed0 u m : no_char "[" u -> bracketed (u +++ "[" +++ m +++ "]") = "[" +++ m +++ "]".
Proof. by move=> U; have := @bracketed_app u m "" U isT; rewrite [_ +++ ""]app0. Qed.

Lemma no_char_app c s t : no_char c (s +++ t) = no_char c s && no_char c t.
Proof. by elim: s => //= d s ->; rewrite andbA. Qed.
Lemma no_digit k : (k < 10)%N -> no_char "[" (digit k).
Proof. by do 10 case: k => [|k] //. Qed.
Lemma no_decimal k : no_char "[" (decimal k).
Proof.
rewrite /decimal; move: k.+1 => n; elim: n k => //= n IH k; case: ifP => [|_]; first exact: no_digit.
by rewrite no_char_app IH no_digit // ltn_mod.
Qed.
Lemma no_spaces l : no_char "[" (num_spaces l).
Proof. by rewrite /num_spaces; repeat case: ifP. Qed.

Lemma not_bar l : bracketed l <> ""%string -> String.eqb bar l = false.
Proof. by move=> H; apply/negP => /String.eqb_eq E; apply: H; rewrite -E. Qed.

Section Read.
Variables (R : realDomainType) (L : lib R) (str : P L -> string).
Hypothesis str1 : forall p, one_line (str p).
Local Notation atom_str := (atom_str str).
Implicit Types (a h : atom L) (s : decide L) (g : goal L).

Definition inner a : string := str (apoly a) +++ " " +++ op_str (aop a) +++ " 0".
Lemma atom_strE a : atom_str a = "[" +++ inner a +++ "]".
Proof. by rewrite /atom_str /inner -!appA. Qed.
Lemma one_line_atom a : one_line (atom_str a).
Proof. by rewrite /atom_str !one_line_app str1 one_line_op. Qed.

(** Joined atoms, each with a prefix. *)
Lemma glue_atoms p sep pre (us : seq (string * atom L)) : no_char "[" p -> no_char "[" pre -> no_char "]" sep ->
  all (fun u => no_char "[" u.1) us ->
  map bracketed (glue p sep pre [seq u.1 +++ atom_str u.2 | u <- us]) = [seq atom_str u.2 | u <- us].
Proof.
move=> + Np Ns; elim: us p => [//|[u a] [|u' us] IH] p P0 /andP[/= U A].
  by rewrite appA atom_strE bracketed0 // no_char_app P0.
rewrite /= -appA appA atom_strE bracketed_app ?no_char_app ?P0 //; congr (_ :: _).
exact: IH.
Qed.

Fixpoint hyp_pairs (i : nat) (hs : seq (atom L)) : seq (string * atom L) :=
  if hs is h :: hs' then ("  H" +++ decimal i +++ ": ", h) :: hyp_pairs i.+1 hs' else [::].
Lemma hyp_strsE i hs : hyp_strs str i hs = [seq u.1 +++ atom_str u.2 | u <- hyp_pairs i hs].
Proof. by elim: hs i => //= h hs IH i; rewrite IH -!appA. Qed.
Lemma hyp_pairs2 i hs : [seq atom_str u.2 | u <- hyp_pairs i hs] = map atom_str hs.
Proof. by elim: hs i => //= h hs IH i; rewrite IH. Qed.
Lemma hyp_pairs1 i hs : all (fun u => no_char "[" u.1) (hyp_pairs i hs).
Proof. by elim: hs i => //= h hs IH i; rewrite IH !no_char_app no_decimal. Qed.
Lemma hyp_strs_one i hs : all one_line (hyp_strs str i hs).
Proof.
elim: hs i => // h hs IH i.
change (one_line ("  H" +++ decimal i +++ ": " +++ atom_str h) && all one_line (hyp_strs str i.+1 hs)).
by rewrite IH 3!one_line_app one_line_decimal one_line_atom.
Qed.
Lemma size_hyp_strs i hs : size (hyp_strs str i hs) = size hs.
Proof. by elim: hs i => //= h hs IH i; rewrite IH. Qed.
Lemma nth_hyp_strs i hs k h0 : (k < size hs)%N ->
  nth ""%string (hyp_strs str i hs) k = "  H" +++ decimal (i + k) +++ ": " +++ atom_str (nth h0 hs k).
Proof.
elim: hs i k => //= h hs IH i [|k] lt; first by rewrite addn0.
by rewrite /= IH // addSnnS.
Qed.

(** The lines before the bar, and after it. *)
Definition hyp_lines s : seq string :=
  if hyps s is [::] then [:: ""%string] else glue "" " " "" (hyp_strs str 0 (hyps s)).
Lemma decide_lines s : lines (decide_str str s) =
  [:: ""%string] ++ hyp_lines s ++ bar :: lines (goal_str str (size (hyps s)) (dgoal s)).
Proof.
rewrite /decide_str; set G := goal_str _ _ _.
rewrite -[nl +++ _]/(""%string +++ nl +++ _) lines_cons //; congr (_ :: _).
rewrite /hyp_lines; case E : (hyps s) => [|h hs].
  by rewrite -[_ +++ _]/(""%string +++ nl +++ bar +++ nl +++ G) !lines_cons.
rewrite -[join _ _ +++ _]/(""%string +++ join (hyp_strs str 0 (h :: hs)) (" " +++ nl +++ "") +++ nl +++ bar +++ nl +++ G).
rewrite lines_join; [by rewrite lines_cons|by []|].
change (all one_line (hyp_strs str 0 (h :: hs))); exact: hyp_strs_one.
Qed.

Lemma hyp_lines_atoms s : map bracketed (hyp_lines s) =
  if hyps s is [::] then [:: ""%string] else map atom_str (hyps s).
Proof.
rewrite /hyp_lines; case E : (hyps s) => [//|h hs].
by rewrite hyp_strsE glue_atoms ?hyp_pairs2 ?hyp_pairs1.
Qed.
Lemma atom_str_nonempty a : String.eqb (atom_str a) "" = false.
Proof. by []. Qed.
Lemma filter_atoms (l : seq (atom L)) : [seq a <- map atom_str l | ~~ String.eqb a ""] = map atom_str l.
Proof. by elim: l => // a l /= ->. Qed.
Lemma no_bar s : find (String.eqb bar) ([:: ""%string] ++ hyp_lines s) = size ([:: ""%string] ++ hyp_lines s).
Proof.
apply: hasNfind; change (~~ has (String.eqb bar) (hyp_lines s)); have := hyp_lines_atoms s; case E : (hyps s) => [|h hs].
  by rewrite /hyp_lines E.
elim: (hyp_lines s) (h :: hs) => [|l ls IH] [|a l'] // [El Els].
change (~~ (String.eqb bar l || has (String.eqb bar) ls)); rewrite not_bar ?El //; exact: IH Els.
Qed.
Lemma decide_split s : before (lines (decide_str str s)) = [:: ""%string] ++ hyp_lines s /\
  after (lines (decide_str str s)) = lines (goal_str str (size (hyps s)) (dgoal s)).
Proof.
rewrite /before /after decide_lines catA; set l := _ ++ hyp_lines s; set g := lines _.
have -> : find (String.eqb bar) (l ++ bar :: g) = size l.
  rewrite find_cat no_bar -/l.
  have -> : has (String.eqb bar) l = false.
    by apply/negbTE; rewrite has_find no_bar ltnn.
  by rewrite /= addn0.
by rewrite take_size_cat // -cat_rcons drop_size_cat // size_rcons.
Qed.

Lemma read_hypsP s : read_hyps (decide_str str s) = map atom_str (hyps s).
Proof.
rewrite /read_hyps (proj1 (decide_split s)) /atoms_of map_cat filter_cat /= hyp_lines_atoms.
by case: (hyps s) => [//|h hs]; rewrite filter_atoms.
Qed.

Lemma one_line_main l a : one_line (num_spaces l +++ atom_str a).
Proof. by rewrite one_line_app one_line_spaces one_line_atom. Qed.
Lemma bracketed_main l a : bracketed (num_spaces l +++ atom_str a) = atom_str a.
Proof. by rewrite atom_strE bracketed0 ?no_spaces. Qed.

Lemma read_goalP s : read_goal (decide_str str s) = map atom_str (goal_hyps (dgoal s)) ++ [:: atom_str (main_goal (dgoal s))].
Proof.
rewrite /read_goal (proj2 (decide_split s)) /atoms_of; move: (size _) (dgoal s) => l g.
rewrite /goal_str /imp_str; set m := main_goal g; case: (goal_hyps g) => [|h hs].
  rewrite -[join _ _ +++ _]/(atom_str m) (lines_one (one_line_main l m)).
  change ([seq a <- [:: bracketed (num_spaces l +++ atom_str m)] | ~~ String.eqb a ""] = [:: atom_str m]).
  by rewrite bracketed_main.
set hl := [seq atom_str a | a <- h :: hs].
have -> : num_spaces l +++ join hl (" /\" +++ nl +++ num_spaces l) +++ (nl +++ arrow +++ nl +++ num_spaces l) +++ atom_str m =
   num_spaces l +++ join hl (" /\" +++ nl +++ num_spaces l) +++ nl +++ (arrow +++ nl +++ (num_spaces l +++ atom_str m)).
  by congr (_ +++ (_ +++ _)); rewrite -!appA.
have Hl : all one_line hl.
  by rewrite /hl; elim: (h :: hs) => // a r IH; apply/andP; split=> //; exact: one_line_atom.
rewrite lines_join //; last by apply/and4P; split; rewrite ?one_line_spaces.
rewrite lines_cons // (lines_one (one_line_main l m)).
have <- : [seq u.1 +++ atom_str u.2 | u <- [seq (""%string, a) | a <- h :: hs]] = hl by rewrite -map_comp.
rewrite map_cat glue_atoms ?no_spaces //; last by elim: (hs).
rewrite -map_comp filter_cat filter_atoms; congr (_ ++ _); first by rewrite -map_comp.
change ([seq a <- [:: ""%string; bracketed (num_spaces l +++ atom_str m)] | ~~ String.eqb a ""] = [:: atom_str m]).
by rewrite bracketed_main.
Qed.
End Read.
