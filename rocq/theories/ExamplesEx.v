(** Concrete cases for vts/examples_parser.py. *)
From Coq Require Import String Ascii.
From mathcomp Require Import all_ssreflect all_algebra.
From Verif Require Import Py VtsModel VtsSpec VtsInst IsymModel IsymSpec IsymFacts.
From Verif Require Import CheckerModel CheckerSpec CheckerFacts CheckerInst GParserModel GParserSpec.
From Verif Require Import FileSys ExamplesSpec FileFacts ExamplesModel ExamplesFacts ExamplesWrite.
From Verif Require Import ExamplesMain ExamplesCheck.

Set Implicit Arguments.
Unset Strict Implicit.
Unset Printing Implicit Defensive.

(** ** File systems *)
Definition lower_char (c : ascii) : ascii :=
  let n := nat_of_ascii c in if (65 <= n <= 90)%N then ascii_of_nat (n + 32) else c.
Fixpoint lower (s : string) : string :=
  if s is String c s' then String (lower_char c) (lower s') else EmptyString.
Notation exact_names := (@id string).

Example names_linux : case_matters exact_names /\ other_names exact_names.
Proof. by split; [|split]. Qed.
Example names_mac : case_ignored lower /\ other_names lower.
Proof. by split; [|split]. Qed.

Definition no_dump (_ : examples term) : text := [::].
Definition no_load (_ : text) : res (examples term) := Err (Exc "UnpicklingError").
Notation tree_in l := (Dir [:: ("Examples"%string, Dir [:: ("MetiTarski"%string, Dir l)])]).

Definition text_a : text := txt "(sequent ""a"" (antecedent (>= x 1)) (succedent (> y 0)))".
Definition text_b : text := txt "(sequent ""b"" (antecedent (> x 0)) (succedent (>= x 1)))".
Definition repo : fs :=
  Dir [:: ("GRF"%string, tree_in [:: ("a"%string, File (Text text_a)); ("b"%string, File (Text text_b))]);
          ("vts"%string, Dir [::])].
(** An earlier run left a pickle. *)
Definition repo_old : fs :=
  Dir [:: ("GRF"%string, tree_in [:: ("a"%string, File (Text text_a)); ("b"%string, File (Text text_b))]);
          ("vts"%string, Dir [:: ("Examples"%string, Dir [:: ("Metitarski"%string,
             Dir [:: ("old.pkl"%string, File (Pickle [::]))])])])].

Notation preformatE fold := (examples_preformat_uni fold no_dump id id id (@Rel term)).
Notation writeE fold := (write_examples fold no_dump id id id (@Rel term)).

Lemma wf_file fold c : @wf content fold (File c). Proof. exact: WfFile. Qed.
Lemma wf_nil fold : @wf content fold (Dir [::]). Proof. by apply: WfDir. Qed.
Lemma wf_cons fold k m es : ~~ has (fun e : string * fs => fold k == fold e.1) es -> wf fold m ->
  wf fold (Dir es) -> @wf content fold (Dir ((k, m) :: es)).
Proof.
move=> n wm w; inversion w as [|? u h]; subst; apply: WfDir.
  rewrite /= u andbT; apply: contra n => {w u h}; elim: es => //= e es IH.
  by rewrite inE => /orP[->//|/IH ->]; rewrite orbT.
by move=> k' m' [[_ <-]|/h].
Qed.
Ltac wf_tac := repeat first [exact: wf_file|exact: wf_nil|apply: wf_cons => //].

Lemma repo_wf : wf exact_names repo. Proof. by rewrite /repo; wf_tac. Qed.
Lemma repo_wf_lower : wf lower repo. Proof. by rewrite /repo; wf_tac. Qed.
Lemma repo_old_wf : wf exact_names repo_old. Proof. by rewrite /repo_old; wf_tac. Qed.

Definition names_of (r : res (dict string_eqType (dict string_eqType (examples term)))) :
    option (seq (string * seq (string * nat))) :=
  if r is Ok d then Some [seq (e.1, [seq (f.1, size f.2) | f <- e.2]) | e <- d] else None.

Definition names_ab := Some [:: ("Metitarski"%string, [:: ("a"%string, 1); ("b"%string, 1)])].
Lemma repo_names : names_of (preformatE exact_names repo) = names_ab.
Proof. by vm_compute. Qed.
Lemma repo_names_lower : names_of (preformatE lower repo) = names_ab.
Proof. by vm_compute. Qed.
Lemma repo_names_old : names_of (preformatE exact_names repo_old) = names_ab.
Proof. by vm_compute. Qed.

Lemma from_names fold (r : res (dict string_eqType (dict string_eqType (examples term)))) :
  names_of r = names_ab -> ~~ same fold "a.pkl" "b.pkl" ->
  exists ff a b, [/\ r = Ok [:: ("Metitarski"%string, ff)], names_differ fold ff &
     ff = [:: ("a"%string, [:: a]); ("b"%string, [:: b])]].
Proof.
case: r => [d|//]; case: d => [|[m ff] [|]] //.
case: ff => [|[a xs] [|[b ys] [|]]] //; case: xs => [|xa [|]] //; case: ys => [|xb [|]] //.
case=> -> -> -> ne.
exists [:: ("a"%string, [:: xa]); ("b"%string, [:: xb])], xa, xb; split=> //.
move=> f g; rewrite !dmem_fst !inE => /orP[] /eqP-> /orP[] /eqP-> //.
  by rewrite (negbTE ne).
by rewrite same_sym (negbTE ne).
Qed.

(** The hypotheses of the theorems on writing. *)
Lemma repo_ready : exists ff a b,
  [/\ wf exact_names repo, writable exact_names repo, look exact_names repo out_dir = None,
      preformatE exact_names repo = Ok [:: ("Metitarski"%string, ff)] &
      names_differ exact_names ff /\ ff = [:: ("a"%string, [:: a]); ("b"%string, [:: b])]].
Proof.
have [ff [a [b [e nd h]]]] := @from_names exact_names _ repo_names isT.
by exists ff, a, b; split=> //; [exact: repo_wf|split=> //; exists [::]].
Qed.
Lemma repo_clear (ff : dict string_eqType (examples term)) : clear_way exact_names repo ff.
Proof. by []. Qed.
Lemma repo_ready_lower : exists ff a b,
  [/\ wf lower repo, writable lower repo, look lower repo out_dir = None,
      preformatE lower repo = Ok [:: ("Metitarski"%string, ff)] &
      names_differ lower ff /\ ff = [:: ("a"%string, [:: a]); ("b"%string, [:: b])]].
Proof.
have [ff [a [b [e nd h]]]] := @from_names lower _ repo_names_lower isT.
by exists ff, a, b; split=> //; [exact: repo_wf_lower|split=> //; exists [::]].
Qed.

Lemma repo_example : exists es,
  [/\ wf exact_names repo, look exact_names repo in_dir = Some (Dir es), distinct_names (Dir es) &
      has_file (Dir es) [:: "a"%string] (Text text_a) /\
      names_of (preformatE exact_names repo) =
        Some [:: ("Metitarski"%string, [:: ("a"%string, 1); ("b"%string, 1)])]].
Proof.
exists [:: ("a"%string, File (Text text_a)); ("b"%string, File (Text text_b))]; split=> //.
- exact: repo_wf.
- have hf q c : has_file (Dir [:: ("a"%string, File (Text text_a)); ("b"%string, File (Text text_b))]) q c ->
    q = [:: base q].
    move=> h; inversion h as [|? k m q' ? i h']; subst.
    by case: i h' => [[_ <-]|[[_ <-]|//]] h'; inversion h'.
  by move=> q1 q2 c1 c2 /hf e1 /hf e2 e; rewrite e1 e2 e.
split; last exact: repo_names.
by apply: BelowDir; [left; reflexivity|exact: HereFile].
Qed.

(** ** Two files of the same name *)
Definition seq1 (c : string) : sequent := MkSequent (txt c) [::] [::].
Definition text1 (c : string) : text := txt "(sequent """ ++ txt c ++ txt """(antecedent)(succedent))".
Definition twins : seq (string * fs) :=
  [:: ("p"%string, Dir [:: ("f"%string, File (Text (text1 "1")))]);
      ("q"%string, Dir [:: ("f"%string, File (Text (text1 "2")))])].
Definition repo_twins : fs := Dir [:: ("GRF"%string, tree_in twins); ("vts"%string, Dir [::])].

Lemma text1_ok c : ~~ has (Ascii.eqb """"%char) (txt c) -> file_text [:: seq1 c] (text1 c).
Proof.
move=> n.
have -> : text1 c = [::] ++ ([::] ++ txt "(" ++ [::] ++ txt "sequent" ++ txt " " ++ txt """" ++ txt c ++
   txt """" ++ txt "(antecedent)" ++ txt "(succedent)" ++ [::] ++ txt ")") ++ [::].
  by rewrite !cats0.
apply: TxMore => //; last exact: TxEnd.
apply: TxSequent => //.
- by apply: (@TxSide "antecedent" [::] [::] [::] [::] [::]) => //; exact: TxNil.
- by apply: (@TxSide "succedent" [::] [::] [::] [::] [::]) => //; exact: TxNil.
Qed.

Lemma twins_lost :
  exists s es q1 q2 t1 t2 d,
  [/\ wf exact_names s, look exact_names s in_dir = Some (Dir es),
      has_file (Dir es) q1 (Text t1) /\ has_file (Dir es) q2 (Text t2),
      file_text [:: seq1 "1"] t1 /\ file_text [:: seq1 "2"] t2 &
      parse_example_dirs exact_names no_dump s = Ok [:: ("Metitarski"%string, d)] /\
      forall f qs, dget d f = Ok qs -> qs = [:: seq1 "2"]].
Proof.
exists repo_twins, twins, [:: "p"; "f"]%string, [:: "q"; "f"]%string, (text1 "1"), (text1 "2"),
  [:: ("f"%string, [:: seq1 "2"])]; split=> //.
- by rewrite /repo_twins /twins; wf_tac.
- split.
    by apply: BelowDir; [left; reflexivity|apply: BelowDir; [left; reflexivity|exact: HereFile]].
  by apply: BelowDir; [right; left; reflexivity|apply: BelowDir; [left; reflexivity|exact: HereFile]].
- by split; exact: text1_ok.
split; first by vm_compute.
by move=> f qs /=; case: ifP => // _ [].
Qed.

(** ** What is written is not found again *)
Lemma not_found_again :
  exists s s' ff v,
  [/\ wf exact_names s, preformatE exact_names s = Ok [:: ("Metitarski"%string, ff)],
      dget ff "a"%string = Ok [:: v], writeE exact_names None s = Ok s' &
      unpickle_dirs exact_names no_load s' =
        Ok [:: ("Metitarski"%string, [::]); ("HidingProblems"%string, [::])]].
Proof.
have [ff [a [b [w wr no hp [nd ef]]]]] := repo_ready.
have [s' h1 h2] := @not_found exact_names no_dump no_load id id id (@Rel term) repo ff [::] w wr hp
  (repo_clear ff) erefl (proj1 names_linux) (proj2 names_linux) erefl.
by exists repo, s', ff, a; split=> //; rewrite ef.
Qed.

(** ** Interrupted while writing the first file *)
Lemma interrupted_eof :
  exists s s' k, writeE exact_names (Some k) s = Ok s' /\
    unpickle_from_dir exact_names no_load s' out_dir = Err EOFError.
Proof.
have [ff [a [b [w wr no hp [nd ef]]]]] := repo_ready.
have [s' h1 h2] := interrupted no_load 2 w wr no hp nd.
by exists repo, s', 2; split=> //; move: h2; rewrite ef.
Qed.

(** ** A pickle that is no longer wanted *)
Lemma old_pickle :
  exists s s' ff r,
  [/\ preformatE exact_names s = Ok [:: ("Metitarski"%string, ff)], writeE exact_names None s = Ok s',
      unpickle_from_dir exact_names no_load s' out_dir = Ok r,
      dget r "old.pkl"%string = Ok [::] & dmem ff "old"%string = false].
Proof.
have [ff [a [b [e nd ef]]]] := @from_names exact_names _ repo_names_old isT.
set es : seq (string * fs) := [:: ("old.pkl"%string, File (Pickle [::]))].
have nd' : no_dirs exact_names es ff.
  by rewrite ef => f es' /= [<-|[<-|//]].
have [|s' [h1 h2 h3 h4]] := @write_into exact_names no_dump id id id (@Rel term) repo_old es ff repo_old_wf
  _ e (or_introl erefl) nd'.
  by split=> //; eexists.
have h3' : look exact_names s' out_dir = Some (Dir (es ++ map ent ff)).
  by rewrite h3 ef.
exists repo_old, s', ff, (("old.pkl"%string, [::]) :: with_pkl ff); split=> //; last by rewrite ef.
by rewrite (unpickle_loop _ h2 h3') ef.
Qed.

(** ** The contracts of sympy *)
Import GRing.Theory Num.Theory Order.POrderTheory Order.TotalTheory.
Local Open Scope ring_scope.

Definition all_x (t : term) : bool := all (fun v => v == "x"%string) (tvars t).
Definition mkX (c : cls) (a b : term) : formula term :=
  if all_x a && all_x b then
    if diag a is Some P then if diag b is Some Q then
      if (size P <= 1)%N && (size Q <= 1)%N then Bool (num_rel c P`_0 Q`_0) else Rel c a b
    else Rel c a b else Rel c a b
  else Rel c a b.
Definition viewX (t : term) : {poly rat} := odflt 0 (diag t).

Lemma all_xP t : reflect (only_x t) (all_x t).
Proof.
rewrite /all_x /only_x; elim: (tvars t) => [|v l IH] /=; first by constructor.
apply: (iffP andP) => [[/eqP -> /IH h] s [<-|/h]|h] //.
by split; [apply/eqP/h; left|apply/IH => s i; apply: h; right].
Qed.

Lemma viewX_contract : view_contract viewX.
Proof. by move=> t P; rewrite /viewX => ->. Qed.
Lemma id_keeps : keeps_poly id. Proof. by split. Qed.
Lemma mkX_evaluates : mk_evaluates id mkX.
Proof.
move=> c t P /all_xP ox e s; rewrite /mkX ox e /= size_polyC_leq1 s /=.
by eexists.
Qed.
Lemma mkX_contract (R : rcfType) : mk_term_contract R mkX.
Proof.
move=> c a b; rewrite /mkX; case: ifP => [/andP[/all_xP oa /all_xP ob]|_]; last by left.
case ea: (diag a) => [P|]; last by left.
case eb: (diag b) => [Q|]; last by left.
case: ifP => [/andP[sP sQ]|_]; last by left.
right; eexists; split; first by [].
move=> v x y hx hy.
have vE t U z : only_x t -> diag t = Some U -> (size U <= 1)%N -> tvalue t v = Some z -> z = ratr U`_0.
  move=> ot et sU; rewrite (@tvalue_ext R t v (fun=> v "x"%string)); last by move=> s /ot ->.
  by rewrite (diag_value _ et) rvalueC // => -[].
rewrite (vE a P x oa ea sP hx) (vE b Q y ob eb sQ hy); exact: num_relP.
Qed.

(** The texts of the files above, as sequents. *)
Definition seq_a : sequent :=
  MkSequent (txt "a") [:: (CGe, TVar "x", TNum 1)] [:: (CGt, TVar "y", TNum 0)].
Definition seq_b : sequent :=
  MkSequent (txt "b") [:: (CGt, TVar "x", TNum 0)] [:: (CGe, TVar "x", TNum 1)].

Definition verdictZ : sequent -> res bool :=
  verdict id id id mkX viewX strZ rootsZ invQ id.

Lemma uniX c v q : mkX c (TVar v) (TNum q) = Rel c (TVar v) (TNum q).
Proof. by rewrite /mkX /= size_polyX; case: ifP. Qed.
Lemma uniX' c q : mkX c (TSub (TVar "x") (TNum q)) (TNum 0) = Rel c (TSub (TVar "x") (TNum q)) (TNum 0).
Proof. by rewrite /mkX /= size_XsubC. Qed.

Lemma verdict_a : verdictZ seq_a = Ok true.
Proof.
rewrite -check_oneZ_valid /verdictZ /verdict /univariate_example /relation_of /=.
rewrite !uniX /make_univariate /= !uniX' /view_example /=.
by rewrite /viewX /= polyC0 subr0.
Qed.
Lemma verdict_b : verdictZ seq_b = Ok false.
Proof.
rewrite -check_oneZ_invalid /verdictZ /verdict /univariate_example /relation_of /=.
rewrite !uniX /make_univariate /= !uniX' /view_example /=.
by rewrite /viewX /= polyC0 subr0.
Qed.

Lemma contractsX (R : rcfType) :
  [/\ keeps_poly id, mk_term_contract R mkX, mk_evaluates id mkX & view_contract viewX].
Proof.
split; [exact: id_keeps|exact: mkX_contract|exact: mkX_evaluates|exact: viewX_contract].
Qed.
