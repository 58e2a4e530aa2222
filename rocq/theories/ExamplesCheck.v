(** The checker over the pickles: from the text of a sequent to the verdict. *)
From Coq Require Import String Ascii.
From mathcomp Require Import all_ssreflect all_algebra.
From Verif Require Import Py VtsModel VtsSpec IsymModel IsymSpec IsymFacts.
From Verif Require Import CheckerModel CheckerSpec CheckerFacts GParserModel GParserSpec GParserFacts.
From Verif Require Import FileSys ExamplesSpec FileFacts ExamplesModel ExamplesFacts ExamplesWrite ExamplesMain.

Set Implicit Arguments.
Unset Strict Implicit.
Unset Printing Implicit Defensive.
Import GRing.Theory Num.Theory Order.POrderTheory Order.TotalTheory.
Local Open Scope ring_scope.

Section Verdict.
Variable R : rcfType.

Lemma diag_value t P (u : R) : diag t = Some P -> tvalue t (fun=> u) = Some (rvalue P u).
Proof.
rewrite /rvalue; elim: t P => [q|s|a IHa b IHb|a IHa b IHb|a IHa b IHb|a IHa b IHb|a IHa] P /=.
- by move=> [<-]; rewrite map_polyC hornerC.
- by move=> [<-]; rewrite map_polyX hornerX.
- case: (diag a) IHa => // Pa /(_ Pa erefl) ->; case: (diag b) IHb => // Pb /(_ Pb erefl) -> [<-] /=.
  by rewrite rmorphD hornerD.
- case: (diag a) IHa => // Pa /(_ Pa erefl) ->; case: (diag b) IHb => // Pb /(_ Pb erefl) -> [<-] /=.
  by rewrite rmorphB hornerD hornerN.
- case: (diag a) IHa => // Pa /(_ Pa erefl) ->; case: (diag b) IHb => // Pb /(_ Pb erefl) -> [<-] /=.
  by rewrite rmorphM hornerM.
- case: (diag a) IHa => // Pa /(_ Pa erefl) ->; case: (diag b) IHb => // Pb /(_ Pb erefl) ->.
  case: ifP => // /size_poly1P[c c0 ->] [<-] /=.
  rewrite map_polyC hornerC /= coefC eqxx fmorph_eq0 (negbTE c0).
  by rewrite linearZ_LR /= hornerZ fmorphV mulrC.
- case: (diag a) IHa => // Pa /(_ Pa erefl) -> [<-] /=.
  by rewrite rmorphN hornerN.
Qed.

Lemma diag_rename v w t : diag (rename v w t) = diag t.
Proof. by elim: t => //= [a -> b ->|a -> b ->|a -> b ->|a -> b ->|a ->]. Qed.

Variables (simp expand : term -> term) (var_set : seq string -> seq string).
Variable mk : cls -> term -> term -> formula term.
Variable view : term -> {poly rat}.
Hypothesis simpP : keeps_poly simp.
Hypothesis expandP : keeps_poly expand.
Hypothesis varP : set_contract var_set.
Hypothesis mkP : mk_term_contract R mk.
Hypothesis mkE : mk_evaluates expand mk.
Hypothesis viewP : view_contract view.

Notation relation_of := (relation_of simp mk).
Notation make_univariate := (make_univariate simp expand var_set mk).

Lemma only_x_vars vars t s :
  List.In s (tvars (foldl (fun t v => simp (rename v "x" t)) t vars)) ->
  s = "x"%string \/ List.In s (tvars t) /\ ~ List.In s vars.
Proof.
elim: vars t => [|v vars IH] t /=; first by auto.
case/IH=> [->|[/(proj2 simpP)/rename_vars h n]]; first by left.
by case: h => [->|[h1 h2]]; [left|right; split=> // -[/esym|]].
Qed.

Lemma one_relation f : poly_rel f ->
  (exists t, relation_of f = Bool t) \/
  exists g, [/\ make_univariate [:: relation_of f] = Ok [:: g], univariate (view_formula view g) &
    forall u : R, holds (@rvalue R) u (view_formula view g) <-> true_at u f].
Proof.
case: f => -[c a] b [/=]; case ea: (diag a) => [P|//] _; case eb: (diag b) => [Q|//] _.
rewrite /ExamplesModel.relation_of /=.
case: (mkP c (simp a) (simp b)) => [->|[t [-> _]]]; last by left; exists t.
right; rewrite /CheckerModel.make_univariate /=.
set t := foldl _ _ _.
have ox : only_x (expand t).
  by move=> s /(proj2 expandP)/only_x_vars[//|[h []]]; apply/varP.
have et : diag (expand t) = Some (P - Q).
  apply: (proj1 expandP); rewrite /t; move: (var_set _) => vs.
  have : diag (simp (TSub (simp a) (simp b))) = Some (P - Q).
    by apply: (proj1 simpP); rewrite /= (proj1 simpP _ _ ea) (proj1 simpP _ _ eb).
  move: (simp (TSub _ _)) => t0; elim: vs t0 => [|v vs IH] t0 //= e; apply: IH.
  by apply: (proj1 simpP); rewrite diag_rename.
have v0 : view (TNum 0) = 0 by apply: viewP.
have trE (u : R) : true_at u (c, a, b) <-> rel_holds c (rvalue (P - Q) u) 0.
  have <- : rvalue P u - rvalue Q u = rvalue (P - Q) u by rewrite /rvalue rmorphB hornerD hornerN.
  rewrite rel_sub /true_at /tholds /=; split.
    by move=> [x [y [+ + h]]]; rewrite (diag_value u ea) (diag_value u eb) => -[->] [->].
  by move=> h; exists (rvalue P u), (rvalue Q u); rewrite (diag_value u ea) (diag_value u eb).
exists (mk c (expand t) (TNum 0)); split=> //.
  case: (mkP c (expand t) (TNum 0)) => [e|[b' [-> _]]] //.
  rewrite e /= (viewP et) v0; split=> //; rewrite ltnNge; apply/negP=> s1.
  by have [b'] := mkE c ox et s1; rewrite e.
move=> u; rewrite trE.
case: (mkP c (expand t) (TNum 0)) => [->|[b' [-> h]]] /=.
  by rewrite (viewP et) v0 [in rvalue 0 u]/rvalue rmorph0 horner0.
apply: (h (fun=> u)); first exact: diag_value.
by rewrite /= rmorph0.
Qed.

Lemma all_relations fs : (forall f, List.In f fs -> poly_rel f) ->
  (make_univariate (map relation_of fs) = Err AttributeError /\
   exists2 f, List.In f fs & exists t, relation_of f = Bool t) \/
  exists2 gs, make_univariate (map relation_of fs) = Ok gs &
    List.Forall2 (fun f g => univariate (view_formula view g) /\
       forall u : R, holds (@rvalue R) u (view_formula view g) <-> true_at u f) fs gs.
Proof.
elim: fs => [|f fs IH] hp; first by right; exists [::].
rewrite [map _ _]/= make_univariate_cons.
case: (one_relation (hp f (or_introl erefl))) => [[t e]|[g [e h1 h2]]].
  by left; rewrite e; split=> //; exists f; [left|exists t].
case: (IH (fun f' i => hp f' (or_intror i))) => [[e' [f' i h]]|[gs e' h]]; rewrite e e' !bind_ok.
  by left; split=> //; exists f'; [right|].
by right; exists (g :: gs) => //; constructor.
Qed.

Lemma forall2_hold fs gs (u : R) :
  List.Forall2 (fun f g => univariate (view_formula view g) /\
       forall u : R, holds (@rvalue R) u (view_formula view g) <-> true_at u f) fs gs ->
  all_hold (@rvalue R) u (map (view_formula view) gs) <-> forall f, List.In f fs -> true_at u f.
Proof.
elim=> [|f g {}fs {}gs [_ h] _ IH]; first by split=> // _ f [].
split=> [hs f' [<-|i]|hs f' [<-|i]].
- by apply/h/hs; left.
- by move: f' i; apply/IH => f' i; apply: hs; right.
- by apply/h/hs; left.
- by move: f' i; apply/IH => f' i; apply: hs; right.
Qed.

Lemma forall2_uni fs gs :
  List.Forall2 (fun f g => univariate (view_formula view g) /\
       forall u : R, holds (@rvalue R) u (view_formula view g) <-> true_at u f) fs gs ->
  forall f, List.In f (map (view_formula view) gs) -> univariate f.
Proof. by elim=> [//|f g {}fs {}gs [h _] _ IH] f' /= [<-//|/IH]. Qed.

Lemma forall2_bool fs gs b :
  List.Forall2 (fun f g => univariate (view_formula view g) /\
       forall u : R, holds (@rvalue R) u (view_formula view g) <-> true_at u f) fs gs ->
  List.In (Bool b) (map (view_formula view) gs) ->
  exists2 f, List.In f fs & if b then always R f else never R f.
Proof.
elim=> [//|f g {}fs {}gs [_ h] _ IH] /= [e|/IH[f' i h']]; last by exists f' => //; right.
exists f; first by left.
case: b {IH} e => e u; rewrite -h e //; by [].
Qed.

Lemma forall2_true fs gs :
  List.Forall2 (fun f g => univariate (view_formula view g) /\
       forall u : R, holds (@rvalue R) u (view_formula view g) <-> true_at u f) fs gs ->
  only_true (map (view_formula view) gs) -> forall f, List.In f fs -> always R f.
Proof.
move=> F o f i u; move: f i; apply/(forall2_hold u F) => f' /o ->; by [].
Qed.

Variables (H : eqType) (str : int -> H).
Variable MkRoots : seq int -> res (seq R).
Variable mx_inv : rmatrix -> rmatrix.
Hypothesis str_inj : injective str.
Hypothesis inv_ok : inv_contract mx_inv.
Hypothesis roots_ok : MkRoots_contract (intr : int -> R) MkRoots.
Variable set_of : seq (formula upoly) -> seq (formula upoly).
Hypothesis setP : set_contract set_of.

(** From the parsed sequent to the verdict. *)
Definition verdict (q : sequent) : res bool :=
  let! ex := univariate_example simp expand var_set mk q in
  check_one opp_upoly mk_upoly set_of (decide_vts intr str MkRoots mx_inv) (view_example view ex).

Theorem verdict_ok q : (forall f, List.In f (s_ante q ++ s_succ q) -> poly_rel f) ->
  (exists b, verdict q = Ok b /\ (b = true <-> valid_diag R q)) \/
  [\/ verdict q = Err AttributeError /\
        exists2 f, List.In f (s_ante q ++ s_succ q) & exists t, relation_of f = Bool t,
      verdict q = Err (Exc "antecedent or succedent became zero") /\
        ((forall f, List.In f (s_ante q) -> always R f) \/ (forall f, List.In f (s_succ q) -> always R f)),
      verdict q = Err KeyError /\ (exists2 f, List.In f (s_succ q) & never R f)|
      verdict q = Err (Exc "relation wasn't added") /\ (exists2 f, List.In f (s_ante q) & never R f) \/
      verdict q = Err (Exc "more than 5 polies")].
Proof.
move=> hp; rewrite /verdict /univariate_example.
have pa f : List.In f (s_ante q) -> poly_rel f by move=> i; apply: hp; apply/List.in_app_iff; left.
have ps f : List.In f (s_succ q) -> poly_rel f by move=> i; apply: hp; apply/List.in_app_iff; right.
case: (all_relations pa) => [[-> [f i h]]|[ga -> Fa]]; rewrite ?bind_ok.
  by right; apply: Or41; split=> //; exists f => //; apply/List.in_app_iff; left.
case: (all_relations ps) => [[-> [f i h]]|[gs -> Fs]]; rewrite ?bind_ok.
  by right; apply: Or41; split=> //; exists f => //; apply/List.in_app_iff; right.
have u f : List.In f (map (view_formula view) ga ++ map (view_formula view) gs) -> univariate f.
  by rewrite List.in_app_iff => -[]; [exact: forall2_uni Fa _|exact: forall2_uni Fs _].
rewrite /view_example [_.1]/= [_.2]/=.
have := check_one_result str_inj inv_ok roots_ok setP u; cbv zeta.
move: (check_one _ _ _ _ _) => run; case=> [[-> h]|[-> h]|[-> h]|[b [hb h]]].
- right; apply: Or42; split=> //; case: h => o; [left|right]; exact: forall2_true o.
- by right; apply: Or43; split=> //; exact: (forall2_bool Fs h).
- by right; apply: Or44; left; split=> //; exact: (forall2_bool Fa h).
case: h => [->|[-> _]]; last by right; apply: Or44; right.
left; exists b; split=> //; rewrite hb /valid_diag.
by split=> h x; have := h x; rewrite (forall2_hold x Fa) (forall2_hold x Fs).
Qed.

Theorem text_to_verdict q t : sequent_text q t -> ~~ sequent_mentions "sympy" q ->
  (forall f, List.In f (s_ante q ++ s_succ q) -> poly_rel f) ->
  let run :=
    let! q' := parse_string cmd true t in
    let! ex := univariate_example simp expand var_set mk q' in
    check_one opp_upoly mk_upoly set_of (decide_vts intr str MkRoots mx_inv) (view_example view ex) in
  (exists b, run = Ok b /\ (b = true <-> valid_diag R q)) \/
  [\/ run = Err AttributeError /\
        exists2 f, List.In f (s_ante q ++ s_succ q) & exists b, relation_of f = Bool b,
      run = Err (Exc "antecedent or succedent became zero") /\
        ((forall f, List.In f (s_ante q) -> always R f) \/ (forall f, List.In f (s_succ q) -> always R f)),
      run = Err KeyError /\ (exists2 f, List.In f (s_succ q) & never R f) |
      run = Err (Exc "relation wasn't added") /\ (exists2 f, List.In f (s_ante q) & never R f) \/
      run = Err (Exc "more than 5 polies")].
Proof.
move=> h1 h2 h3; cbv zeta; rewrite (sequent_round_trip h1 h2) bind_ok.
exact: verdict_ok h3.
Qed.
End Verdict.

(** ** The loop over the files *)
Local Close Scope ring_scope.
Section Loop.
Variable fold : string -> string.
Variable dump : examples term -> text.
Variable load_text : text -> res (examples term).
Variables (simp expand : term -> term) (var_set : seq string -> seq string).
Variable mk : cls -> term -> term -> formula term.
Variables (E : Type) (view : term -> E).
Variables (opp : E -> E) (mkE : cls -> E -> E -> formula E).
Variable set_of : seq (formula E) -> seq (formula E).
Variable decide : seq E -> seq E -> seq E -> seq E -> res bool.
Implicit Types (s : fs).

Notation unpickle_file := (unpickle_file fold load_text).
Notation check_pickles := (check_pickles fold load_text view opp mkE set_of decide).
Notation check_examples := (check_examples opp mkE set_of decide).

Lemma check_pickles_examples s fs : mapM (unpickle_file s) (take 4 (all_names fold s)) = Ok fs ->
  check_pickles s = check_examples (map (map (view_example view)) fs).
Proof.
rewrite /ExamplesModel.check_pickles /CheckerModel.check_examples.
move: (all_names fold s) => l.
have loop n i l' fs' : mapM (unpickle_file s) l' = Ok fs' ->
    mapM (fun fe => let! es := unpickle_file s fe.2 in
       let! vs := check_file opp mkE set_of decide fe.1 (map (view_example view) es) in Ok (fe.1, vs))
      (zip (iota i n) l') =
    mapM (fun fe => let! vs := check_file opp mkE set_of decide fe.1 fe.2 in Ok (fe.1, vs))
      (zip (iota i n) (map (map (view_example view)) fs')).
  elim: l' i n fs' => [|p l' IH] i [|n] fs' /=; [by case=> <- | by case=> <- | |].
    by case: (unpickle_file s p) => // es; case: (mapM _ _) => // r /= [<-].
  case: (unpickle_file s p) => // es; case e: (mapM _ l') => [r|//] /= [<-] /=.
  by rewrite (IH i.+1 n r).
have zt (A B : Type) (x : seq A) (y : seq B) : size x = 3 -> zip x (take 3 y) = zip x y.
  by case: x => [|a [|b [|c [|d x]]]] //; case: y => [|a' [|b' [|c' [|d' y]]]].
rewrite !zt //.
have tE : zip (iota 0 3) (take 4 l) = zip (iota 0 3) l :> seq (nat * fpath).
  by case: l => [|a' [|b' [|c' [|d' l]]]] //=; case: l.
rewrite -tE => e; rewrite (loop _ _ _ _ e).
case: (mapM _ _) => // out; rewrite !bind_ok.
have -> // : (if drop 3 l is p :: _ then let! _ := unpickle_file s p in Ok tt else Ok tt) = Ok tt.
move: e; clear; case: l => [|a' [|b' [|c' [|d' l]]]] //=.
case: (unpickle_file s a') => //= ?; case: (unpickle_file s b') => //= ?.
by case: (unpickle_file s c') => //= ?; case: (unpickle_file s d').
Qed.

(** Where case matters the checker does not see what was written. *)
Lemma check_unchanged s s' : wf fold s -> wf fold s' ->
  look fold s' met_dir = look fold s met_dir -> look fold s' hid_dir = look fold s hid_dir ->
  check_pickles s' = check_pickles s.
Proof.
move=> w w' em eh.
have nE dir : look fold s' dir = look fold s dir -> walked fold s' dir = walked fold s dir.
  by rewrite /walked /walk => ->.
have gE dir pf : look fold s' dir = look fold s dir -> List.In pf (walked fold s dir) ->
    unpickle_file s' (rcons pf.1 pf.2) = unpickle_file s (rcons pf.1 pf.2).
  move=> e i; rewrite /ExamplesModel.unpickle_file /get.
  have [q ->] : exists q, rcons pf.1 pf.2 = dir ++ q.
    move: i; rewrite /walked /walk; case: (look _ _ _) => // n i.
    have : List.In (rcons pf.1 pf.2, pf.2) [seq (rcons x.1 x.2, x.2) |
        x <- flatten [seq [seq (w.1.1, f) | f <- w.2] | w <- walk_from dir n]].
      exact: (List.in_map (fun x : fpath * string => (rcons x.1 x.2, x.2)) _ _ i).
    rewrite walked_fromE => /List.in_map_iff[[q c] [[<- _] _]].
    by exists q.
  case e1: (look fold s dir) e => [n|] e; first by rewrite (look_cat _ e1) (look_cat _ e).
  by rewrite (look_none _ e1) (look_none _ e).
have aE : all_names fold s' = all_names fold s by rewrite /all_names !nE.
have uE p : List.In p (all_names fold s) -> unpickle_file s' p = unpickle_file s p.
  move/List.in_map_iff=> [pf [<-]]; rewrite List.in_app_iff => -[] i; [exact: gE em i|exact: gE eh i].
rewrite /ExamplesModel.check_pickles aE; move: (all_names fold s) uE => l uE.
have mE (A B : Type) (f g : A -> res B) (x : seq A) : (forall a, List.In a x -> f a = g a) ->
    mapM f x = mapM g x.
  elim: x => //= a x IH h; rewrite (h a (or_introl erefl)) IH // => b i; apply: h; by right.
rewrite (mE _ _ _ (fun fe => let! es := unpickle_file s fe.2 in
       let! vs := check_file opp mkE set_of decide fe.1 (map (view_example view) es) in Ok (fe.1, vs))).
  case: (mapM _ _) => // out; rewrite !bind_ok.
  case ed: (drop 3 l) => [|p l'] //; rewrite uE //.
  by rewrite -(cat_take_drop 3 l) ed List.in_app_iff; right; left.
move=> [i p] h; rewrite uE //; rewrite -(cat_take_drop 3 l) List.in_app_iff; left.
by move: (take 3 l) (iota 0 3) h => x y; elim: x y => [|a x IH] [|b y] //= [[_ ->]|/IH]; [left|right].
Qed.

Theorem checker_unchanged s ff : wf fold s -> writable fold s ->
  examples_preformat_uni fold dump simp expand var_set mk s = Ok [:: ("Metitarski"%string, ff)] ->
  clear_way fold s ff -> case_matters fold -> other_names fold ->
  exists2 s', write_examples fold dump simp expand var_set mk None s = Ok s' &
    check_pickles s' = check_pickles s.
Proof.
move=> w wr hp /clear_entries[es ha hn] cm [oh _].
have [s' [h1 h2 h3 h4]] := write_into w wr hp ha hn.
exists s' => //; apply: check_unchanged => //; apply: h4; [exact: apart_met|exact: apart_hid].
Qed.
End Loop.
