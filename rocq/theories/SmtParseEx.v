(** The meaning of the hiding of a file, the result string, and concrete files. *)
From Coq Require Import String Ascii.
From mathcomp Require Import all_ssreflect all_algebra.
From mathcomp.zify Require Import zify.
From mathcomp.real_closed Require Import polyrcf.
From Verif Require Import Py CheckerModel GParserModel GParserSpec GParserFacts CheckerSpec
  GrfModel GrfCad GrfSpec GrfFacts GrfCheck GrfLoop GrfRun GrfLine GrfCadFacts GrfInst GrfEx GrfEx2
  GrfSmt GrfSmtFacts GrfSmtEx SmtParse SmtParseSpec SmtParseFacts.

Set Implicit Arguments.
Unset Strict Implicit.
Unset Printing Implicit Defensive.
Import GRing.Theory Num.Theory Order.Theory.
Local Open Scope ring_scope.

(** ** Soundness *)
Lemma unhiddenE (T : Type) h (l : seq T) : unhidden h l = remaining h l.
Proof.
rewrite /unhidden /remaining; move: 0%N; elim: l => //= x l IH i.
by rewrite -IH; case: (i \notin h).
Qed.

Lemma Forall2_mask (T T' : Type) (r : T -> T' -> Prop) m l l' : List.Forall2 r l l' ->
  List.Forall2 r (mask m l) (mask m l').
Proof.
move=> h; elim: h m => [|x y l0 l0' hx _ IH] [|b m] //=; try exact: List.Forall2_nil.
by case: b => //=; apply: List.Forall2_cons.
Qed.

Lemma Forall2_size (T T' : Type) (r : T -> T' -> Prop) l l' : List.Forall2 r l l' -> size l = size l'.
Proof. by elim=> //= x y l0 l0' _ _ ->. Qed.

Lemma Forall2_remaining (T T' : Type) (r : T -> T' -> Prop) h l l' : List.Forall2 r l l' ->
  List.Forall2 r (remaining h l) (remaining h l').
Proof. by move=> H; rewrite /remaining (Forall2_size H); exact: Forall2_mask. Qed.

Lemma In_mask (T : Type) m (l : seq T) x : List.In x (mask m l) -> List.In x l.
Proof. by elim: l m => [|y l IH] [|[] m] //= => [[->|/IH]|/IH]; [left|right|right]. Qed.

Section Sound.
Variables (R : realDomainType) (L : lib R) (O : oracle L) (K : rcfType) (inj : R -> K).
Variables (val : P L -> (var -> K) -> K) (uval : U L -> {poly K}).
Hypothesis LO : lib_ok inj val.
Hypothesis LC : cad_ok val uval.
Hypothesis LL : line_ok O inj uval.
Variable C : pred (P L).
Hypothesis RC : rational_class uval inj C.
Variables (A : arith (P L)) (AO : arith_ok val A).
Variable solve : nat -> seq constraint -> seq nat -> res (nat -> bool).

Lemma formulas_true nu e v (fs : seq formula2) l : List.Forall2 (says val nu) fs l ->
  (forall f x, List.In f fs -> List.In x (formula_names f) -> e (nu x) = v x) ->
  (forall f, List.In f fs -> formula_holds v f <> None) ->
  [seq atom_true val a e | a <- l] = [seq formula_holds v f == Some true | f <- fs].
Proof.
elim=> //= f a fs0 l0 hf _ IH he hd; rewrite IH => [|g x hg hx|g hg]; [|by apply: he hx; right|by apply: hd; right].
congr (_ :: _); case E : (formula_holds v f) (hd f (or_introl erefl)) => [b|//] _.
by rewrite (says_holds hf (fun x => he f x (or_introl erefl)) E); case: b {E}.
Qed.

Definition text_hiding num fuel k eps cs (s : text) :=
  process_commands A (hide_action O solve (fun n => sample_pt_dicts O n num) fuel k eps cs) tt s.

Theorem text_sound num fuel k eps cs q s w' name ha hs :
  problem_text q s -> blank w' -> (distinct (problem_names q) <= 1)%N ->
  (forall h r st, p_cmd A (Pst (new_ctx sname) 0) (s ++ w') = Yes h r st ->
    all (fun a => C (apoly a)) (hp_ante h ++ hp_succ h)) ->
  ~~ has is_equation (pb_ante q) -> ~~ has is_disequation (pb_succ q) ->
  text_hiding num fuel k eps cs (s ++ w') = Ok (Some (name, (ha, hs))) ->
  name = pb_name q /\
  forall v : string -> K, (forall f, List.In f (pb_ante q ++ pb_succ q) -> formula_holds v f <> None) ->
    entails v (remaining ha (pb_ante q)) (remaining hs (pb_succ q)).
Proof.
move=> hq hw hd hC heq hne; rewrite /text_hiding.
set pf := hide_action _ _ _ _ _ _ _.
have [[e [_ _ _ ->]]//|[nu [h [st [Ec N Rd ->]]]]] := single_cmd pf AO hq hw.
have Ed : maxn 1 (distinct (problem_names q)) = 1%N by apply/maxn_idPl.
rewrite Ed in Rd *; case: Rd => /= Hn Ha Hs Hi _.
case Ep : (pf _ _ _ _) => [[u x]|[]] //= [En Ex]; split; first by rewrite -En Hn.
move: Ep; rewrite /pf /hide_action; case Er : (perform_grf _ _ _ _ _ _ _ _ _ _) => [[[a b] s']|//] /= [_ E2].
move: E2; rewrite Ex => -[Ea Eb]; subst a b => v hv.
have [env he] := numbering_env v N.
have Q f z : List.In f (pb_ante q ++ pb_succ q) -> List.In z (formula_names f) -> env (nu z) = v z.
  move=> hf hx; apply: he; rewrite /problem_names.
  elim: (pb_ante q ++ pb_succ q) hf => //= g l IH [->|/IH h']; apply/List.in_or_app; [by left|by right].
have ne fs l (Pr : formula2 -> bool) (Qr : atom L -> bool) : (forall f a, says val nu f a -> Qr a = Pr f) ->
  List.Forall2 (says val nu) fs l -> ~~ has Pr fs -> all (fun a => ~~ Qr a) l.
  move=> hpq; elim=> //= g b l1 l2 hg _ IH; rewrite negb_or => /andP[hp /IH ->].
  by rewrite (hpq _ _ hg) hp.
have Hne : all (fun h => ~~ is_eqn h) (hp_ante h) && all (fun h => ~~ is_neqn h) (hp_succ h).
  apply/andP; split.
    by apply: (ne _ _ is_equation) Ha heq => f a [Eo _ _]; rewrite /is_eqn /is_equation Eo.
  by apply: (ne _ _ is_disequation) Hs hne => f a [Eo _ _]; rewrite /is_neqn /is_disequation Eo.
have := perform1_sound LO LC LL RC Er Hi isT (hC _ _ _ Ec) (or_intror Hne) env.
have sub i (fs : seq formula2) g : List.In g (remaining i fs) -> List.In g fs by exact: In_mask.
have L1 g : List.In g (remaining ha (pb_ante q)) -> List.In g (pb_ante q ++ pb_succ q).
  by move=> /sub hg; apply/List.in_or_app; left.
have L2 g : List.In g (remaining hs (pb_succ q)) -> List.In g (pb_ante q ++ pb_succ q).
  by move=> /sub hg; apply/List.in_or_app; right.
have T1 := formulas_true (Forall2_remaining ha Ha) (fun g z hg => Q g z (L1 g hg)) (fun g hg => hv g (L1 g hg)).
have T2 := formulas_true (Forall2_remaining hs Hs) (fun g z hg => Q g z (L2 g hg)) (fun g hg => hv g (L2 g hg)).
rewrite !unhiddenE /entails /all_true.
have A1 := congr1 (all id) T1; rewrite !all_map in A1.
have A2 := congr1 (has id) T2; rewrite !has_map in A2.
by rewrite -[all _ (remaining ha (pb_ante q))]A1 -[has _ (remaining hs (pb_succ q))]A2.
Qed.
End Sound.

(** ** The result string *)
Definition num_of_str (s : text) : nat := foldl (fun a c => (10 * a + (nat_of_ascii c - 48))%N) 0%N s.

Lemma digit_char d : (d < 10)%N -> is_num (digit_of d) /\ (nat_of_ascii (digit_of d) - 48 = d)%N.
Proof. by case: d => [|[|[|[|[|[|[|[|[|[|d]]]]]]]]]]. Qed.

Lemma str_natS f n : str_nat f.+1 n = if (n < 10)%N then [:: digit_of (n %% 10)] else str_nat f (n %/ 10) ++ [:: digit_of (n %% 10)].
Proof. by []. Qed.
Lemma num_of_str_rcons s c : num_of_str (s ++ [:: c]) = (10 * num_of_str s + (nat_of_ascii c - 48))%N.
Proof. by rewrite /num_of_str foldl_cat. Qed.

Lemma str_natP f n : (n <= f)%N ->
  [/\ all is_num (str_nat f n), (0 < size (str_nat f n))%N & num_of_str (str_nat f n) = n].
Proof.
elim: f n => [|f IH] n; first by rewrite leqn0 => /eqP ->.
move=> hn; have [h1 h2] := digit_char (ltn_pmod n (isT : 0 < 10)%N); rewrite str_natS.
move: h1 h2; set c := digit_of _ => h1 h2; clearbody c.
case: ltnP => h10.
  rewrite modn_small // in h2; split=> //; first by rewrite /all h1.
have hd : (n %/ 10 <= f)%N.
  by have := ltn_Pdiv (isT : 1 < 10)%N (leq_trans (isT : 0 < 10)%N h10); lia.
have [IH1 IH2 IH3] := IH _ hd; split.
- by rewrite all_cat IH1 /all h1.
- by rewrite size_cat addn1.
- by rewrite num_of_str_rcons IH3 h2 mulnC -divn_eq.
Qed.

Lemma str_num n : all is_num (str n). Proof. by have [] := str_natP (leqnn n). Qed.
Lemma str_inj : injective str.
Proof. by move=> n m E; have [_ _ <-] := str_natP (leqnn n); have [_ _ <-] := str_natP (leqnn m); rewrite -/(str n) E. Qed.

Lemma split_first (p : pred ascii) a b c d r t : all p a -> all p b -> ~~ p c -> ~~ p d ->
  a ++ c :: r = b ++ d :: t -> [/\ a = b, c = d & r = t].
Proof.
elim: a b => [|x a IH] [|y b] //= ha hb hc hd.
- by case=> -> ->.
- by case=> Ec; move: hb hc; rewrite Ec => /andP[->].
- by case=> Ed; move: ha hd; rewrite Ed => /andP[->].
- case/andP: ha => _ ha; case/andP: hb => _ hb [-> /(IH _ ha hb hc hd)] [-> -> ->]; by [].
Qed.

(** The words of a list. *)
Definition wordy (c : ascii) : bool := ~~ eqc c " " && ~~ eqc c ")".
Lemma join_cat l l' r r' : all (all wordy) l -> all (all wordy) l' ->
  all (fun w : text => 0 < size w)%N l -> all (fun w : text => 0 < size w)%N l' ->
  join (chars " ") l ++ ")"%char :: r = join (chars " ") l' ++ ")"%char :: r' -> l = l' /\ r = r'.
Proof.
elim: l l' => [|x l IH] [|y l'].
- by move=> _ _ _ _ /= [->].
- move=> _ /andP[+ _] _ /andP[+ _] /=; case: y => // c y /= /andP[hc _] _.
  by case: l' => [|z l'] /= [E]; move: hc; rewrite -E.
- move=> /andP[+ _] _ /andP[+ _] _ /=; case: x => // c x /= /andP[hc _] _.
  by case: l {IH} => [|z l] /= [E]; move: hc; rewrite E.
move=> /andP[hx hl] /andP[hy hl'] /andP[_ nl] /andP[_ nl'].
case: l IH hl nl => [|z l] IH hl nl; case: l' hl' nl' => [|z' l'] hl' nl'.
- by rewrite /= => /(@split_first wordy x y ")" ")" _ _ hx hy isT isT)[-> _ ->].
- by rewrite [join _ [:: x]]/= [join _ [:: y, z' & l']]/= -!catA => /(@split_first wordy x y ")" " " _ _ hx hy isT isT)[].
- by rewrite [join _ [:: x, z & l]]/= [join _ [:: y]]/= -!catA => /(@split_first wordy x y " " ")" _ _ hx hy isT isT)[].
- have Ej w u t : join (chars " ") [:: w, u & t] = w ++ " "%char :: join (chars " ") (u :: t) by [].
  rewrite !Ej -!catA !cat_cons => /(@split_first wordy x y " " " " _ _ hx hy isT isT)[-> _].
  by move=> /(IH (z' :: l') hl hl' nl nl')[-> ->].
Qed.

Lemma hide_words kw (l : seq nat) : all wordy (chars kw) -> (0 < size (chars kw))%N ->
  all (all wordy) [seq chars kw ++ str i | i <- l] /\ all (fun w : text => 0 < size w)%N [seq chars kw ++ str i | i <- l].
Proof.
move=> hk sk; split; apply/allP => w /mapP[i _ ->]; last by rewrite size_cat; lia.
rewrite all_cat hk /=; apply: sub_all (str_num i) => c; by move: c; allchars.
Qed.

Lemma hide_words_inj kw : injective (fun i => chars kw ++ str i).
Proof. by move=> i j /eqP; rewrite eqseq_cat // => /andP[_ /eqP/str_inj]. Qed.

Theorem result_inj name name' ha ha' hs hs' :
  ~~ has (Ascii.eqb """"%char) name -> ~~ has (Ascii.eqb """"%char) name' ->
  result_text name ha hs = result_text name' ha' hs' -> [/\ name = name', ha = ha' & hs = hs'].
Proof.
move=> hn hn'; rewrite /result_text.
have Q (v : text) : ~~ has (Ascii.eqb """"%char) v -> all (fun c => ~~ eqc c """") v.
  by move=> hv; rewrite all_predC (eq_has (a2 := Ascii.eqb """"%char)) // => c; rewrite /= eqcC.
move=> [/(@split_first _ name name' """" """" _ _ (Q _ hn) (Q _ hn') isT isT)[-> _]] [].
have [w1 n1] := hide_words ha (isT : all wordy (chars "hide_antecedent_")) isT.
have [w1' n1'] := hide_words ha' (isT : all wordy (chars "hide_antecedent_")) isT.
have [w2 n2] := hide_words hs (isT : all wordy (chars "hide_succedent_")) isT.
have [w2' n2'] := hide_words hs' (isT : all wordy (chars "hide_succedent_")) isT.
move=> /(join_cat w1 w1' n1 n1')[/(inj_map (@hide_words_inj "hide_antecedent_")) -> []].
by move=> /(join_cat w2 w2' n2 n2')[/(inj_map (@hide_words_inj "hide_succedent_")) -> _].
Qed.

(** ** The arithmetic of the concrete library *)
Definition qscale (c : rat) (p : seq (seq nat * rat)) : seq (seq nat * rat) := [seq (t.1, c * t.2) | t <- p].
Definition qmul (p q : seq (seq nat * rat)) : seq (seq nat * rat) :=
  norm (flatten [seq [seq (madd t.1 u.1, t.2 * u.2) | u <- q] | t <- p]).
(** Division by constants. *)
Definition qdiv (p q : seq (seq nat * rat)) : res (seq (seq nat * rat)) :=
  if q is [:: ([::], c)] then (if c == 0 then Err (Exc "ZeroDivisionError") else Ok (norm (qscale c^-1 p)))
  else if q is [::] then Err (Exc "ZeroDivisionError") else Err TypeError.
Definition qarith : arith (P qlib) :=
  @Arith (P qlib) (fun c => norm [:: ([::], c)]) (fun p q => norm (p ++ q)) (fun p q => norm (qscale (-1) q ++ p)) qmul qdiv.

Section QArith.
Variable K : rcfType.
Lemma pval_scale c p e : @pval K (qscale c p) e = ratr c * pval p e.
Proof. by elim: p => [|t p IH] /=; rewrite ?mulr0 // IH mulrDr /tval /= rmorphM mulrA. Qed.
Lemma pval_times t q e : @pval K [seq (madd t.1 u.1, t.2 * u.2) | u <- q] e = tval e t * pval q e.
Proof.
elim: q => [|u q IH] /=; rewrite ?mulr0 // IH mulrDr; congr (_ + _).
by rewrite /tval /= rmorphM mval_madd mulrACA.
Qed.
Lemma pval_mul p q e : @pval K (qmul p q) e = pval p e * pval q e.
Proof.
rewrite /qmul pval_norm; elim: p => [|t p IH] /=; first by rewrite mul0r.
by rewrite pval_cat IH pval_times mulrDl.
Qed.
Lemma qarith_ok : arith_ok (L := qlib) (@qval K) qarith.
Proof.
split.
- by move=> c e; rewrite /qval [LHS]pval_norm /= /tval /= mulr1 addr0.
- by move=> v e; exact: (GrfCadFacts.val_gen (qcad_ok K)).
- by move=> p q e; rewrite /qval [LHS]pval_norm pval_cat.
- by move=> p q e; rewrite /qval [LHS]pval_norm pval_cat pval_scale rmorphN1 mulN1r addrC.
- by move=> p q e; exact: pval_mul.
- move=> p q r e; rewrite /= /qdiv; case: q => // -[m c] [|//]; case: m => //; case: eqP => // /eqP c0 [<-].
  rewrite /qval pval_norm pval_scale /= /tval /= mulr1 addr0 mulrAC -rmorphM mulVf //.
  by rewrite rmorph1 mul1r.
Qed.
End QArith.

(** ** Concrete files *)
Definition three : problem := Problem (txt "s1")
  [:: (RLt, TVar "x", TNum (decimal (txt "3")))]
  [:: (RLe, TVar "x", TNum (decimal (txt "2"))); (RGt, TMul (TVar "x") (TVar "x"), TNum (decimal (txt "1")))].
Definition three_text : text :=
  txt "(sequent ""s1"" (antecedent (< x 3.)) (succedent (<= x 2.) (> (* x x) 1.)))".

Lemma xT : sterm_text (TVar "x") (txt " x"). Proof. exact: (@StVar (txt " ") (txt "x")). Qed.
Lemma dT c : digit c -> sterm_text (TNum (decimal [:: c])) (txt " " ++ [:: c] ++ txt ".").
Proof. by move=> h; apply: StNum => //; apply: DecDot; rewrite /digits /= h. Qed.
Lemma three_ok : problem_text three three_text.
Proof.
have F1 : srel_text (RLt, TVar "x", TNum (decimal (txt "3"))) (txt " (< x 3.)").
  by apply: (@StRel "<" RLt _ _ (txt " ") [::] (txt " x") (txt " 3.") [::]) => //; [right; left|exact: xT|exact: (@dT "3")].
have F2 : srel_text (RLe, TVar "x", TNum (decimal (txt "2"))) (txt " (<= x 2.)").
  by apply: (@StRel "<=" RLe _ _ (txt " ") [::] (txt " x") (txt " 2.") [::]) => //; [left|exact: xT|exact: (@dT "2")].
have F3 : srel_text (RGt, TMul (TVar "x") (TVar "x"), TNum (decimal (txt "1"))) (txt " (> (* x x) 1.)").
  apply: (@StRel ">" RGt _ _ (txt " ") [::] (txt " (* x x)") (txt " 1.") [::]) => //; [by do 5!right; left| |exact: (@dT "1")].
  by apply: (@StBin "*" TMul _ _ (txt " ") [::] (txt " x") (txt " x") [::]) => //; [right; left|exact: xT|exact: xT].
apply: (@StProblem three [::] [::] (txt " ") (txt " (antecedent (< x 3.))") (txt " (succedent (<= x 2.) (> (* x x) 1.))") [::]) => //.
  apply: (@StSide "antecedent" _ (txt " ") [::] (txt " (< x 3.)") [::]) => //.
  exact: (StCons F1 StNil).
apply: (@StSide "succedent" _ (txt " ") [::] (txt " (<= x 2.) (> (* x x) 1.)") [::]) => //.
exact: (StCons F2 (StCons F3 StNil)).
Qed.

Definition atom_data (a : atom qlib) : nat * qpoly * relop * seq nat := (aid a, apoly a, aop a, avars a).
Definition problem_data (x : presult pst (hiding_problem qlib)) :=
  if x is Yes h r _ then Some (hp_name h, [seq atom_data a | a <- hp_ante h], [seq atom_data a | a <- hp_succ h], r) else None.
Lemma three_read : problem_data (p_cmd qarith (Pst (new_ctx sname) 0) three_text) =
  Some (txt "s1", [:: (0%N, lx (-3%:R), RLt, [:: 0%N])],
        [:: (1%N, lx (-2%:R), RLe, [:: 0%N]); (2%N, x2m1, RGt, [:: 0%N])], [::]).
Proof. by vm_compute. Qed.

Definition three_hiding := text_hiding qoracle qarith brute 1 5 1 1 None.
Lemma three_hides : three_hiding (three_text ++ txt " ") = Ok (Some (txt "s1", ([:: 0%N], [::]))).
Proof. by vm_compute. Qed.

Lemma three_class h r st : p_cmd qarith (Pst (new_ctx sname) 0) (three_text ++ txt " ") = Yes h r st ->
  all (fun a : atom qlib => mem class67 (apoly a)) (hp_ante h ++ hp_succ h).
Proof.
have : problem_data (p_cmd qarith (Pst (new_ctx sname) 0) (three_text ++ txt " ")) =
  Some (txt "s1", [:: (0%N, lx (-3%:R), RLt, [:: 0%N])],
        [:: (1%N, lx (-2%:R), RLe, [:: 0%N]); (2%N, x2m1, RGt, [:: 0%N])], txt " ") by vm_compute.
case: (p_cmd _ _ _) => // h' r' st' /= [_ Ea Es _] [<- _ _].
case: (hp_ante h') Ea => [//|a [|//]] [_ Pa _ _].
case: (hp_succ h') Es => [//|b [//|c [|//]]] [_ Pb _ _ _ Pc _ _].
by rewrite /= Pa Pb Pc; vm_compute.
Qed.

(** ** Files with several sequents, with none, and with an empty succedent *)
Section Several.
Variables (R : realDomainType) (L : lib R) (A : arith (P L)).
Variables (W : Type) (perform : W -> nat -> seq (atom L) -> seq (atom L) -> res (W * (seq nat * seq nat))).

Lemma Forall2_last (T T' : Type) (r : T -> T' -> Prop) x l y l' : List.Forall2 r (x :: l) (y :: l') ->
  r (last x l) (last y l').
Proof.
move=> h; inversion_clear h; rename H into hx; rename H0 into hl.
by elim: hl x y hx => //= a b l0 l0' hab _ IH x y _; exact: IH.
Qed.

Theorem last_result (K : realFieldType) (val : P L -> (var -> K) -> K) q qs s w o : arith_ok val A ->
  problems_text (q :: qs) s ->
  ~~ has problem_divides (q :: qs) \/ (forall p r e, a_div A p r <> Err e) ->
  process_commands A perform w s = Ok o ->
  exists nu n h w1 w2 r, [/\ numbering (file_names (q :: qs)) nu, reading val nu (last q qs) (n, h),
    perform w1 n (hp_ante h) (hp_succ h) = Ok (w2, r) & o = Some (pb_name (last q qs), r)].
Proof.
move=> AO hs hd; have [nu [[|[n h] l] [N F ->]]] := file_reading perform AO hs hd; first by inversion F.
move=> Eo; have [w1 [w2 [r [Ep ->]]]] := in_order_last Eo; have := Forall2_last F.
case: (seq.last (n, h) l) Ep => n' h' /= Ep Rd; exists nu, n', h', w1, w2, r; split=> //.
by rewrite -(rd_name Rd).
Qed.

(** The numbers that grf_on_file returns. *)
Theorem last_counts (K : realFieldType) (val : P L -> (var -> K) -> K) q qs s w a b : arith_ok val A ->
  problems_text (q :: qs) s ->
  ~~ has problem_divides (q :: qs) \/ (forall p r e, a_div A p r <> Err e) ->
  grf_on_text A perform w s = Ok (a, b) ->
  exists nu n h w1 w2 ha hs, [/\ numbering (file_names (q :: qs)) nu, reading val nu (last q qs) (n, h),
    perform w1 n (hp_ante h) (hp_succ h) = Ok (w2, (ha, hs)), a = size ha & b = size hs].
Proof.
move=> AO hs hd; rewrite /grf_on_text; case E : (process_commands _ _ _ _) => [o|//].
have [nu [n [h [w1 [w2 [r [N Rd Ep ->]]]]]]] := last_result AO hs hd E.
case: r Ep => ha hs' Ep [<- <-]; by exists nu, n, h, w1, w2, ha, hs'.
Qed.

Lemma no_sequent w s : blank s ->
  process_commands A perform w s = Ok None /\ grf_on_text A perform w s = Err TypeError.
Proof.
move=> hs; have E : process_commands A perform w s = Ok None.
  by rewrite /process_commands -/(finish _) p_cmds_end.
by rewrite /grf_on_text E.
Qed.
End Several.

Lemma empty_succedent (R : realDomainType) (L : lib R) (O : oracle L) (A : arith (P L)) solve num fuel k eps cs
    (K : realFieldType) (val : P L -> (var -> K) -> K) q s w' : arith_ok val A ->
  problem_text q s -> blank w' -> ~~ problem_divides q -> pb_succ q = [::] ->
  text_hiding O A solve num fuel k eps cs (s ++ w') = Err (Exc "ParseException").
Proof.
move=> AO hs hw hd he; rewrite /text_hiding; set pf := hide_action _ _ _ _ _ _ _.
have [[D _]|[nu [h [N Rd ->]]]] := single_reading pf AO hs hw; first by rewrite D in hd.
have Es : hp_succ h = [::] by have := rd_succ Rd; rewrite he => F; inversion F.
by rewrite /= Es /pf /hide_action perform_empty.
Qed.

(** Two sequents; the result is that of the second one. *)
Definition two_text : text := three_text ++ txt " " ++
  txt "(sequent ""s2"" (antecedent) (succedent (>= (* y y) 0.)))".
Lemma two_hides : three_hiding two_text = Ok (Some (txt "s2", ([::], [::]))).
Proof. by vm_compute. Qed.
Lemma empty_hides : three_hiding (txt "(sequent ""s"" (antecedent (> x 0.)) (succedent))") = Err (Exc "ParseException").
Proof. by vm_compute. Qed.
(** 2 = 2. *)
Lemma two_is_variable : problem_data (p_cmd qarith (Pst (new_ctx sname) 0) (compare_text (txt "2") (txt "2."))) =
  Some ([::], [::], [:: (0%N, lx (-2%:R), REq, [:: 0%N])], [::]).
Proof. by vm_compute. Qed.
Lemma result_example : result_text (txt "s1") [:: 0; 12]%N [::] =
  txt "(""s1"" (hide_antecedent_0 hide_antecedent_12) ())".
Proof. by vm_compute. Qed.

Lemma errors_parse : three_hiding (txt "(sequent") = Err (Exc "ParseException").
Proof. by vm_compute. Qed.
Lemma errors_div : three_hiding (txt "(sequent ""s"" (antecedent) (succedent (> (/ x 0.) 1.)))") = Err (Exc "ZeroDivisionError").
Proof. by vm_compute. Qed.

Lemma numeral_refuted : exists ds : seq ascii, digits ds /\
  forall K : rcfType, exists h r st a e, [/\ p_cmd qarith (Pst (new_ctx sname) 0) (compare_text ds (ds ++ txt ".")) = Yes h r st,
    hp_succ h = [:: a], aop a = REq & ~~ atom_true (@qval K) a e].
Proof.
exists (txt "2"); split=> // K; have := two_is_variable.
rewrite -[txt "2."]/(txt "2" ++ txt ".").
case: (p_cmd _ _ _) => // h r st /= [_ _ Es _].
case Eh : (hp_succ h) Es => [//|a [|//]] [_ Pa Oa _].
exists h, r, st, a, (fun=> 0); split=> //.
rewrite /atom_true Oa Pa /op_true /qval /= /tval /= expr1 mul0r mulr0 add0r mulr1 addr0.
by rewrite fmorph_eq0.
Qed.
