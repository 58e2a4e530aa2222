(** Lemmas about the model of grf_parser. *)
From Coq Require Import String Ascii.
From mathcomp Require Import all_ssreflect all_algebra.
From mathcomp.zify Require Import zify.
From Verif Require Import Py CheckerModel GParserModel GParserSpec.

Set Implicit Arguments.
Unset Strict Implicit.
Unset Printing Implicit Defensive.
Import GRing.Theory Num.Theory.
Local Open Scope ring_scope.

Ltac allchars := let c := fresh in move=> c; case: c => [] [] [] [] [] [] [] [] []; by [].

Lemma digitE : digit =1 is_num. Proof. allchars. Qed.
Lemma blankE : blank_char =1 is_space. Proof. allchars. Qed.
Lemma nameE : name_char =1 is_alnum_. Proof. allchars. Qed.
Lemma alphaE c : letter c || member c "_" = is_alpha_ c.
Proof. by move: c; allchars. Qed.
Lemma find_digit c : is_num c -> digit_value c = digit_val c.
Proof. by move: c; allchars. Qed.

Lemma eqcP a b : reflect (a = b) (eqc a b).
Proof. exact: Ascii.eqb_spec. Qed.

(** Skipping white space. *)
Lemma skip_blank w s : blank w -> skip (w ++ s) = skip s.
Proof.
elim: w => //= c w IH /andP [hc hw].
by rewrite -blankE hc IH.
Qed.

Lemma skip_nb s : ~~ is_space (head "x"%char s) -> skip s = s.
Proof. by case: s => //= c s /negbTE ->. Qed.

Lemma skip_cons c s : ~~ is_space c -> skip (c :: s) = c :: s.
Proof. by move=> /negbTE /= ->. Qed.

Lemma skip_all w : blank w -> skip w = [::].
Proof. by move=> h; rewrite -[w]cats0 skip_blank. Qed.

Lemma size_skip s : (size (skip s) <= size s)%N.
Proof. by elim: s => //= c s IH; case: (is_space c) => //=; lia. Qed.

Lemma strip_cat w s : strip w (w ++ s) = Some s.
Proof. by elim: w => //= c w ->; case: eqcP. Qed.

Lemma size_strip w s r : strip w s = Some r -> (size r + size w = size s)%N.
Proof.
elim: w s => [|c w IH] [|d s] //=; first by case=> <-.
- by case=> <-; rewrite addn0.
- by case: (eqc c d) => // /IH; lia.
Qed.

Lemma span_cat p a s : all p a -> (if s is c :: _ then ~~ p c else true) ->
  span p (a ++ s) = (a, s).
Proof.
elim: a => [|c a IH] /=; first by case: s => //= c s _ /negbTE ->.
by move=> /andP [-> ha] hs; rewrite IH.
Qed.

Lemma size_span p s : (size (span p s).1 + size (span p s).2 = size s)%N.
Proof.
elim: s => //= c s; case: (p c) => //=.
by case: (span p s) => a b /= ; lia.
Qed.

(** The value of a string of digits. *)
Lemma nat_val_rcons s c : nat_val (rcons s c) = 10%:R * nat_val s + (digit_val c)%:R.
Proof. by rewrite /nat_val -cats1 foldl_cat. Qed.

Lemma decimal_rcons s c : is_num c ->
  decimal (rcons s c) = 10%:R * decimal s + (digit_val c)%:R.
Proof.
move=> hc; rewrite /decimal size_rcons big_ord_recr [nat_of_ord ord_max]/= subnn expr0 mulr1.
rewrite nth_rcons ltnn eqxx find_digit //; congr (_ + _).
rewrite big_distrr; apply: eq_bigr => i _.
rewrite [nat_of_ord (widen_ord _ _)]/= nth_rcons ltn_ord [RHS]mulrCA -exprS; congr (_ * _ ^+ _).
by have := ltn_ord i; lia.
Qed.

Lemma decimalE s : digits s -> decimal s = nat_val s.
Proof.
move=> /andP [+ _]; elim/last_ind: s => [|s c IH].
  by rewrite /decimal big_ord0.
rewrite all_rcons digitE => /andP [hc hs].
by rewrite nat_val_rcons decimal_rcons // IH.
Qed.

(** What may follow a name or a number. *)
Definition follow (r : text) : bool :=
  (if r is c :: _ then ~~ is_alnum_ c else true) &&
  (if skip r is c :: _ then ~~ eqc c "." else true).

Lemma is_num_alnum c : is_num c -> is_alnum_ c.
Proof. by rewrite /is_alnum_ => ->. Qed.

Lemma num_facts c : is_num c ->
  [/\ ~~ is_space c, ~~ eqc c "-", ~~ eqc c ".", ~~ eqc c "(" & ~~ is_alpha_ c].
Proof. by move: c; allchars. Qed.

Lemma alpha_facts c : is_alpha_ c ->
  [/\ ~~ is_space c, ~~ eqc c "-", ~~ is_num c & ~~ eqc c "."].
Proof. by move: c; allchars. Qed.

Lemma digits_cons ds : digits ds -> exists c ds', [/\ ds = c :: ds', is_num c & all is_num ds'].
Proof.
case: ds => // c ds; rewrite /digits /= => /andP [/andP [hc hd] _].
by exists c, ds; split => //; rewrite -?digitE // -(eq_all digitE).
Qed.

Definition nonum (r : text) := if r is c :: _ then ~~ is_num c else true.

Lemma follow_nonum r : follow r -> nonum r.
Proof.
case: r => // c r /andP [h _]; apply: contra h; exact: is_num_alnum.
Qed.

Lemma nat_at_ok ds r st : digits ds -> nonum r -> nat_at st (ds ++ r) = POk ds r st.
Proof.
move=> /digits_cons [c [ds' [-> hc hd]]] hr.
rewrite /nat_at (span_cat (a := c :: ds') (s := r)) //=.
by rewrite hc.
Qed.

Lemma nat_word_ok w ds r st : blank w -> digits ds -> nonum r ->
  nat_word st (w ++ ds ++ r) = POk ds r st.
Proof.
move=> hw hd hr; rewrite /nat_word skip_blank // -(nat_at_ok st hd hr).
have [c [ds' [-> hc _]]] := digits_cons hd.
by have [hs _ _ _ _] := num_facts hc; rewrite skip_cons.
Qed.

Lemma literal_no w c d s st : ~~ is_space d -> ~~ eqc c d ->
  forall s' , skip s = d :: s' -> literal (c :: w) st s = PFail st.
Proof. by move=> _ /negbTE h s' hs; rewrite /literal /literal_at hs /= h. Qed.

Lemma literal_ok w x s st : blank w ->
  (if x is c :: _ then ~~ is_space c else false) -> literal x st (w ++ x ++ s) = POk tt s st.
Proof.
case: x => // c x hw hc.
by rewrite /literal skip_blank // cat_cons skip_cons // /literal_at -cat_cons strip_cat.
Qed.

Lemma optional_no w c d s s' st : blank w -> s = d :: s' -> ~~ is_space d -> ~~ eqc c d ->
  optional [:: c] st (w ++ s) = POk false (w ++ s) st.
Proof.
move=> hw -> hd h; rewrite /optional (@literal_no _ _ d _ _ hd h s') //.
by rewrite skip_blank // skip_cons.
Qed.

Lemma eqcC a b : eqc a b = eqc b a.
Proof. exact: Ascii.eqb_sym. Qed.

(** Everything of a number after its sign. *)
Definition real_tail (neg : bool) : parser term :=
  pbind nat_word (fun ds =>
  pbind (literal_at (chars ".")) (fun _ =>
  pbind nat_at (fun es =>
  let v := nat_val ds + nat_val es / 10%:R ^+ size es in
  action (TNum (if neg then - v else v))))).
Definition int_tail (neg : bool) : parser term :=
  pbind nat_word (fun ds =>
  pbind (optional (chars ".")) (fun _ =>
  action (TNum (if neg then - nat_val ds else nat_val ds)))).

Lemma strip_no c x s : (if s is d :: _ then ~~ eqc c d else true) -> strip (c :: x) s = None.
Proof. by case: s => //= d s /negbTE ->. Qed.

Lemma follow_dot st r : follow r -> optional (chars ".") st r = POk false r st.
Proof.
move=> /andP [_ h]; rewrite /optional /literal /literal_at strip_no //.
Qed.

Lemma follow_nodot st r : follow r -> literal_at (chars ".") st r = PFail st.
Proof.
move=> /andP [h h']; rewrite /literal_at strip_no //.
case: r h h' => // c r _ h'.
by apply/negP => /eqcP E; move: h'; rewrite -E.
Qed.

Lemma or_elseF A (p q : parser A) st st' s : p st s = PFail st' -> or_else p q st s = q st' s.
Proof. by rewrite /or_else => ->. Qed.
Lemma or_elseT A (p q : parser A) st s a r st' : p st s = POk a r st' ->
  or_else p q st s = POk a r st'.
Proof. by rewrite /or_else => ->. Qed.
Lemma or_elseE A (p q : parser A) st s e : p st s = PRaise e -> or_else p q st s = PRaise e.
Proof. by rewrite /or_else => ->. Qed.
Lemma or_else_act A (p q : parser A) st s (a : A) r : p st s = action a st r ->
  or_else p q st s = action a st r.
Proof. by rewrite /or_else /action => ->; case: st. Qed.

Lemma pbind_ok A B (p : parser A) (f : A -> parser B) st s a r st' : p st s = POk a r st' ->
  pbind p f st s = f a st' r.
Proof. by rewrite /pbind => ->. Qed.
Lemma pbind_fail A B (p : parser A) (f : A -> parser B) st s st' : p st s = PFail st' ->
  pbind p f st s = PFail st'.
Proof. by rewrite /pbind => ->. Qed.
Lemma pbind_raise A B (p : parser A) (f : A -> parser B) st s e : p st s = PRaise e ->
  pbind p f st s = PRaise e.
Proof. by rewrite /pbind => ->. Qed.

Lemma blank_nonum w c r : blank w -> ~~ is_num c -> nonum (w ++ c :: r).
Proof.
case: w => //= d w /andP [+ _] _; rewrite blankE; by move: d; allchars.
Qed.

Lemma tails_ok q s w r st neg : blank w -> numeral q s -> follow r ->
  or_else (real_tail neg) (int_tail neg) st (w ++ s ++ r) =
  action (TNum (if neg then - q else q)) st r.
Proof.
move=> hw hn hr; case: hn => [ds hd|ds w' hd hw'|ds es hd he].
- have h1 : nat_word st (w ++ ds ++ r) = POk ds r st by apply: nat_word_ok => //; exact: follow_nonum.
  rewrite (@or_elseF _ _ _ _ st); last first.
    by rewrite /real_tail (pbind_ok _ h1) (pbind_fail _ (follow_nodot st hr)).
  by rewrite /int_tail (pbind_ok _ h1) (pbind_ok _ (follow_dot st hr)) decimalE.
- have h1 : nat_word st (w ++ (ds ++ w' ++ txt ".") ++ r) = POk ds (w' ++ txt "." ++ r) st.
    by rewrite -!catA; apply: nat_word_ok => //; apply: blank_nonum.
  rewrite (@or_elseF _ _ _ _ st); last first.
    rewrite /real_tail (pbind_ok _ h1).
    case: w' hw' {h1} => [|c w'] /=.
      move=> _; rewrite (@pbind_ok _ _ _ _ _ _ tt r st) // (@pbind_fail _ _ _ _ _ _ st) //.
      by rewrite /nat_at; have := follow_nonum hr; case: (r) => //= c r' /negbTE ->.
    move=> /andP [hc _]; rewrite (@pbind_fail _ _ _ _ _ _ st) //.
    by rewrite /literal_at strip_no //; move: hc; rewrite blankE; move: (c); allchars.
  rewrite /int_tail (pbind_ok _ h1) (@pbind_ok _ _ _ _ _ _ true r st) ?decimalE //.
  by rewrite /optional (literal_ok (x := chars ".")).
- have h1 : nat_word st (w ++ (ds ++ txt "." ++ es) ++ r) = POk ds (txt "." ++ es ++ r) st.
    by rewrite -!catA; apply: nat_word_ok.
  apply: or_else_act.
  rewrite /real_tail (pbind_ok _ h1) (@pbind_ok _ _ _ _ _ _ tt (es ++ r) st) //.
  by rewrite (pbind_ok _ (nat_at_ok st he (follow_nonum hr))) !decimalE.
Qed.

Lemma numeral_cons q s : numeral q s -> exists c s', s = c :: s' /\ is_num c.
Proof.
case=> [ds|ds w|ds es] /digits_cons [c [ds' [-> hc _]]].
- by exists c, ds'.
- by move=> _; exists c; eexists.
- by move=> _; exists c; eexists.
Qed.

Lemma number_ok q s w r st : blank w -> numeral q s -> follow r ->
  number st (w ++ s ++ r) = action (TNum q) st r.
Proof.
move=> hw hn hr; rewrite -(tails_ok st false hw hn hr) /number /or_else /p_real /p_int.
have h st0 : optional (chars "-") st0 (w ++ s ++ r) = POk false (w ++ s ++ r) st0.
  have [c [s' [-> hc]]] := numeral_cons hn; have [h1 h2 _ _ _] := num_facts hc.
  by apply: optional_no (erefl) _ _ => //; rewrite eqcC.
rewrite !(pbind_ok _ (h st)) -/(real_tail false).
by case E: (real_tail false st (w ++ s ++ r)) => [| |] //; rewrite (pbind_ok _ (h _)).
Qed.

Lemma number_neg q s w w' r st : blank w -> blank w' -> numeral q s -> follow r ->
  number st (w ++ txt "-" ++ w' ++ s ++ r) = action (TNum (- q)) st r.
Proof.
move=> hw hw' hn hr; rewrite -(tails_ok st true hw' hn hr) /number /or_else /p_real /p_int.
have h st0 : optional (chars "-") st0 (w ++ txt "-" ++ w' ++ s ++ r) = POk true (w' ++ s ++ r) st0.
  by rewrite /optional (literal_ok (x := chars "-")).
rewrite !(pbind_ok _ (h st)) -/(real_tail true).
by case E: (real_tail true st _) => [| |] //; rewrite (pbind_ok _ (h _)).
Qed.

(** Texts on which an element fails. *)
Lemma nat_word_no st s : (if skip s is c :: _ then ~~ is_num c else true) ->
  nat_word st s = PFail st.
Proof. by rewrite /nat_word /nat_at; case: (skip s) => //= c s' /negbTE ->. Qed.

Lemma number_no st s : (if skip s is c :: _ then ~~ is_num c && ~~ eqc c "-" else true) ->
  number st s = PFail st.
Proof.
move=> h.
have h1 st0 : optional (chars "-") st0 s = POk false s st0.
  rewrite /optional /literal /literal_at strip_no //.
  by case: (skip s) h => // c s' /andP [_].
have h2 st0 : nat_word st0 s = PFail st0.
  by apply: nat_word_no; case: (skip s) h => // c s' /andP [].
rewrite /number (@or_elseF _ _ _ _ st).
  by rewrite /p_int (pbind_ok _ (h1 _)) (pbind_fail _ (h2 _)).
by rewrite /p_real (pbind_ok _ (h1 _)) (pbind_fail _ (h2 _)).
Qed.

Lemma variable_no st s : (if skip s is c :: _ then ~~ is_alpha_ c else true) ->
  variable st s = PFail st.
Proof. by rewrite /variable; case: (skip s) => // c s' /negbTE ->. Qed.

Lemma name_cons v : name v -> exists c v', [/\ v = c :: v', is_alpha_ c & all is_alnum_ v'].
Proof.
case: v => // c v /andP [hc hv]; exists c, v; split => //; first by rewrite -alphaE.
by rewrite -(eq_all nameE).
Qed.

Lemma variable_ok w v r st : blank w -> name v -> follow r ->
  variable st (w ++ v ++ r) = do_variable v st r.
Proof.
move=> hw /name_cons [c [v' [-> hc hv]]] /andP [hr _].
have [h1 _ _ _] := alpha_facts hc.
by rewrite /variable skip_blank // cat_cons skip_cons // hc span_cat.
Qed.

Lemma number_name w v r st : blank w -> name v -> number st (w ++ v ++ r) = PFail st.
Proof.
move=> hw /name_cons [c [v' [-> hc hv]]]; have [h1 h2 h3 _] := alpha_facts hc.
by apply: number_no; rewrite skip_blank // cat_cons skip_cons // h2 h3.
Qed.

(** The first characters of a term. *)
Lemma term_text_head t s : term_text t s -> exists w c s',
  [/\ s = w ++ c :: s', blank w, ~~ is_space c, [|| is_num c, is_alpha_ c, eqc c "-" | eqc c "("]
    & ~~ eqc c "."].
Proof.
case=> [q w s0 hw hn|q w w' s0 hw hw' hn|w v hw hv|op mk a b w1 w2 s1 s2 w3 _ h1 h2 h3 _ _ _|a w1 w2 s1 w3 h1 h2 h3 _].
- have [c [s' [-> hc]]] := numeral_cons hn; have [H1 _ H2 _ _] := num_facts hc.
  by exists w, c, s'; rewrite hc; split.
- by exists w, "-"%char, (w' ++ s0).
- have [c [s' [-> hc _]]] := name_cons hv; have [H1 _ _ H2] := alpha_facts hc.
  by exists w, c, s'; rewrite hc orbT; split.
- by exists w1, "("%char; eexists; split; first reflexivity.
- by exists w1, "("%char; eexists; split; first reflexivity.
Qed.

Lemma follow_text t s s1 r : term_text t s -> apart s1 s ->
  eqc (last " "%char s1) ")" || follow (s ++ r).
Proof.
move=> ht; rewrite /apart -/(eqc _ _); case: (eqc _ _) => //= ha.
have [w [c [s' [E hw hc _ hd]]]] := term_text_head ht.
rewrite /follow {2}E -catA skip_blank // cat_cons skip_cons // hd andbT.
case: s E ha {ht} => [|d s0] /=; first by case: w hw.
by rewrite nameE.
Qed.

Lemma close_follow w r : blank w -> follow (w ++ txt ")" ++ r).
Proof.
move=> hw; rewrite /follow skip_blank //= andbT.
by case: w hw => //= c w /andP [+ _]; rewrite blankE; move: c; allchars.
Qed.

Lemma p_termE n : p_term n = or_else (or_else number variable)
    (if n is n'.+1 then p_fn (p_term n') else fun _ _ => PRaise OutOfFuel).
Proof. by case: n. Qed.

Lemma atom_no st w c r : blank w -> ~~ is_space c -> ~~ is_num c -> ~~ eqc c "-" -> ~~ is_alpha_ c ->
  or_else number variable st (w ++ c :: r) = PFail st.
Proof.
move=> hw h0 h1 h2 h3; rewrite (@or_elseF _ _ _ _ st); last first.
  by apply: number_no; rewrite skip_blank // skip_cons // h1 h2.
by apply: variable_no; rewrite skip_blank // skip_cons.
Qed.

Lemma lpar_no st s : (if skip s is c :: _ then ~~ eqc c "(" else true) -> lpar st s = PFail st.
Proof.
by move=> h; rewrite /lpar /literal /literal_at strip_no //; case: (skip s) h => // c s' ; rewrite eqcC.
Qed.

Lemma fn2_lpar_no x mk t st s : (if skip s is c :: _ then ~~ eqc c "(" else true) ->
  fn2 x mk t st s = PFail st.
Proof. by move=> h; rewrite /fn2 (pbind_fail _ (lpar_no st h)). Qed.

Lemma p_fn_lpar_no t st s : (if skip s is c :: _ then ~~ eqc c "(" else true) ->
  p_fn t st s = PFail st.
Proof.
move=> h; rewrite /p_fn.
do 4! (rewrite (@or_elseF _ _ _ _ st); last exact: fn2_lpar_no).
by rewrite /fn1 (pbind_fail _ (lpar_no st h)).
Qed.

Lemma p_term_close n w r st : blank w -> p_term n.+1 st (w ++ txt ")" ++ r) = PFail st.
Proof.
move=> hw; rewrite p_termE (or_elseF _ (st' := st)); last exact: atom_no.
by apply: p_fn_lpar_no; rewrite skip_blank.
Qed.

(** The result of parsing the text of [t] when [sympy] is intact ([st]) or
    not. *)
Definition outcome (A : Type) (a : A) (m : bool) (r : text) (st : bool) (x : pres A) : Prop :=
  if st then
    if m then x = PRaise AttributeError \/ x = POk a r false else x = POk a r true
  else x = PRaise AttributeError.

Lemma outcome_ok A (a : A) m r st x : outcome a m r st x ->
  x = PRaise AttributeError \/ x = POk a r (st && ~~ m).
Proof. by rewrite /outcome; case: st; case: m => /=; auto. Qed.

Lemma fn2_ok x mk n st a b w1 w2 s1 s2 w3 r ma mb :
  (if x is c :: _ then ~~ is_space c else false) ->
  blank w1 -> blank w2 -> blank w3 ->
  (forall st r, eqc (last " "%char s1) ")" || follow r -> outcome a ma r st (p_term n st (s1 ++ r))) ->
  (forall st r, eqc (last " "%char s2) ")" || follow r -> outcome b mb r st (p_term n st (s2 ++ r))) ->
  (forall r, eqc (last " "%char s1) ")" || follow (s2 ++ r)) ->
  outcome (mk a b) (ma || mb) r st
    (fn2 x mk (p_term n) st (w1 ++ txt "(" ++ w2 ++ x ++ s1 ++ s2 ++ w3 ++ txt ")" ++ r)).
Proof.
move=> hx h1 h2 h3 IHa IHb hab.
rewrite /fn2 /lpar (pbind_ok _ (literal_ok (x := chars "(") _ st h1 isT)).
rewrite (pbind_ok _ (literal_ok _ st h2 hx)).
have := IHa st (s2 ++ w3 ++ txt ")" ++ r) (hab _).
have IHb' st0 := IHb st0 (w3 ++ txt ")" ++ r); move: IHb'; rewrite close_follow // orbT => IHb'.
have hr st0 : rpar st0 (w3 ++ txt ")" ++ r) = POk tt r st0 by rewrite /rpar literal_ok.
have tl st0 : outcome (mk a b) mb r st0 (pbind (p_term n) (fun b0 => pbind rpar (fun _ => pret (mk a b0))) st0 (s2 ++ w3 ++ txt ")" ++ r)).
  have := IHb' st0 isT; rewrite /outcome; case: st0 => [|H]; last by rewrite (pbind_raise _ H).
  case: mb {IHb IHb'} => [[H|H]|H].
  - by left; rewrite (pbind_raise _ H).
  - by right; rewrite (pbind_ok _ H) (pbind_ok _ (hr _)).
  - by rewrite (pbind_ok _ H) (pbind_ok _ (hr _)).
rewrite {1}/outcome; case: st => [|H]; last by rewrite (pbind_raise _ H).
case: ma {IHa} => /= [[H|H]|H].
- by left; rewrite (pbind_raise _ H).
- by left; rewrite (pbind_ok _ H); have := tl false.
- by rewrite (pbind_ok _ H); exact: (tl true).
Qed.

Lemma fn2_op_no c x mk t st w1 w2 d s : blank w1 -> blank w2 -> ~~ is_space d -> ~~ eqc c d ->
  fn2 (c :: x) mk t st (w1 ++ txt "(" ++ w2 ++ d :: s) = PFail st.
Proof.
move=> h1 h2 hd hc; rewrite /fn2 /lpar (pbind_ok _ (literal_ok (x := chars "(") _ st h1 isT)).
by apply: pbind_fail; apply: (literal_no _ _ hd hc (s' := s)); rewrite skip_blank // skip_cons.
Qed.

Lemma last_pred (p : pred ascii) x s : p x -> all p s -> p (last x s).
Proof. by elim: s x => //= c s IH x _ /andP [hc hs]; apply: IH. Qed.

Definition nopar (c : ascii) := ~~ eqc c ")".

Lemma blank_nopar w : blank w -> all nopar w.
Proof. by apply: sub_all => c; rewrite blankE; move: c; allchars. Qed.
Lemma digits_nopar w : digits w -> all nopar w.
Proof. by case/andP => + _; apply: sub_all => c; rewrite digitE; move: c; allchars. Qed.
Lemma numeral_nopar q s : numeral q s -> all nopar s.
Proof.
case=> [ds hd|ds w hd hw|ds es hd he]; rewrite ?all_cat ?(digits_nopar hd) //=.
  by rewrite blank_nopar.
by rewrite digits_nopar.
Qed.
Lemma name_nopar v : name v -> all nopar v.
Proof.
case/name_cons => c [v' [-> hc hv]] /=; apply/andP; split.
  by move: c hc; allchars.
by move: hv; apply: sub_all; allchars.
Qed.

Lemma nopar_follow s r : all nopar s -> eqc (last " "%char s) ")" || follow r -> follow r.
Proof. by move=> hs; have /negbTE -> := @last_pred nopar " " s isT hs. Qed.

Lemma p_term_ok t s : term_text t s -> forall n st r, (size s < n)%N ->
  eqc (last " "%char s) ")" || follow r ->
  outcome t (mentions "sympy" t) r st (p_term n st (s ++ r)).
Proof.
elim=> {t s} [q w s hw hn|q w w' s hw hw' hn|w v hw hv
  |op mk a b w1 w2 s1 s2 w3 hop h1 h2 h3 ha IHa hb IHb hab|a w1 w2 s1 w3 h1 h2 h3 ha IHa] n st r hsz hr.
- have hf : follow r by apply: nopar_follow hr; rewrite all_cat blank_nopar //=; apply: numeral_nopar hn.
  rewrite -catA p_termE (@or_else_act _ _ _ st _ (TNum q) r).
    by rewrite /outcome /action; case: st.
  by apply: or_else_act; apply: number_ok.
- have hf : follow r by apply: nopar_follow hr; rewrite all_cat /= all_cat (blank_nopar hw) (blank_nopar hw') /=; apply: numeral_nopar hn.
  rewrite -!catA p_termE (@or_else_act _ _ _ st _ (TNum (- q)) r).
    by rewrite /outcome /action; case: st.
  by apply: or_else_act; apply: number_neg.
- have hf : follow r by apply: nopar_follow hr; rewrite all_cat blank_nopar // name_nopar.
  have E st0 : or_else number variable st0 (w ++ v ++ r) = do_variable v st0 r.
    by rewrite (@or_elseF _ _ _ _ st0) ?number_name // variable_ok.
  rewrite -!catA p_termE.
  case: st.
    rewrite (@or_elseT _ _ _ _ _ (TVar (string_of_list_ascii v)) r (~~ String.eqb (string_of_list_ascii v) "sympy")); last by rewrite E.
    by rewrite /outcome /=; case: (String.eqb _ _); [right|].
  by rewrite /outcome (@or_elseE _ _ _ _ _ AttributeError) // E.
- have -> : mentions "sympy" (mk a b) = mentions "sympy" a || mentions "sympy" b.
    by case: hop => [|[|[|[|]]]] // [_ <-].
  case: n hsz => // n hsz; rewrite (p_termE n.+1).
  have [na nb] : (size s1 < n)%N /\ (size s2 < n)%N.
    by move: hsz; rewrite !size_cat [size (txt "(")]/=; lia.
  have H op' mk' hx := @fn2_ok op' mk' n st a b w1 w2 s1 s2 w3 r _ _ hx h1 h2 h3
    (fun st0 r0 => IHa n st0 r0 na) (fun st0 r0 => IHb n st0 r0 nb)
    (fun r0 => follow_text r0 hb hab).
  rewrite -!catA (or_elseF _ (st' := st)); last by rewrite /=; apply: atom_no.
  rewrite /p_fn.
  have Hraise x y s0 : outcome (mk a b) (mentions "sympy" a || mentions "sympy" b) r st (x st s0) ->
     outcome (mk a b) (mentions "sympy" a || mentions "sympy" b) r st (or_else x y st s0).
    by move=> hx; have [E|E] := outcome_ok hx; rewrite /or_else E -E.
  have Hno x y s0 : x st s0 = PFail st -> 
     outcome (mk a b) (mentions "sympy" a || mentions "sympy" b) r st (y st s0) ->
     outcome (mk a b) (mentions "sympy" a || mentions "sympy" b) r st (or_else x y st s0).
    by move=> E; rewrite (or_elseF _ E).
  case: hop => [|[|[|[|]]]] // [E1 E2]; subst op mk.
  + by apply: Hraise; apply: H.
  + apply: (Hno _ _ _); first by apply: fn2_op_no. 
    by apply: Hraise; apply: H.
  + apply: (Hno _ _ _); first by apply: fn2_op_no.
    apply: (Hno _ _ _); first by apply: fn2_op_no.
    by apply: Hraise; apply: H.
  + do 3! (apply: (Hno _ _ _); first by apply: fn2_op_no).
    by apply: Hraise; apply: H.
- case: n hsz => // n hsz; rewrite (p_termE n.+1).
  have na : (size s1 < n)%N by move: hsz; rewrite !size_cat [size (txt "(")]/=; lia.
  case: n na {hsz} => // n na.
  rewrite -!catA (or_elseF _ (st' := st)); last by rewrite /=; apply: atom_no.
  have hl st0 : lpar st0 (w1 ++ txt "(" ++ w2 ++ txt "-" ++ s1 ++ w3 ++ txt ")" ++ r) =
     POk tt (w2 ++ txt "-" ++ s1 ++ w3 ++ txt ")" ++ r) st0 by rewrite /lpar literal_ok.
  have hm st0 : literal (chars "-") st0 (w2 ++ txt "-" ++ s1 ++ w3 ++ txt ")" ++ r) =
     POk tt (s1 ++ w3 ++ txt ")" ++ r) st0 by rewrite literal_ok.
  have hp st0 : rpar st0 (w3 ++ txt ")" ++ r) = POk tt r st0 by rewrite /rpar literal_ok.
  have := fun st0 => IHa n.+1 st0 (w3 ++ txt ")" ++ r) na; rewrite close_follow // orbT => IH.
  rewrite /p_fn.
  do 2! (rewrite (@or_elseF _ _ _ _ st); last by apply: fn2_op_no).
  have IHst := IH st isT.
  have [E|E] := outcome_ok IHst.
    rewrite (@or_elseE _ _ _ _ _ AttributeError); last first.
      by rewrite /fn2 (pbind_ok _ (hl _)) (pbind_ok _ (hm _)) (pbind_raise _ E).
    by move: IHst; rewrite E /outcome /=; case: (st); case: (mentions _ _) => //; left.
  set st' := st && _ in E.
  rewrite (@or_elseF _ _ _ _ st'); last first.
    rewrite /fn2 (pbind_ok _ (hl _)) (pbind_ok _ (hm _)) (pbind_ok _ E).
    by rewrite (pbind_fail _ (p_term_close _ _ _ h3)).
  rewrite (@or_elseF _ _ _ _ st'); last by apply: fn2_op_no.
  rewrite /fn1 (pbind_ok _ (hl _)) (pbind_ok _ (hm _)).
  have := IH st' isT; rewrite /st' /outcome /=; case: (st) => /=.
    case: (mentions _ _) => /= E'; first by left; rewrite (pbind_raise _ E').
    by rewrite (pbind_ok _ E') (pbind_ok _ (hp _)).
  by move=> E'; rewrite (pbind_raise _ E').
Qed.

(** Relations. *)
Definition routcome (A : Type) (a : A) (m : bool) (r : text) (st : bool) : pres A :=
  if st && ~~ m then POk a r true else PRaise AttributeError.

Lemma term_text_cons t s : term_text t s -> exists d s',
  [/\ s = d :: s', ~~ eqc "=" d & is_ident d -> name_char d].
Proof.
move/term_text_head => [w [c [s' [-> hw hc hk _]]]].
case: w hw => [|d w] /=.
  by exists c, s'; split => //; move: hk; case: c {hc} => [] [] [] [] [] [] [] [] [].
move=> /andP [hd _]; exists d, (w ++ c :: s'); split => //.
  by move: hd; move: (d); allchars.
by move: hd; case: d => [] [] [] [] [] [] [] [] [].
Qed.

Lemma keyword_ok w x d s st : blank w -> (if x is c :: _ then ~~ is_space c else false) ->
  ~~ is_ident d -> keyword x st (w ++ x ++ d :: s) = POk tt (d :: s) st.
Proof.
case: x => // c x hw hc /negbTE hd.
by rewrite /keyword skip_blank // cat_cons skip_cons // -cat_cons strip_cat hd.
Qed.

Lemma keyword_no w x s st : blank w -> (if s is c :: _ then ~~ is_space c else true) ->
  strip x s = None -> keyword x st (w ++ s) = PFail st.
Proof.
by move=> hw hs hx; rewrite /keyword skip_blank //; case: s hs hx => [|c s] hs; rewrite ?skip_cons // => ->.
Qed.

Lemma rln1_no n x c st w1 w2 s : blank w1 -> blank w2 ->
  (if s is c :: _ then ~~ is_space c else true) -> strip x s = None ->
  rln1 n x c st (w1 ++ txt "(" ++ w2 ++ s) = PFail st.
Proof.
move=> h1 h2 hs hx; rewrite /rln1 /lpar (pbind_ok _ (literal_ok (x := chars "(") _ st h1 isT)).
by rewrite (pbind_fail _ (keyword_no st h2 hs hx)).
Qed.

Lemma p_rln_ok f s : rel_text f s -> forall n st r, (size s < n)%N ->
  p_rln n st (s ++ r) = routcome f (rel_mentions "sympy" f) r st.
Proof.
case=> {f s} op c a b w1 w2 s1 s2 w3 hop h1 h2 h3 ha hb hk hab n st r hsz.
rewrite -!catA.
have [na nb] : (size s1 < n)%N /\ (size s2 < n)%N.
  by move: hsz; rewrite !size_cat [size (txt "(")]/=; lia.
have [d [s' [E1 E2 E3]]] := term_text_cons ha.
have hd : ~~ is_ident d.
  apply/negP => /E3 hd; move: hk; rewrite /apart E1 /= hd orbF.
  by case: hop => [|[|[|[|[|[|]]]]]] // [<- _].
set rest := s1 ++ s2 ++ w3 ++ txt ")" ++ r.
have hs x : strip x (txt op ++ rest) = strip x (txt op ++ d :: (s' ++ s2 ++ w3 ++ txt ")" ++ r)).
  by rewrite /rest E1.
have main c0 : rln1 n (txt op) c0 st (w1 ++ txt "(" ++ w2 ++ txt op ++ rest)
   = routcome (c0, a, b) (mentions "sympy" a || mentions "sympy" b) r st.
  rewrite /rln1 /lpar (pbind_ok _ (literal_ok (x := chars "(") _ st h1 isT)).
  have -> : txt op ++ rest = txt op ++ d :: (s' ++ s2 ++ w3 ++ txt ")" ++ r) by rewrite /rest E1.
  rewrite (pbind_ok _ (keyword_ok _ st h2 _ hd)); last first.
    by case: hop => [|[|[|[|[|[|]]]]]] // [<- _].
  have -> : d :: (s' ++ s2 ++ w3 ++ txt ")" ++ r) = rest by rewrite /rest E1.
  have hr st0 : rpar st0 (w3 ++ txt ")" ++ r) = POk tt r st0 by rewrite /rpar literal_ok.
  have := p_term_ok ha (n := n) st (r := s2 ++ w3 ++ txt ")" ++ r) na (follow_text _ hb hab).
  have B st0 : outcome b (mentions "sympy" b) (w3 ++ txt ")" ++ r) st0 (p_term n st0 (s2 ++ w3 ++ txt ")" ++ r)).
    by apply: p_term_ok => //; rewrite close_follow // orbT.
  rewrite {1}/outcome /rest /routcome; case: (st) => [|E]; last by rewrite (pbind_raise _ E).
  case: (mentions "sympy" a) => [[E|E]|E] /=; first by rewrite (pbind_raise _ E).
    by rewrite (pbind_ok _ E); have E' := B false; rewrite (pbind_raise _ E').
  rewrite (pbind_ok _ E); have := B true; rewrite /outcome.
  case: (mentions "sympy" b) => [[E'|E']|E'] /=.
  - by rewrite (pbind_raise _ E').
  - by rewrite (pbind_ok _ E') (pbind_ok _ (hr _)).
  - by rewrite (pbind_ok _ E') (pbind_ok _ (hr _)).
have yes x c0 : op = x -> c = c0 -> forall q, 
  or_else (rln1 n (chars x) c0) q st (w1 ++ txt "(" ++ w2 ++ txt op ++ rest) =
  routcome (c, a, b) (mentions "sympy" a || mentions "sympy" b) r st.
  move=> <- <- q; rewrite /or_else -/(txt op) main /routcome.
  by case: (st && _).
have no x c0 q : strip (chars x) (txt op ++ rest) = None ->
  or_else (rln1 n (chars x) c0) q st (w1 ++ txt "(" ++ w2 ++ txt op ++ rest) =
  q st (w1 ++ txt "(" ++ w2 ++ txt op ++ rest).
  move=> hx; apply: or_elseF; apply: rln1_no => //.
  by case: (hop) => [|[|[|[|[|[|]]]]]] // [<- _].
rewrite /p_rln -[rel_mentions _ _]/(mentions "sympy" a || mentions "sympy" b).
move/negbTE: E2 => E2; simpl in E2.
case: (hop) => [|[|[|[|[|[|]]]]]] // [Eo Ec].
- by apply: yes.
- by rewrite no; [apply: yes|rewrite hs -Eo /= E2].
- by do 2! (rewrite no; last by rewrite hs -Eo); apply: yes.
- by do 3! (rewrite no; last by rewrite hs -Eo); apply: yes.
- by do 4! (rewrite no; last by rewrite hs -Eo); apply: yes.
- do 4! (rewrite no; last by rewrite hs -Eo); rewrite no; last by rewrite hs -Eo /= E2.
  by subst op c; exact: main.
Qed.

(** Sequents. *)
Lemma p_rln_close n st w r : blank w -> p_rln n st (w ++ txt ")" ++ r) = PFail st.
Proof.
move=> hw.
have h x c : rln1 n x c st (w ++ txt ")" ++ r) = PFail st.
  by rewrite /rln1; apply: pbind_fail; apply: lpar_no; rewrite skip_blank.
by rewrite /p_rln; do 5! (rewrite (or_elseF _ (h _ _))).
Qed.

Lemma rel_text_size f s : rel_text f s -> (0 < size s)%N.
Proof. by case=> *; rewrite !size_cat /=; lia. Qed.

Definition isnil (A : Type) (s : seq A) := if s is [::] then true else false.

Definition foutcome (A : Type) (a : A) (e m : bool) (r : text) (st : bool) : pres A :=
  if e || st && ~~ m then POk a r st else PRaise AttributeError.

Lemma p_fmls_ok fs s : rels_text fs s -> forall n k st w r, blank w ->
  (size s < n)%N -> (size s < k)%N ->
  p_fmls n k st (s ++ w ++ txt ")" ++ r) =
  foutcome fs (isnil fs) (has (rel_mentions "sympy") fs) (w ++ txt ")" ++ r) st.
Proof.
elim=> [|f fs0 s0 s' hf hfs IH] n [|k] st w r hw hn hk //.
  by rewrite /p_fmls cat0s p_rln_close.
have [n1 k1] : (size s' < n)%N /\ (size s' < k)%N.
  by move: hn hk; rewrite size_cat; have := rel_text_size hf; lia.
have n2 : (size s0 < n)%N by move: hn; rewrite size_cat; lia.
rewrite /= -catA (p_rln_ok hf) // /routcome /foutcome /=.
case: st => //=; rewrite negb_or; case: (rel_mentions _ f) => //=.
rewrite /pbind (IH n k) // /foutcome.
have [->|->] //= : fs0 = [::] \/ isnil fs0 = false by case: (fs0); auto.
by case: (has _ fs0).
Qed.

Lemma side_ok kw fs s : side_text kw fs s -> forall n st r, (size s < n)%N ->
  (if txt kw is c :: _ then ~~ is_space c else false) ->
  side n (chars kw) st (s ++ r) = foutcome fs (isnil fs) (has (rel_mentions "sympy") fs) r st.
Proof.
case=> w1 w2 t w3 h1 h2 h3 ht n st r hn hkw; rewrite -!catA.
have ht' : (size t < n)%N by move: hn; rewrite !size_cat; lia.
rewrite /side /lpar (pbind_ok _ (literal_ok (x := chars "(") _ st h1 isT)).
rewrite (pbind_ok _ (literal_ok (x := chars kw) _ st h2 hkw)).
rewrite /pbind (p_fmls_ok ht) // /foutcome; case: (_ || _) => //.
by rewrite /rpar (literal_ok (x := chars ")")).
Qed.

Lemma quoted_ok w v s st : blank w -> ~~ has (Ascii.eqb """"%char) v ->
  quoted st (w ++ txt """" ++ v ++ txt """" ++ s) = POk v s st.
Proof.
move=> hw hv; rewrite /quoted skip_blank // (_ : strip _ _ = Some (v ++ txt """" ++ s)) //.
rewrite (span_cat (a := v)) //.
by rewrite all_predC (eq_has (a2 := Ascii.eqb """"%char)) // => c; rewrite /= eqcC.
Qed.

Definition plain (q : sequent) : bool := isnil (s_ante q) && isnil (s_succ q).

Lemma cmd_ok q s : sequent_text q s -> forall st r,
  cmd st (s ++ r) = foutcome q (plain q) (sequent_mentions "sympy" q) r st.
Proof.
case=> w1 w2 w3 s1 s2 w4 h1 h2 h3 h4 hq hs1 hs2 st r.
set t := _ ++ r; rewrite /cmd; set n := (size t).+1.
have [n1 n2] : (size s1 < n)%N /\ (size s2 < n)%N.
  by rewrite /n /t !size_cat; lia.
have -> : t = w1 ++ txt "(" ++ w2 ++ txt "sequent" ++ w3 ++ txt """" ++ s_name q ++
   txt """" ++ s1 ++ s2 ++ w4 ++ txt ")" ++ r by rewrite /t -!catA.
rewrite {1}/lpar (pbind_ok _ (literal_ok (x := chars "(") _ st h1 isT)).
rewrite (pbind_ok _ (literal_ok (x := chars "sequent") _ st h2 isT)).
rewrite (pbind_ok _ (quoted_ok _ st h3 hq)).
rewrite /pbind (side_ok hs1) // /foutcome /sequent_mentions /plain.
move: n n1 n2 => n n1 n2; case: q hq hs1 hs2 {t} => nm an su /= hq hs1 hs2.
have E : an = [::] \/ isnil an = false by case: (an); auto.
case: E => [->|->] /=.
  rewrite (side_ok hs2) // /foutcome; case: (_ || _) => //.
  by rewrite /rpar (literal_ok (x := chars ")")).
case: st => //=; case: (has _ an) => //=.
rewrite (side_ok hs2) // /foutcome /=.
have E : su = [::] \/ isnil su = false by case: (su); auto.
case: E => [->|->] /=; first by rewrite /rpar (literal_ok (x := chars ")")).
by case: (has _ su) => //=; rewrite /rpar (literal_ok (x := chars ")")).
Qed.

(** Files. *)
Lemma sequent_text_blank q w s : blank w -> sequent_text q s -> sequent_text q (w ++ s).
Proof.
move=> hw [w1 w2 w3 s1 s2 w4 h1 h2 h3 h4 hq hs1 hs2]; rewrite catA.
by apply: TxSequent => //; rewrite /blank all_cat; apply/andP.
Qed.

Lemma sequent_text_size q s : sequent_text q s -> (0 < size s)%N.
Proof. by case=> *; rewrite !size_cat /=; lia. Qed.

Lemma comment_skip j s : comment j -> blank j \/
  exists c j', [/\ skip (j ++ s) = c :: j' ++ s, ~~ eqc c "(", comment j' & (size j' < size j)%N].
Proof.
elim: j => [|c j IH]; first by left.
rewrite /comment /= negb_or -/(comment j) => /andP [h1 h2].
case E: (blank_char c); last first.
  by right; exists c, j; rewrite -blankE E; split => //; rewrite eqcC.
case: (IH h2) => [H|[d [j' [H1 H2 H3 H4]]]].
  by left; apply/andP.
by right; exists d, j'; rewrite -blankE E; split => //; apply: ltnW.
Qed.

Lemma cmd_no st s : (if skip s is c :: _ then ~~ eqc c "(" else true) -> cmd st s = PFail st.
Proof. by move=> h; rewrite /cmd (pbind_fail _ (lpar_no st h)). Qed.

Lemma scan_file qs s : file_text qs s -> forall n, (size s < n)%N ->
  scan n true s = if has (sequent_mentions "sympy") qs then Err AttributeError else Ok (qs, true).
Proof.
elim=> {qs s} [j hj|j q s qs s' hj hs hf IH].
  elim: {j}_.+1 {-2}j (ltnSn (size j)) hj => // m IHm j hm hj [|n] // hn.
  case: (comment_skip [::] hj) => [hb|[c [j' [E1 E2 E3 E4]]]].
    by rewrite /= cmd_no skip_all.
  rewrite !cats0 in E1; rewrite /= cmd_no E1 //.
  by apply: IHm => //; lia.
elim: {j}_.+1 {-2}j (ltnSn (size j)) hj => // m IHm j hm hj [|n] // hn.
case: (comment_skip (s ++ s') hj) => [hb|[c [j' [E1 E2 E3 E4]]]]; last first.
  rewrite /= cmd_no E1 //; apply: IHm => //; first by lia.
  by move: hn; rewrite !size_cat; lia.
have hn' : (size s' < n)%N.
  by move: hn; rewrite !size_cat; have := sequent_text_size hs; lia.
rewrite catA /= (cmd_ok (sequent_text_blank hb hs)) /foutcome /=.
case Ep: (plain q).
  have -> : sequent_mentions "sympy" q = false.
    by move: Ep; rewrite /plain /sequent_mentions; case: (s_ante q) => //; case: (s_succ q).
  by rewrite /= IH //; case: ifP.
by case: (sequent_mentions _ q) => //=; rewrite IH //; case: ifP.
Qed.

Lemma parse_files_ok fs : forall texts,
  List.Forall2 (fun f t => f.1 = t.1 /\ file_text f.2 t.2) fs texts ->
  parse_files true texts =
  if has (fun f => has (sequent_mentions "sympy") f.2) fs then Err AttributeError else Ok fs.
Proof.
elim: fs => [|[nm qs] fs IH] texts H.
  by inversion H.
inversion_clear H as [|? [nm' t] ? texts' [E1 E2] H']; simpl in E1, E2; subst nm'.
rewrite /parse_files -/parse_files (scan_file E2) //= ; case: (has _ qs) => //=.
by rewrite IH //; case: ifP.
Qed.

(** Any text: the parser stops, and it raises only after [sympy] was read. *)
Definition bad (st : bool) (s : text) : Prop := ~~ st \/ occurs (txt "sympy") s.

Definition tail (k : nat) (s r : text) : Prop := exists a, s = a ++ r /\ (k <= size a)%N.

Definition good (A : Type) (k n : nat) (p : parser A) : Prop := forall st s, (size s < n)%N ->
  match p st s with
  | POk _ r st' => tail k s r /\ (~~ st' -> bad st s)
  | PFail st' => ~~ st' -> bad st s
  | PRaise e => e = AttributeError /\ bad st s
  end.

Lemma tail_trans k k' s r t : tail k s r -> tail k' r t -> tail (k + k') s t.
Proof.
move=> [a [-> ha]] [b [-> hb]]; exists (a ++ b); rewrite catA size_cat; split=> //; lia.
Qed.

Lemma tail_le k k' s r : (k' <= k)%N -> tail k s r -> tail k' s r.
Proof. by move=> hk [a [-> ha]]; exists a; split=> //; lia. Qed.

Lemma tail_size k s r : tail k s r -> (size r + k <= size s)%N.
Proof. by move=> [a [-> ha]]; rewrite size_cat; lia. Qed.

Lemma tail_bad k st st' s r : tail k s r -> (~~ st' -> bad st s) -> bad st' r -> bad st s.
Proof.
move=> [a [-> _]] h [/h //|[b [c ->]]].
by right; exists (a ++ b), c; rewrite -!catA.
Qed.

Lemma good_le A k k' n n' (p : parser A) : (k' <= k)%N -> (n' <= n)%N -> good k n p -> good k' n' p.
Proof.
move=> hk hn h st s hs; have := h st s (leq_trans hs hn).
by case: (p st s) => // a r st' [[b [-> hb]] H]; split=> //; exists b; split => //; lia.
Qed.

Lemma good_bind A B k k' n (p : parser A) (f : A -> parser B) :
  good k n p -> (forall a, good k' (n - k) (f a)) -> good (k + k') n (pbind p f).
Proof.
move=> hp hf st s hs; rewrite /pbind; have := hp st s hs.
case: (p st s) => // a r st' [ht hb].
have hr : (size r < n - k)%N by have := tail_size ht; lia.
have := hf a st' r hr; case: (f a st' r) => [b t st''|st''|e].
- move=> [ht' hb']; split; first exact: tail_trans ht ht'.
  by move=> /hb'; apply: tail_bad ht hb.
- by move=> hb' /hb'; apply: tail_bad ht hb.
- by move=> [-> hb']; split => //; apply: tail_bad ht hb hb'.
Qed.

Lemma good_or A k n (p q : parser A) : good k n p -> good k n q -> good k n (or_else p q).
Proof.
move=> hp hq st s hs; rewrite /or_else; have := hp st s hs; case: (p st s) => // st' hb.
have := hq st' s hs; have tb : bad st' s -> bad st s by case=> [/hb|]; last right.
by case: (q st' s) => [a r st'' [h1 h2]|st'' h|e [h1 h2]]; [split|..|split] => //; auto.
Qed.

Lemma bad_false st s : ~~ st -> bad st s.
Proof. by left. Qed.

Lemma tail0 s : tail 0 s s.
Proof. by exists [::]. Qed.

Lemma good_action A n (a : A) : good 0 n (action a).
Proof. by move=> [] s hs /=; split=> //; [exact: tail0|left]. Qed.
Lemma good_pret A n (a : A) : good 0 n (pret a).
Proof. by move=> st s hs /=; split; [exact: tail0|left]. Qed.

Lemma skip_tail s : tail 0 s (skip s).
Proof.
elim: s => [|c s [a [E _]]] /=; first exact: tail0.
by case: ifP => _; [exists (c :: a); rewrite /= -E|exact: tail0].
Qed.

Lemma strip_tail w s r : strip w s = Some r -> s = w ++ r.
Proof.
elim: w s => [|c w IH] [|d s] //=; try by case=> ->.
by case: eqcP => // <- /IH ->.
Qed.

Lemma strip_tailk w s r : strip w s = Some r -> tail (size w) s r.
Proof. by move/strip_tail ->; exists w. Qed.

Lemma good_literal_at w n : good (size w) n (literal_at w).
Proof.
move=> st s hs; rewrite /literal_at; case E: (strip w s) => [r|]; last by left.
by split; [exact: strip_tailk|left].
Qed.

Lemma good_literal w n : good (size w) n (literal w).
Proof.
move=> st s hs; rewrite /literal /literal_at; case E: (strip w _) => [r|]; last by left.
by split; [apply: tail_trans (skip_tail s) (strip_tailk E)|left].
Qed.

Lemma good_keyword w n : good 0 n (keyword w).
Proof.
move=> st s hs; rewrite /keyword; case E: (strip w _) => [[|c r]|]; try by left.
- by split; [apply: tail_le (tail_trans (skip_tail s) (strip_tailk E))|left].
- case: ifP => _; first by left.
  by split; [apply: tail_le (tail_trans (skip_tail s) (strip_tailk E))|left].
Qed.

Lemma span_tail p s : s = (span p s).1 ++ (span p s).2.
Proof. by elim: s => //= c s; case: (p c) => //; case: (span p s) => a b /= <-. Qed.

Lemma good_nat_at n : good 0 n nat_at.
Proof.
move=> st s hs; rewrite /nat_at; have := span_tail is_num s.
case: (span is_num s) => [[|c a] b] /= E; first by left.
by split; [exists (c :: a)|left].
Qed.

Lemma good_nat_word n : good 0 n nat_word.
Proof.
move=> st s hs; rewrite /nat_word.
have := @good_nat_at n st (skip s) (leq_ltn_trans (size_skip s) hs).
case: (nat_at st (skip s)) => [a r st'|st'|e].
- move=> [h1 h2]; split; first exact: tail_trans (skip_tail s) h1.
  by move=> /h2; apply: tail_bad (skip_tail s) (@bad_false _ _).
- by move=> h /h; apply: tail_bad (skip_tail s) (@bad_false _ _).
- by move=> [-> h]; split => //; apply: tail_bad (skip_tail s) (@bad_false _ _) h.
Qed.

Lemma good_optional w n : good 0 n (optional w).
Proof.
move=> st s hs; rewrite /optional; have := @good_literal w n st s hs.
case: (literal w st s) => [a r st' [h1 h2]|st' h|e] //.
  by split => //; apply: tail_le h1.
by split => //; exact: tail0.
Qed.

Lemma good_number n : good 0 n number.
Proof.
apply: good_or.
  apply: (good_bind (k := 0) (k' := 0) (@good_optional _ _)) => ?.
  apply: (good_bind (k := 0) (k' := 0) (@good_nat_word _)) => ?.
  apply: (good_bind (k := 0) (k' := 0)) => [|?].
    exact: good_le (@good_literal_at (chars ".") _).
  apply: (good_bind (k := 0) (k' := 0) (@good_nat_at _)) => ?.
  exact: good_action.
apply: (good_bind (k := 0) (k' := 0) (@good_optional _ _)) => ?.
apply: (good_bind (k := 0) (k' := 0) (@good_nat_word _)) => ?.
apply: (good_bind (k := 0) (k' := 0) (@good_optional _ _)) => ?.
exact: good_action.
Qed.

Lemma good_variable n : good 0 n variable.
Proof.
move=> st s hs; rewrite /variable; have := skip_tail s.
case: (skip s) => [|c s'] ht; first by left.
case: ifP => _; last by left.
have := span_tail is_alnum_ s'; case: (span is_alnum_ s') => a b /= E.
rewrite /do_variable; case: st; last by split=> //; left.
have ht' : tail 0 s b.
  by case: ht => x [-> _]; exists (x ++ c :: a); rewrite E -catA.
split=> //; rewrite negbK => /String.eqb_spec hv; right.
have hv' : c :: a = txt "sympy".
  by rewrite -[c :: a]list_ascii_of_string_of_list_ascii hv.
case: ht => x [-> _]; exists x, b.
by rewrite E -cat_cons hv'.
Qed.

Lemma good_lpar n : good 1 n lpar. Proof. exact: (@good_literal (chars "(")). Qed.
Lemma good_rpar n : good 0 n rpar. Proof. exact: good_le (@good_literal (chars ")") n). Qed.

Lemma good_fn2 x mk n t : good 0 n t -> good 0 n.+1 (fn2 x mk t).
Proof.
move=> ht; apply: (@good_le _ 1 _ n.+1) => //.
apply: (good_bind (k' := 0) (@good_lpar _)) => ?; rewrite subn1 /=.
apply: (good_bind (k := 0) (k' := 0)) => [|?].
  exact: good_le (@good_literal x n).
rewrite subn0; apply: (good_bind (k := 0) (k' := 0)) => // ?.
rewrite subn0; apply: (good_bind (k := 0) (k' := 0)) => // ?.
by apply: (good_bind (k := 0) (k' := 0) (@good_rpar _)) => ?; apply: good_pret.
Qed.

Lemma good_fn1 x mk n t : good 0 n t -> good 0 n.+1 (fn1 x mk t).
Proof.
move=> ht; apply: (@good_le _ 1 _ n.+1) => //.
apply: (good_bind (k' := 0) (@good_lpar _)) => ?; rewrite subn1 /=.
apply: (good_bind (k := 0) (k' := 0)) => [|?].
  exact: good_le (@good_literal x n).
rewrite subn0; apply: (good_bind (k := 0) (k' := 0)) => // ?.
by apply: (good_bind (k := 0) (k' := 0) (@good_rpar _)) => ?; apply: good_pret.
Qed.

Lemma good_term n : good 0 n (p_term n).
Proof.
elim: n => [|n IH]; first by move=> st s.
rewrite p_termE; apply: good_or; first by apply: good_or; [exact: good_number|exact: good_variable].
by rewrite /p_fn; do 4! (apply: good_or; first exact: good_fn2); exact: good_fn1.
Qed.

Lemma good_rln1 n x c : good 1 n (rln1 n x c).
Proof.
apply: (good_bind (k' := 0) (@good_lpar _)) => ?.
apply: (good_bind (k := 0) (k' := 0) (@good_keyword _ _)) => ?.
have ht := good_le (leqnn 0) (leq_subr 1 n) (@good_term n).
rewrite subn0; apply: (good_bind (k := 0) (k' := 0)) => // ?.
rewrite subn0; apply: (good_bind (k := 0) (k' := 0)) => // ?.
by apply: (good_bind (k := 0) (k' := 0) (@good_rpar _)) => ?; apply: good_action.
Qed.

Lemma good_rln n : good 1 n (p_rln n).
Proof. by rewrite /p_rln; do 5! (apply: good_or; first exact: good_rln1); exact: good_rln1. Qed.

Lemma good_fmls n k : (k <= n)%N -> good 0 k (p_fmls n k).
Proof.
elim: k => [|k IH] hk st s hs //=.
have := @good_rln n st s (leq_trans hs hk).
case: (p_rln n st s) => [f r st' [h1 h2]|st' h|e h] //; last by split => //; exact: tail0.
have hr : (size r < k)%N by have := tail_size h1; lia.
have := @good_bind _ _ 0 0 k (p_fmls n k) (fun fs => pret (f :: fs)) (IH (ltnW hk))
  (fun fs => @good_pret _ _ (f :: fs)) st' r hr.
case: (pbind _ _ st' r) => [a t st''|st''|e].
- move=> [h3 h4]; split; first by apply: tail_le (tail_trans h1 h3).
  by move=> /h4; apply: tail_bad h1 h2.
- by move=> h /h; apply: tail_bad h1 h2.
- by move=> [-> h]; split => //; apply: tail_bad h1 h2 h.
Qed.

Lemma good_quoted n : good 0 n quoted.
Proof.
move=> st s hs; rewrite /quoted; case E: (strip _ _) => [r|]; last by left.
have := span_tail (fun c => ~~ eqc c """") r; case: (span _ r) => a b Er; simpl in Er.
case E': (strip (chars """") b) => [r'|]; last by left.
split; last by left.
have hr : tail 0 r r' by exists (a ++ chars """"); rewrite Er (strip_tail E') catA.
exact: tail_le (tail_trans (skip_tail s) (tail_trans (strip_tailk E) hr)).
Qed.

Lemma good_side n m kw : (m <= n)%N -> good 0 m (side n kw).
Proof.
move=> hm; apply: (@good_le _ 1 _ m) => //.
apply: (good_bind (k' := 0) (@good_lpar _)) => ?.
apply: (good_bind (k := 0) (k' := 0)) => [|?].
  exact: good_le (@good_literal kw _).
apply: (good_bind (k := 0) (k' := 0)) => [|?].
  by apply: good_le (good_fmls (leqnn n)) => //; lia.
by apply: (good_bind (k := 0) (k' := 0) (@good_rpar _)) => ?; apply: good_pret.
Qed.

Lemma good_cmd st s :
  match cmd st s with
  | POk _ r st' => tail 1 s r /\ (~~ st' -> bad st s)
  | PFail st' => ~~ st' -> bad st s
  | PRaise e => e = AttributeError /\ bad st s
  end.
Proof.
rewrite /cmd; set n := (size s).+1.
suff h : good 1 n (pbind lpar (fun _ => pbind (literal (chars "sequent")) (fun _ =>
   pbind quoted (fun name =>
   pbind (side n (chars "antecedent")) (fun ante =>
   pbind (side n (chars "succedent")) (fun succ =>
   pbind rpar (fun _ => pret (MkSequent name ante succ)))))))) by apply: h.
apply: (good_bind (k' := 0) (@good_lpar _)) => ?.
apply: (good_bind (k := 0) (k' := 0)) => [|?].
  exact: good_le (@good_literal (chars "sequent") _).
apply: (good_bind (k := 0) (k' := 0) (@good_quoted _)) => ?.
apply: (good_bind (k := 0) (k' := 0)) => [|?]; first by apply: good_side; lia.
apply: (good_bind (k := 0) (k' := 0)) => [|?]; first by apply: good_side; lia.
by apply: (good_bind (k := 0) (k' := 0) (@good_rpar _)) => ?; apply: good_pret.
Qed.

Lemma scan_total n st s : (size s < n)%N ->
  (exists qs st', scan n st s = Ok (qs, st') /\ (~~ st' -> bad st s)) \/
  (scan n st s = Err AttributeError /\ bad st s).
Proof.
elim: n st s => // n IH st s hs /=; have := good_cmd st s.
case: (cmd st s) => [q r st' [h1 h2]|st' h|e [-> h]]; last by right.
- have hr : (size r < n)%N by have := tail_size h1; lia.
  case: (IH st' r hr) => [[qs [st'' [-> h3]]]|[-> h3]].
    by left; exists (q :: qs), st''; split=> // /h3; apply: tail_bad h1 h2.
  by right; split => //; apply: tail_bad h1 h2 h3.
have := skip_tail s; case: (skip s) => [|c s'] ht; first by left; exists [::], st'.
have ht' : tail 1 s s'.
  by case: ht => a [-> _]; exists (rcons a c); rewrite cat_rcons size_rcons.
have hr : (size s' < n)%N by have := tail_size ht'; lia.
case: (IH st' s' hr) => [[qs [st'' [-> h3]]]|[-> h3]].
  by left; exists qs, st''; split=> // /h3; apply: tail_bad ht' h.
by right; split => //; apply: tail_bad ht' h h3.
Qed.

Lemma parse_files_total fs :
  (exists r, parse_files true fs = Ok r) \/
  (parse_files true fs = Err AttributeError /\ exists2 f, List.In f fs & occurs (txt "sympy") f.2).
Proof.
suff H st : (exists r, parse_files st fs = Ok r) \/
  (parse_files st fs = Err AttributeError /\ (~~ st \/ exists2 f, List.In f fs & occurs (txt "sympy") f.2)).
  by case: (H true) => [|[H1 []]] //; [left|right].
elim: fs st => [|[nm t] fs IH] st; first by left; exists [::].
rewrite /parse_files -/parse_files.
case: (@scan_total (size t).+1 st t (ltnSn _)) => [[qs [st' [-> hb]]]|[-> hb]].
  rewrite bind_ok [(_, _).1]/= [(_, _).2]/=; case: (IH st') => [[r ->]|[-> h]]; first by left; eexists.
  right; split=> //; case: h => [/hb [h|h]|[f h1 h2]]; [by left|right|right].
    by exists (nm, t) => //; left.
  by exists f => //; right.
right; split=> //; case: hb => [h|h]; [by left|right].
by exists (nm, t) => //; left.
Qed.

(** The round trips as they are stated. *)
Lemma term_round_trip t s : term_text t s -> ~~ mentions "sympy" t ->
  parse_string (p_term (size s).+1) true s = Ok t.
Proof.
move=> ht hm; have := p_term_ok ht (n := (size s).+1) true (r := [::]) (ltnSn _).
by rewrite cats0 /outcome (negbTE hm) orbT /parse_string => ->.
Qed.

Lemma rel_round_trip f s : rel_text f s -> ~~ rel_mentions "sympy" f ->
  parse_string (p_rln (size s).+1) true s = Ok f.
Proof.
move=> ht hm; have := p_rln_ok ht (n := (size s).+1) true [::] (ltnSn _).
by rewrite cats0 /routcome hm /parse_string => ->.
Qed.

Lemma sequent_round_trip q s : sequent_text q s -> ~~ sequent_mentions "sympy" q ->
  parse_string cmd true s = Ok q.
Proof.
move=> ht hm; have := cmd_ok ht true [::].
by rewrite cats0 /foutcome hm orbT /parse_string => ->.
Qed.

Lemma files_round_trip (fs : seq (string * seq sequent)) (texts : seq (string * seq ascii)) :
  List.Forall2 (fun f t => f.1 = t.1 /\ file_text f.2 t.2) fs texts ->
  ~~ has (fun f => has (sequent_mentions "sympy") f.2) fs -> parse_files true texts = Ok fs.
Proof. by move=> h /negbTE hm; rewrite (parse_files_ok h) hm. Qed.

Lemma files_sympy (fs : seq (string * seq sequent)) (texts : seq (string * seq ascii)) :
  List.Forall2 (fun f t => f.1 = t.1 /\ file_text f.2 t.2) fs texts ->
  has (fun f => has (sequent_mentions "sympy") f.2) fs ->
  parse_files true texts = Err AttributeError.
Proof. by move=> h hm; rewrite (parse_files_ok h) hm. Qed.

Lemma round_trip_refuted :
  exists q s, sequent_text q s /\ parse_string cmd true s = Err AttributeError.
Proof.
pose f := (CLt, TVar (string_of_list_ascii (txt "sympy")), TNum (decimal (txt "1"))).
exists (MkSequent [::] [:: f] [::]); eexists; split.
  apply: (@TxSequent _ [::] [::] [::] _ _ [::]) => //=.
    apply: (@TxSide _ _ [::] [::] _ [::]) => //; apply: TxCons TxNil.
    apply: (@TxRel "<" CLt _ _ [::] [::] (txt " sympy") (txt " 1") [::]) => //.
    - by right; left.
    - exact: (@TxVar (txt " ") (txt "sympy")).
    - by apply: (@TxNum _ (txt " ") (txt "1")) => //; apply: NumInt.
  by apply: (@TxSide _ _ [::] [::] _ [::]) => //; apply: TxNil.
by [].
Qed.
