(** Facts about the model of the parser of smt2.py. *)
From Coq Require Import String Ascii.
From mathcomp Require Import all_ssreflect all_algebra.
From mathcomp.zify Require Import zify.
From Verif Require Import Py CheckerModel GParserModel GParserSpec GParserFacts CheckerSpec
  GrfModel GrfSpec GrfSmt GrfSmtFacts SmtParse SmtParseSpec.

Set Implicit Arguments.
Unset Strict Implicit.
Unset Printing Implicit Defensive.
Import GRing.Theory Num.Theory Order.Theory.
Local Open Scope ring_scope.

Lemma sym_charE : sym_char =1 is_word. Proof. allchars. Qed.

(** What may follow a name or a number. *)
Definition sfollow (r : text) : bool := if r is c :: _ then ~~ is_word c else true.

Lemma word_num c : is_num c -> is_word c. Proof. by rewrite /is_word => ->. Qed.
Lemma sfollow_nonum r : sfollow r -> nonum r.
Proof. by case: r => // c r; apply: contra; exact: word_num. Qed.

(** ** Elements *)
Section Elements.
Variable S : Type.
Implicit Types (st : S) (s r : text).

Lemma alt_no T (p q : elt S T) st st' s : p st s = No st' -> alt p q st s = q st' s.
Proof. by rewrite /alt => ->. Qed.
Lemma alt_yes T (p q : elt S T) st s x : p st s = x -> (if x is No _ then false else true) -> alt p q st s = x.
Proof. by rewrite /alt => ->; case: x. Qed.
Lemma sq_yes T T' (p : elt S T) (f : T -> elt S T') st s a r st' : p st s = Yes a r st' ->
  sq p f st s = f a st' r.
Proof. by rewrite /sq => ->. Qed.
Lemma sq_no T T' (p : elt S T) (f : T -> elt S T') st s st' : p st s = No st' -> sq p f st s = No st'.
Proof. by rewrite /sq => ->. Qed.
Lemma sq_raise T T' (p : elt S T) (f : T -> elt S T') st s e : p st s = Raise e -> sq p f st s = Raise e.
Proof. by rewrite /sq => ->. Qed.

Lemma lit_ok w x s st : blank w -> (if x is c :: _ then ~~ is_space c else false) ->
  lit x st (w ++ x ++ s) = Yes tt s st.
Proof.
case: x => // c x hw hc.
by rewrite /lit skip_blank // cat_cons skip_cons // /lit_at -cat_cons strip_cat.
Qed.

Lemma lit_no c x s st : (if skip s is d :: _ then ~~ eqc c d else true) -> lit (c :: x) st s = No st.
Proof. by move=> h; rewrite /lit /lit_at strip_no. Qed.

Lemma word_at_ok p a r st : all p a -> (0 < size a)%N -> (if r is c :: _ then ~~ p c else true) ->
  word_at p st (a ++ r) = Yes a r st.
Proof. by move=> ha hs hr; rewrite /word_at span_cat //; case: a ha hs. Qed.

Lemma word_ok p w a r st : blank w -> all p a -> (0 < size a)%N -> (if r is c :: _ then ~~ p c else true) ->
  (forall c, p c -> ~~ is_space c) -> word p st (w ++ a ++ r) = Yes a r st.
Proof.
move=> hw ha hs hr hp; rewrite /word skip_blank // -(word_at_ok st ha hs hr).
by case: a ha hs => // c a /= /andP[/hp hc _] _; rewrite (negbTE hc).
Qed.

Lemma word_no (p : pred ascii) st s : (if skip s is c :: _ then ~~ p c else true) -> word p st s = No st.
Proof. by rewrite /word /word_at; case: (skip s) => //= c s' /negbTE ->. Qed.

Lemma key_ok w x d s st : blank w -> (if x is c :: _ then ~~ is_space c else false) ->
  ~~ is_ident d -> key x st (w ++ x ++ d :: s) = Yes tt (d :: s) st.
Proof.
case: x => // c x hw hc /negbTE hd.
by rewrite /key skip_blank // cat_cons skip_cons // -cat_cons strip_cat hd.
Qed.

Lemma key_no w x s st : blank w -> (if s is c :: _ then ~~ is_space c else true) ->
  strip x s = None -> key x st (w ++ s) = No st.
Proof.
by move=> hw hs hx; rewrite /key skip_blank //; case: s hs hx => [|c s] hs; rewrite ?skip_cons // => ->.
Qed.

Lemma quoted_string_ok w v s st : blank w -> ~~ has (Ascii.eqb """"%char) v ->
  quoted_string st (w ++ txt """" ++ v ++ txt """" ++ s) = Yes v s st.
Proof.
move=> hw hv; rewrite /quoted_string skip_blank // (_ : strip _ _ = Some (v ++ txt """" ++ s)) //.
rewrite (span_cat (a := v)) //.
by rewrite all_predC (eq_has (a2 := Ascii.eqb """"%char)) // => c; rewrite /= eqcC.
Qed.
End Elements.

Lemma num_space c : is_num c -> ~~ is_space c. Proof. by move: c; allchars. Qed.
Lemma word_space c : is_word c -> ~~ is_space c. Proof. by move: c; allchars. Qed.
Lemma word_open c : is_word c -> ~~ eqc c "(" && ~~ eqc c "~" && ~~ eqc c ")". Proof. by move: c; allchars. Qed.

Lemma digits_num ds : digits ds -> all is_num ds /\ (0 < size ds)%N.
Proof. by move=> /andP[h ->]; rewrite -(eq_all digitE). Qed.

Section Facts.
Variables (R : realDomainType) (L : lib R) (A : arith (P L)).
Local Notation poly := (P L).

Definition fin (T : Type) (m : res (pst * T)) (r : text) : presult pst T :=
  match m with Ok (st', a) => Yes a r st' | Err e => Raise e end.

Lemma fin_alt T (p q : elt pst T) st s m r : p st s = fin m r -> alt p q st s = fin m r.
Proof. by move=> h; apply: alt_yes h _; case: m => [[]|]. Qed.
Lemma fin_sq T T' (p : elt pst T) (f : T -> elt pst T') st s (m : res (pst * T)) r (g : T -> pst -> res (pst * T')) r' :
  p st s = fin m r -> (forall a st', m = Ok (st', a) -> f a st' r = fin (g a st') r') ->
  sq p f st s = fin (let! x := m in g x.2 x.1) r'.
Proof.
by move=> h hf; case: m h hf => [[st' a]|e] /= h hf; [rewrite (sq_yes _ h) hf|rewrite (sq_raise _ h)].
Qed.

(** ** Numbers *)
Lemma dec_tail q s w r (st : pst) neg : blank w -> decimal_text q s -> sfollow r -> exists ds es,
  dec_val ds es = q /\
  sq (word is_num) (fun ds => sq (lit_at (chars ".")) (fun _ => sq (opt (word_at is_num)) (fun es =>
    ret (do_real A neg ds es)))) st (w ++ s ++ r) = Yes (do_real A neg ds es) r st.
Proof.
move=> hw hn hr; have hr' := sfollow_nonum hr; case: hn => [ds hd|ds es hd he].
  have [d1 d2] := digits_num hd; exists ds, None; split; first by rewrite /= decimalE.
  rewrite -catA (@sq_yes _ _ _ _ _ _ _ ds (txt "." ++ r) st); last by apply: word_ok => //; exact: num_space.
  rewrite (@sq_yes _ _ _ _ _ _ _ tt r st) // (@sq_yes _ _ _ _ _ _ _ None r st) //.
  by rewrite /opt /word_at; case: (r) hr' => //= c r' /negbTE ->.
have [d1 d2] := digits_num hd; have [e1 e2] := digits_num he.
exists ds, (Some es); split; first by rewrite /= !decimalE.
rewrite -!catA (@sq_yes _ _ _ _ _ _ _ ds (txt "." ++ es ++ r) st); last by apply: word_ok => //; exact: num_space.
rewrite (@sq_yes _ _ _ _ _ _ _ tt (es ++ r) st) // (@sq_yes _ _ _ _ _ _ _ (Some es) r st) //.
by rewrite /opt word_at_ok.
Qed.

Lemma decimal_cons q s : decimal_text q s -> exists c s', s = c :: s' /\ is_num c.
Proof.
case=> [ds|ds es] /digits_cons [c [ds' [-> hc _]]]; first by exists c; eexists.
by move=> _; exists c; eexists.
Qed.

Definition num_of (neg : bool) (q : rat) : poly :=
  if neg then a_mul A (a_num A (-1)) (a_num A q) else a_num A q.

Lemma p_number_ok q s w r st : blank w -> decimal_text q s -> sfollow r ->
  p_number A st (w ++ s ++ r) = Yes (num_of false q) r st.
Proof.
move=> hw hn hr; have [ds [es [<- E]]] := dec_tail st None hw hn hr.
rewrite /p_number (@sq_yes _ _ _ _ _ _ _ None (w ++ s ++ r) st) //.
have [c [s' [-> hc]]] := decimal_cons hn.
rewrite /opt lit_no // skip_blank //= (negbTE (num_space hc)).
by move: c hc {E hn}; allchars.
Qed.

Lemma p_number_neg q s w w' r st : blank w -> blank w' -> decimal_text q s -> sfollow r ->
  p_number A st (w ++ txt "~" ++ w' ++ s ++ r) = Yes (num_of true q) r st.
Proof.
move=> hw hw' hn hr; have [ds [es [<- E]]] := dec_tail st (Some tt) hw' hn hr.
rewrite /p_number (@sq_yes _ _ _ _ _ _ _ (Some tt) (w' ++ s ++ r) st) //.
by rewrite /opt (lit_ok (x := chars "~")).
Qed.

Lemma p_number_no st s : (if skip s is c :: _ then ~~ is_num c && ~~ eqc c "~" else true) ->
  p_number A st s = No st.
Proof.
move=> h; rewrite /p_number (@sq_yes _ _ _ _ _ _ _ None s st).
  by apply: sq_no; apply: word_no; case: (skip s) h => // c s' /andP[].
by rewrite /opt lit_no //; case: (skip s) h => // c s' /andP[_]; rewrite eqcC.
Qed.

(** ** Names *)
Lemma sym_all v : sym v -> [/\ all is_word v, (0 < size v)%N & ~~ begins_decimal v].
Proof. by move=> /and3P[h1 h2 h3]; split => //; rewrite -(eq_all sym_charE). Qed.

Lemma p_number_name w v r st : blank w -> sym v -> sfollow r -> p_number A st (w ++ v ++ r) = No st.
Proof.
move=> hw /sym_all[hv hs hb] hr.
rewrite /p_number (@sq_yes _ _ _ _ _ _ _ None (w ++ v ++ r) st); last first.
  rewrite /opt lit_no // skip_blank //; case: v hv hs {hb} => // c v /= /andP[hc _] _.
  by rewrite (negbTE (word_space hc)); move: c hc; allchars.
case E : (span is_num (v ++ r)) => [a b].
have Es : skip (w ++ v ++ r) = v ++ r.
  by rewrite skip_blank //; case: v hv hs {hb E} => // c v /= /andP[hc _] _; rewrite (negbTE (word_space hc)).
rewrite /sq /word Es /word_at E; case: a E => // d a E.
rewrite (_ : lit_at _ _ _ = No st) // /lit_at strip_no //.
have Ev : v ++ r = (d :: a) ++ b by have := span_tail is_num (v ++ r); rewrite E.
have Ed : all is_num (d :: a) /\ (if b is c :: _ then ~~ is_num c else true).
  move: E; move: (v ++ r) (d :: a) => l a' {Ev}; elim: l a' b => [|c l IH] a' b /=; first by case=> <- <-.
  case: ifP => hc; last by case=> <- <- /=; rewrite hc.
  by case F : (span is_num l) => [a1 b1] [<- <-] /=; rewrite hc /=; exact: IH.
case: b Ev Ed {E} => // c b Ev [Ed Ec].
apply/negP => /eqcP Ecc; subst c; move/negP: hb; apply.
have lt : (size (d :: a) < size v)%N.
  rewrite ltnNge; apply/negP => le.
  have : nth " "%char (v ++ r) (size (d :: a)) = "."%char by rewrite Ev nth_cat ltnn subnn.
  have le' : (size v < size (d :: a))%N \/ size v = size (d :: a) by move: le; lia.
  case: le' => [lt|eq].
    have : nth " "%char (v ++ r) (size v) = nth " "%char (d :: a) (size v) by rewrite Ev nth_cat lt.
    rewrite nth_cat ltnn subnn; case: (r) hr Ev => [_ Ev|f r' hr _].
      by move: lt; have /(congr1 size) := Ev; rewrite cats0 size_cat => ->; lia.
    move=> /= Ef; have : is_num f by move/all_nthP: Ed => /(_ " "%char _ lt); rewrite -Ef.
    by move/word_num => hf; move: hr; rewrite /sfollow hf.
  rewrite -eq nth_cat ltnn subnn; case: (r) hr => //= f r' hr Ef.
  by move: hr; rewrite Ef.
have Ft : find (predC digit) v = size (d :: a).
  have Et : take (size (d :: a)) v = d :: a.
    by rewrite -(takel_cat r) 1?ltnW // Ev take_size_cat.
  have En : nth " "%char v (size (d :: a)) = "."%char.
    by have := nth_cat " "%char v r (size (d :: a)); rewrite lt => <-; rewrite Ev nth_cat ltnn subnn.
  rewrite -[v](cat_take_drop (size (d :: a))) Et find_cat.
  have -> : has (predC digit) (d :: a) = false.
    by apply/negbTE; rewrite has_predC negbK (eq_all digitE).
  rewrite (drop_nth " "%char lt) En /=; by rewrite addn0.
rewrite /begins_decimal Ft /=.
have -> : nth " "%char v (size (d :: a)) = "."%char.
  by have := nth_cat " "%char v r (size (d :: a)); rewrite lt => <-; rewrite Ev nth_cat ltnn subnn.
by [].
Qed.

Lemma p_var_ok w v r st : blank w -> sym v -> sfollow r ->
  p_var L st (w ++ v ++ r) = fin (do_var L v st) r.
Proof.
move=> hw /sym_all[hv hs _] hr; rewrite /p_var (@sq_yes _ _ _ _ _ _ _ v r st) //.
by apply: word_ok => //; exact: word_space.
Qed.

Lemma p_var_no st s : (if skip s is c :: _ then ~~ is_word c else true) -> p_var L st s = No st.
Proof. by move=> h; rewrite /p_var (sq_no _ (word_no _ h)). Qed.

(** ** What the parse actions of a term do *)
Definition key_of (x : string) : sname := list_ascii_of_string x.
Definition nu_of (c : ctx sname) (x : string) : nat := if dget (var_map c) (key_of x) is Ok i then i else 0%N.
Definition ext (c c' : ctx sname) : Prop := forall t w, dget (var_map c) t = Ok w -> dget (var_map c') t = Ok w.
Definition keys (c : ctx sname) : seq sname := map fst (var_map c).

Record behaves (t : term) (E : pst -> res (pst * poly)) : Prop := Behaves {
  b_ok : forall st st' p, good_ctx (names st) -> E st = Ok (st', p) ->
    [/\ good_ctx (names st'), ext (names st) (names st'), fresh st' = fresh st,
        keys (names st') =i keys (names st) ++ map key_of (tvars t) &
        forall st2, good_ctx (names st2) -> ext (names st') (names st2) -> E st2 = Ok (st2, p)];
  b_val : forall (K : realFieldType) (val : poly -> (var -> K) -> K), arith_ok val A ->
    forall st st' p, good_ctx (names st) -> E st = Ok (st', p) -> forall c2, ext (names st') c2 ->
    forall e x, tvalue t (fun n => e (nu_of c2 n)) = Some x -> val p e = x;
  b_err : forall st e, good_ctx (names st) -> E st = Err e -> divides t /\ exists p q, a_div A p q = Err e
}.

Lemma ext_refl c : ext c c. Proof. by []. Qed.
Lemma ext_trans c c' c'' : ext c c' -> ext c' c'' -> ext c c''.
Proof. by move=> h h' t w /h /h'. Qed.

Lemma behaves_num neg q : behaves (TNum (if neg then - q else q)) (fun st => Ok (st, num_of neg q)).
Proof.
split=> [st st' p G [<- <-]|K val AO st st' p _ [_ <-] c2 _ e x [<-]|st e _ //].
  by split=> // k; rewrite cats0.
rewrite /num_of; case: neg; rewrite ?(val_mul AO) !(val_num AO) //.
by rewrite !rmorphN rmorph1 mulN1r.
Qed.

Lemma key_ofK v : key_of (string_of_list_ascii v) = v.
Proof. exact: list_ascii_of_string_of_list_ascii. Qed.

Lemma behaves_var v : behaves (TVar (string_of_list_ascii v)) (do_var L v).
Proof.
split=> [[c n] st' p G|K val AO [c n] st' p G|[c n] e G]; rewrite /do_var /names -/(names _).
- have [c' [i [E G' D X M]]] := get_ring_varP (v : sname) G; rewrite E /= => -[<- <-]; split=> //=.
    move=> k; rewrite /keys key_ofK M mem_cat inE; case: ifP => Mv.
      by case: eqP => [->|]; rewrite ?orbF ?orbT // -/(dmem _ _) Mv.
    by rewrite mem_rcons inE orbC.
  move=> [c2 n2] G2 X2; rewrite /names /fresh.
  have D2 := X2 _ _ D; rewrite /get_ring_var (dget_dmem D2).
  by move: D2 => /= ->.
- have [c' [i [E G' D X M]]] := get_ring_varP (v : sname) G; rewrite E /= => -[<- <-] c2 X2 e x [<-].
  by rewrite (val_gen AO) /nu_of key_ofK (X2 _ _ D).
- by have [c' [i [E G' D X M]]] := get_ring_varP (v : sname) G; rewrite E.
Qed.

Definition bin_eval (f : poly -> poly -> res poly) (Ea Eb : pst -> res (pst * poly)) (st : pst) : res (pst * poly) :=
  let! x := Ea st in let! y := Eb x.1 in let! z := f x.2 y.2 in Ok (y.1, z).

Lemma behaves_bin f (mk : term -> term -> term) a b Ea Eb : behaves a Ea -> behaves b Eb ->
  tvars (mk a b) = tvars a ++ tvars b ->
  (divides a || divides b -> divides (mk a b)) ->
  (forall p q e, f p q = Err e -> divides (mk a b) /\ a_div A p q = Err e) ->
  (forall (K : realFieldType) (val : poly -> (var -> K) -> K), arith_ok val A ->
   forall e v x, tvalue (mk a b) v = Some x -> exists y z,
    [/\ tvalue a v = Some y, tvalue b v = Some z &
        forall p q r, val p e = y -> val q e = z -> f p q = Ok r -> val r e = x]) ->
  behaves (mk a b) (bin_eval f Ea Eb).
Proof.
move=> Ba Bb hv hd he hs; split=> [st st' p G|K val AO st st' p G|st e G]; rewrite /bin_eval.
- case Ea1 : (Ea st) => [[s1 p1]|//] /=; case Eb1 : (Eb s1) => [[s2 p2]|//] /=.
  case Ef : (f p1 p2) => [z|//] /= [<- <-].
  have [G1 X1 F1 M1 I1] := b_ok Ba G Ea1; have [G2 X2 F2 M2 I2] := b_ok Bb G1 Eb1.
  split=> //.
  + exact: ext_trans X1 X2.
  + by rewrite F2.
  + by move=> k; rewrite M2 mem_cat M1 hv map_cat !mem_cat orbA.
  move=> st2 G3 X3; rewrite (I1 _ G3 (ext_trans X2 X3)) /= (I2 _ G3 X3) /=.
  by rewrite Ef.
- case Ea1 : (Ea st) => [[s1 p1]|//] /=; case Eb1 : (Eb s1) => [[s2 p2]|//] /=.
  case Ef : (f p1 p2) => [z|//] /= [<- <-] c2 X e x Et.
  have [G1 X1 F1 M1 I1] := b_ok Ba G Ea1; have [G2 X2 F2 M2 I2] := b_ok Bb G1 Eb1.
  have [y [y' [Ta Tb]]] := hs K val AO e _ x Et; apply; last exact: Ef.
    exact: (b_val Ba AO G Ea1 (ext_trans X2 X) Ta).
  exact: (b_val Bb AO G1 Eb1 X Tb).
- case Ea1 : (Ea st) => [[s1 p1]|e1] /=; last first.
    by case=> <-; have [D P] := b_err Ba G Ea1; split=> //; rewrite hd // D.
  have [G1 X1 F1 M1 I1] := b_ok Ba G Ea1; case Eb1 : (Eb s1) => [[s2 p2]|e1] /=; last first.
    by case=> <-; have [D P] := b_err Bb G1 Eb1; split=> //; rewrite hd // D orbT.
  case Ef : (f p1 p2) => [//|e1] /= [<-]; have [D P] := he _ _ _ Ef; split=> //.
  by exists p1, p2.
Qed.

Definition neg_eval (Ea : pst -> res (pst * poly)) (st : pst) : res (pst * poly) :=
  let! x := Ea st in Ok (x.1, a_sub A (a_num A 0) x.2).

Lemma behaves_neg a Ea : behaves a Ea -> behaves (TNeg a) (neg_eval Ea).
Proof.
move=> Ba; split=> [st st' p G|K val AO st st' p G|st e G]; rewrite /neg_eval.
- case Ea1 : (Ea st) => [[s1 p1]|//] /= [<- <-]; have [G1 X1 F1 M1 I1] := b_ok Ba G Ea1.
  by split=> // st2 G2 X2; rewrite I1.
- case Ea1 : (Ea st) => [[s1 p1]|//] /= [<- <-] c2 X e x.
  case Et : (tvalue a _) => [y|//] /= [<-].
  by rewrite (val_sub AO) (val_num AO) rmorph0 sub0r (b_val Ba AO G Ea1 X Et).
- by case Ea1 : (Ea st) => [[s1 p1]|e1] //= [<-]; have := b_err Ba G Ea1.
Qed.

(** The action of a function symbol. *)
Definition fun_of (op : string) (p q : poly) : res poly :=
  if String.eqb op "/" then a_div A p q else
  if String.eqb op "+" then Ok (a_add A p q) else
  if String.eqb op "*" then Ok (a_mul A p q) else Ok (a_sub A p q).

Lemma behaves_op op mk a b Ea Eb : List.In (op, mk) ops -> behaves a Ea -> behaves b Eb ->
  behaves (mk a b) (bin_eval (fun_of op) Ea Eb).
Proof.
move=> hop Ba Bb; apply: behaves_bin => //.
- by case: hop => [|[|[|[|]]]] // [_ <-].
- by case: hop => [|[|[|[|]]]] // [_ <-].
- by case: hop => [|[|[|[|]]]] // [<- <-].
move=> K val AO e v x; case: hop => [|[|[|[|]]]] // [<- <-] /=.
- case: (tvalue a v) => [y|//]; case: (tvalue b v) => [z|//] [<-]; exists y, z; split=> // p q r <- <- [<-].
  exact: (val_add AO).
- case: (tvalue a v) => [y|//]; case: (tvalue b v) => [z|//] [<-]; exists y, z; split=> // p q r <- <- [<-].
  exact: (val_mul AO).
- case: (tvalue a v) => [y|//]; case: (tvalue b v) => [z|//] [<-]; exists y, z; split=> // p q r <- <- [<-].
  exact: (val_sub AO).
- case: (tvalue b v) => [z|//]; case: eqP => // /eqP zn; case: (tvalue a v) => [y|//] [<-].
  exists y, z; split=> // p q r Ep Eq; rewrite /fun_of /= => Er.
  apply: (mulIf zn); rewrite divfK // -Ep -Eq; exact: (val_div AO _ Er).
Qed.

(** ** Terms *)
Lemma p_stermE n : p_sterm A n = alt (p_number A) (alt (p_var L)
    (if n is n'.+1 then p_funs A (p_sterm A n') else fun _ _ => Raise OutOfFuel)).
Proof. by case: n. Qed.

Lemma p_lpar_no st s : (if skip s is c :: _ then ~~ eqc c "(" else true) -> p_lpar st s = No st.
Proof. by move=> h; apply: lit_no; case: (skip s) h => // c s'; rewrite eqcC. Qed.

Lemma p_lpar_ok w s st : blank w -> p_lpar st (w ++ txt "(" ++ s) = Yes tt s st.
Proof. by move=> hw; apply: (lit_ok (x := chars "(")). Qed.
Lemma p_rpar_ok w s st : blank w -> p_rpar st (w ++ txt ")" ++ s) = Yes tt s st.
Proof. by move=> hw; apply: (lit_ok (x := chars ")")). Qed.

Lemma p_funs_no t st s : (if skip s is c :: _ then ~~ eqc c "(" else true) -> p_funs A t st s = No st.
Proof.
move=> h; have hn x f : p_fn2 x f t st s = No st by rewrite /p_fn2 (sq_no _ (p_lpar_no st h)).
rewrite /p_funs; do 4! rewrite (alt_no _ (hn _ _)).
by rewrite /p_fn1 (sq_no _ (p_lpar_no st h)).
Qed.

Lemma not_atom n st w c r : blank w -> ~~ is_space c -> ~~ is_word c -> ~~ eqc c "~" ->
  p_sterm A n.+1 st (w ++ c :: r) = p_funs A (p_sterm A n) st (w ++ c :: r).
Proof.
move=> hw h0 h1 h2; rewrite p_stermE (@alt_no _ _ _ _ _ st); last first.
  apply: p_number_no; rewrite skip_blank // skip_cons // h2 andbT.
  by apply: contra h1; exact: word_num.
rewrite (@alt_no _ _ _ _ _ st) //; apply: p_var_no.
by rewrite skip_blank // skip_cons.
Qed.

Lemma p_sterm_close n w r st : blank w -> p_sterm A n.+1 st (w ++ txt ")" ++ r) = No st.
Proof. by move=> hw; rewrite not_atom //; apply: p_funs_no; rewrite skip_blank. Qed.

Lemma fn2_no c x (f : poly -> poly -> res poly) t st w1 w2 d s : blank w1 -> blank w2 -> ~~ is_space d -> ~~ eqc c d ->
  p_fn2 (c :: x) f t st (w1 ++ txt "(" ++ w2 ++ d :: s) = No st.
Proof.
move=> h1 h2 hd hc; rewrite /p_fn2 (sq_yes _ (p_lpar_ok _ _ h1)).
by apply: sq_no; apply: lit_no; rewrite skip_blank // skip_cons.
Qed.

Lemma close_sfollow w r : blank w -> sfollow (w ++ txt ")" ++ r).
Proof.
move=> hw; rewrite /sfollow.
by case: w hw => //= c w /andP [+ _]; rewrite blankE; move: c; allchars.
Qed.

Lemma sterm_head t s : sterm_text t s -> exists w c s',
  [/\ s = w ++ c :: s', blank w, ~~ is_space c & [|| is_word c, eqc c "~" | eqc c "("]].
Proof.
case=> [q w s0 hw hn|q w w' s0 hw hw' hn|w v hw hv|op mk a b w1 w2 s1 s2 w3 _ h1 h2 h3 _ _ _|a w1 w2 s1 w3 h1 h2 h3 _].
- have [c [s' [-> hc]]] := decimal_cons hn.
  by exists w, c, s'; rewrite word_num //; split=> //; exact: num_space.
- by exists w, "~"%char, (w' ++ s0).
- have [hv1 hv2 _] := sym_all hv; case: v hv1 hv2 {hv} => // c v /= /andP[hc _] _.
  by exists w, c, v; rewrite hc; split=> //; exact: word_space.
- by exists w1, "("%char; eexists; split; first reflexivity.
- by exists w1, "("%char; eexists; split; first reflexivity.
Qed.

Lemma separate_follow t s s1 r : sterm_text t s -> separate s1 s ->
  eqc (last " "%char s1) ")" || sfollow (s ++ r).
Proof.
move=> ht; rewrite /separate -/(eqc _ _); case: (eqc _ _) => //= ha.
have [w [c [s' [E hw hc _]]]] := sterm_head ht.
by case: s E ha {ht} => [|d s0] /=; [case: w {hw}|rewrite sym_charE].
Qed.

Lemma nopar_sfollow s r : all nopar s -> eqc (last " "%char s) ")" || sfollow r -> sfollow r.
Proof. by move=> hs; have /negbTE -> := @last_pred nopar " " s isT hs. Qed.

Lemma decimal_nopar q s : decimal_text q s -> all nopar s.
Proof. by case=> [ds hd|ds es hd he]; rewrite !all_cat ?(digits_nopar hd) ?(digits_nopar he). Qed.
Lemma sym_nopar v : sym v -> all nopar v.
Proof. by move=> /sym_all[+ _ _]; apply: sub_all => c /word_open /andP[_]. Qed.

(** The element [t] has read the text [s] and done [E]. *)
Definition reads (T : Type) (t : elt pst T) (s : text) (E : pst -> res (pst * T)) (ok : text -> bool) : Prop :=
  forall st r, good_ctx (names st) -> ok r -> t st (s ++ r) = fin (E st) r.

Lemma fn2_reads x f n a Ea b Eb w1 w2 s1 s2 w3 :
  (if x is c :: _ then ~~ is_space c else false) ->
  blank w1 -> blank w2 -> blank w3 -> behaves a Ea -> behaves b Eb ->
  reads (p_sterm A n) s1 Ea (fun r => eqc (last " "%char s1) ")" || sfollow r) ->
  reads (p_sterm A n) s2 Eb (fun r => eqc (last " "%char s2) ")" || sfollow r) ->
  (forall r, eqc (last " "%char s1) ")" || sfollow (s2 ++ r)) ->
  reads (p_fn2 x f (p_sterm A n)) (w1 ++ txt "(" ++ w2 ++ x ++ s1 ++ s2 ++ w3 ++ txt ")") (bin_eval f Ea Eb) predT.
Proof.
move=> hx h1 h2 h3 Ba Bb Ra Rb hab st r G _; rewrite -!catA.
rewrite /p_fn2 (sq_yes _ (p_lpar_ok _ _ h1)) (sq_yes _ (lit_ok _ _ h2 hx)).
apply: (@fin_sq _ _ _ _ _ _ (Ea st) (s2 ++ w3 ++ txt ")" ++ r)
  (fun p st' => let! y := Eb st' in let! z := f p y.2 in Ok (y.1, z))) => [|p st' Ep].
  exact: Ra.
have [G' _ _ _ _] := b_ok Ba G Ep.
apply: (@fin_sq _ _ _ _ _ _ (Eb st') (w3 ++ txt ")" ++ r)
  (fun q st'' => let! z := f p q in Ok (st'', z))) => [|q st'' Eq].
  by apply: Rb => //; rewrite close_sfollow // orbT.
by rewrite (sq_yes _ (p_rpar_ok _ _ h3)) /act /pure; case: (f p q).
Qed.

Lemma p_sterm_ok t s : sterm_text t s -> exists E, behaves t E /\
  forall n, (size s < n)%N -> reads (p_sterm A n) s E (fun r => eqc (last " "%char s) ")" || sfollow r).
Proof.
elim=> {t s} [q w s hw hn|q w w' s hw hw' hn|w v hw hv
  |op mk a b w1 w2 s1 s2 w3 hop h1 h2 h3 ha [Ea [Ba Ra]] hb [Eb [Bb Rb]] hab|a w1 w2 s1 w3 h1 h2 h3 ha [Ea [Ba Ra]]].
- exists (fun st => Ok (st, num_of false q)); split; first exact: (behaves_num false).
  move=> n hsz st r G hr; have hf : sfollow r.
    by apply: nopar_sfollow hr; rewrite all_cat blank_nopar //=; apply: decimal_nopar hn.
  by rewrite -catA p_stermE; apply: fin_alt; rewrite (p_number_ok _ hw hn hf).
- exists (fun st => Ok (st, num_of true q)); split; first exact: (behaves_num true).
  move=> n hsz st r G hr; have hf : sfollow r.
    apply: nopar_sfollow hr; rewrite all_cat /= all_cat (blank_nopar hw) (blank_nopar hw') /=; exact: decimal_nopar hn.
  by rewrite -!catA p_stermE; apply: fin_alt; rewrite (p_number_neg _ hw hw' hn hf).
- exists (do_var L v); split; first exact: behaves_var.
  move=> n hsz st r G hr; have hf : sfollow r.
    by apply: nopar_sfollow hr; rewrite all_cat blank_nopar // sym_nopar.
  rewrite -catA p_stermE (alt_no _ (p_number_name _ hw hv hf)); apply: fin_alt.
  exact: p_var_ok.
- exists (bin_eval (fun_of op) Ea Eb); split; first exact: behaves_op.
  move=> [//|n] hsz st r G _.
  have [na nb] : (size s1 < n)%N /\ (size s2 < n)%N.
    by move: hsz; rewrite !size_cat [size (txt "(")]/=; lia.
  have H op' f hx := @fn2_reads op' f n a Ea b Eb w1 w2 s1 s2 w3 hx h1 h2 h3 Ba Bb
    (Ra n na) (Rb n nb) (fun r0 => separate_follow r0 hb hab) st r G isT.
  have H' op' f hx := @fin_alt _ _ _ _ _ _ _ (H op' f hx).
  rewrite -!catA -[txt "(" ++ _]/("("%char :: _) not_atom // -[_ :: _]/(txt "(" ++ w2 ++ txt op ++ s1 ++ s2 ++ w3 ++ txt ")" ++ r).
  rewrite /p_funs; have {H}H' q op' f : (if op' is c :: _ then ~~ is_space c else false) ->
    alt (p_fn2 op' f (p_sterm A n)) q st (w1 ++ txt "(" ++ w2 ++ op' ++ s1 ++ s2 ++ w3 ++ txt ")" ++ r) =
    fin (bin_eval f Ea Eb st) r by move=> hx; have := H' q op' f hx; rewrite -!catA.
  case: hop => [|[|[|[|]]]] // [<- _].
  + rewrite (@alt_no _ _ _ _ _ st); last by apply: (@fn2_no "/").
    exact: (H' _ (chars "+") _ isT).
  + rewrite (@alt_no _ _ _ _ _ st); last by apply: (@fn2_no "/").
    rewrite (@alt_no _ _ _ _ _ st); last by apply: (@fn2_no "+").
    exact: (H' _ (chars "*") _ isT).
  + rewrite (@alt_no _ _ _ _ _ st); last by apply: (@fn2_no "/").
    rewrite (@alt_no _ _ _ _ _ st); last by apply: (@fn2_no "+").
    rewrite (@alt_no _ _ _ _ _ st); last by apply: (@fn2_no "*").
    exact: (H' _ (chars "-") _ isT).
  + exact: (H' _ (chars "/") _ isT).
- exists (neg_eval Ea); split; first exact: behaves_neg.
  move=> [//|n] hsz st r G _.
  have na : (size s1 < n)%N by move: hsz; rewrite !size_cat [size (txt "(")]/=; lia.
  rewrite -!catA -[txt "(" ++ _]/("("%char :: _) not_atom // -[_ :: _]/(txt "(" ++ w2 ++ txt "-" ++ s1 ++ w3 ++ txt ")" ++ r).
  rewrite /p_funs.
  rewrite (@alt_no _ _ _ _ _ st); last by apply: (@fn2_no "/").
  rewrite (@alt_no _ _ _ _ _ st); last by apply: (@fn2_no "+").
  rewrite (@alt_no _ _ _ _ _ st); last by apply: (@fn2_no "*").
  have hm (st0 : pst) : lit (chars "-") st0 (w2 ++ txt "-" ++ s1 ++ w3 ++ txt ")" ++ r) =
    Yes tt (s1 ++ w3 ++ txt ")" ++ r) st0 by rewrite lit_ok.
  have Rs st0 : good_ctx (names st0) -> p_sterm A n st0 (s1 ++ w3 ++ txt ")" ++ r) = fin (Ea st0) (w3 ++ txt ")" ++ r).
    by move=> G0; apply: Ra => //; rewrite close_sfollow // orbT.
  rewrite {1}/neg_eval; case Es : (Ea st) => [[st' p]|e] /=; last first.
    apply: alt_yes; last by [].
    rewrite /p_fn2 (sq_yes _ (p_lpar_ok _ _ h1)) (sq_yes _ (hm _)).
    by apply: sq_raise; rewrite Rs // Es.
  have [G' X' F' M' I'] := b_ok Ba G Es.
  rewrite (@alt_no _ _ _ _ _ st'); last first.
    rewrite /p_fn2 (sq_yes _ (p_lpar_ok _ _ h1)) (sq_yes _ (hm _)).
    rewrite (@sq_yes _ _ _ _ _ _ _ p (w3 ++ txt ")" ++ r) st'); last by rewrite Rs // Es.
    by apply: sq_no; case: (n) na => // n' _; exact: p_sterm_close.
  rewrite /p_fn1 (sq_yes _ (p_lpar_ok _ _ h1)) (sq_yes _ (hm _)).
  rewrite (@sq_yes _ _ _ _ _ _ _ p (w3 ++ txt ")" ++ r) st'); last first.
    by rewrite Rs // (I' st' G' (@ext_refl _)).
  by rewrite (sq_yes _ (p_rpar_ok _ _ h3)).
Qed.

(** ** Formulas *)
Record fbehaves (f : formula2) (E : pst -> res (pst * atom L)) : Prop := FBehaves {
  f_ok : forall st st' a, good_ctx (names st) -> E st = Ok (st', a) ->
    [/\ good_ctx (names st'), ext (names st) (names st'), fresh st' = (fresh st).+1, aid a = fresh st &
        keys (names st') =i keys (names st) ++ map key_of (formula_names f)];
  f_says : forall (K : realFieldType) (val : poly -> (var -> K) -> K), arith_ok val A ->
    forall st st' a, good_ctx (names st) -> E st = Ok (st', a) ->
    forall c2, ext (names st') c2 -> says val (nu_of c2) f a;
  f_err : forall st e, good_ctx (names st) -> E st = Err e ->
    divides f.1.2 || divides f.2 /\ exists p q, a_div A p q = Err e
}.

Definition rel_eval (op : relop) (Ea Eb : pst -> res (pst * poly)) (st : pst) : res (pst * atom L) :=
  let! x := Ea st in let! y := Eb x.1 in do_atom A op x.2 y.2 y.1.

Lemma fbehaves_rel op a b Ea Eb : behaves a Ea -> behaves b Eb -> fbehaves (op, a, b) (rel_eval op Ea Eb).
Proof.
move=> Ba Bb; split=> [st st' h G|K val AO st st' h G|st e G]; rewrite /rel_eval.
- case Ea1 : (Ea st) => [[s1 p1]|//] /=; case Eb1 : (Eb s1) => [[s2 p2]|//] /= [<- <-].
  have [G1 X1 F1 M1 I1] := b_ok Ba G Ea1; have [G2 X2 F2 M2 I2] := b_ok Bb G1 Eb1.
  split=> //=; rewrite ?F2 ?F1 //; first exact: ext_trans X1 X2.
  by move=> k; rewrite M2 mem_cat M1 /formula_names map_cat !mem_cat orbA.
- case Ea1 : (Ea st) => [[s1 p1]|//] /=; case Eb1 : (Eb s1) => [[s2 p2]|//] /= [<- <-] c2 X.
  have [G1 X1 F1 M1 I1] := b_ok Ba G Ea1; have [G2 X2 F2 M2 I2] := b_ok Bb G1 Eb1.
  split=> //= e x y Tx Ty; rewrite (val_sub AO) (b_val Ba AO G Ea1 (ext_trans X2 X) Tx).
  by rewrite (b_val Bb AO G1 Eb1 X Ty).
- case Ea1 : (Ea st) => [[s1 p1]|e1] /=; last by case=> <-; have [-> ?] := b_err Ba G Ea1.
  have [G1 X1 F1 M1 I1] := b_ok Ba G Ea1; case Eb1 : (Eb s1) => [[s2 p2]|e1] //= [<-].
  by have [-> ?] := b_err Bb G1 Eb1; rewrite orbT.
Qed.

Lemma sterm_cons t s : sterm_text t s -> exists d s',
  [/\ s = d :: s', ~~ eqc "=" d & is_ident d -> name_char d].
Proof.
move/sterm_head => [w [c [s' [-> hw hc hk]]]].
case: w hw => [|d w] /=.
  by exists c, s'; split => //; move: hk; case: c {hc} => [] [] [] [] [] [] [] [] [].
move=> /andP [hd _]; exists d, (w ++ c :: s'); split => //.
  by move: hd; move: (d); allchars.
by move: hd; case: d => [] [] [] [] [] [] [] [] [].
Qed.

Lemma p_rel1_no n x (op : relop) st w1 w2 s : blank w1 -> blank w2 ->
  (if s is c :: _ then ~~ is_space c else true) -> strip x s = None ->
  p_rel1 A n x op st (w1 ++ txt "(" ++ w2 ++ s) = No st.
Proof.
move=> h1 h2 hs hx; rewrite /p_rel1 (sq_yes _ (p_lpar_ok _ _ h1)).
by rewrite (sq_no _ (key_no st h2 hs hx)).
Qed.

Lemma p_rel_ok f s : srel_text f s -> exists E, fbehaves f E /\
  forall n, (size s < n)%N -> reads (p_rel A n) s E predT.
Proof.
case=> {f s} op c a b w1 w2 s1 s2 w3 hop h1 h2 h3 ha hb hk hab.
have [Ea [Ba Ra]] := p_sterm_ok ha; have [Eb [Bb Rb]] := p_sterm_ok hb.
exists (rel_eval c Ea Eb); split; first exact: fbehaves_rel.
move=> n hsz st r G _; rewrite -!catA.
have [na nb] : (size s1 < n)%N /\ (size s2 < n)%N.
  by move: hsz; rewrite !size_cat [size (txt "(")]/=; lia.
have [d [s' [E1 E2 E3]]] := sterm_cons ha.
have hd : ~~ is_ident d by apply/negP => /E3 hd; move: hk; rewrite E1 /= hd.
set rest := s1 ++ s2 ++ w3 ++ txt ")" ++ r.
have Er : rest = d :: (s' ++ s2 ++ w3 ++ txt ")" ++ r) by rewrite /rest E1.
have hs x : strip x (txt op ++ rest) = strip x (txt op ++ d :: (s' ++ s2 ++ w3 ++ txt ")" ++ r)) by rewrite Er.
have main c0 : p_rel1 A n (txt op) c0 st (w1 ++ txt "(" ++ w2 ++ txt op ++ rest) = fin (rel_eval c0 Ea Eb st) r.
  rewrite /p_rel1 (sq_yes _ (p_lpar_ok _ _ h1)) Er (sq_yes _ (key_ok _ st h2 _ hd)); last first.
    by case: hop => [|[|[|[|[|[|]]]]]] // [<- _].
  rewrite -Er /rest; apply: (@fin_sq _ _ _ _ _ _ (Ea st) (s2 ++ w3 ++ txt ")" ++ r)
    (fun p st' => let! y := Eb st' in do_atom A c0 p y.2 y.1)) => [|p st' Ep].
    by apply: (Ra n na) => //; exact: separate_follow hb hab.
  have [G' _ _ _ _] := b_ok Ba G Ep.
  apply: (@fin_sq _ _ _ _ _ _ (Eb st') (w3 ++ txt ")" ++ r) (fun q st'' => do_atom A c0 p q st'')) => [|q st'' Eq].
    by apply: (Rb n nb) => //; rewrite close_sfollow // orbT.
  by rewrite (sq_yes _ (p_rpar_ok _ _ h3)).
have yes x c0 : op = x -> c = c0 -> forall q,
  alt (p_rel1 A n (chars x) c0) q st (w1 ++ txt "(" ++ w2 ++ txt op ++ rest) = fin (rel_eval c Ea Eb st) r.
  by move=> <- <- q; apply: fin_alt; exact: main.
have no x c0 q : strip (chars x) (txt op ++ rest) = None ->
  alt (p_rel1 A n (chars x) c0) q st (w1 ++ txt "(" ++ w2 ++ txt op ++ rest) =
  q st (w1 ++ txt "(" ++ w2 ++ txt op ++ rest).
  move=> hx; apply: alt_no; apply: p_rel1_no => //.
  by case: (hop) => [|[|[|[|[|[|]]]]]] // [<- _].
rewrite /p_rel; move/negbTE: E2 => E2; simpl in E2.
case: (hop) => [|[|[|[|[|[|]]]]]] // [Eo Ec].
- by apply: yes.
- by rewrite no; [apply: yes|rewrite hs -Eo /= E2].
- by do 3! (rewrite no; last by rewrite hs -Eo); apply: yes.
- by do 2! (rewrite no; last by rewrite hs -Eo); apply: yes.
- by do 4! (rewrite no; last by rewrite hs -Eo); apply: yes.
- do 4! (rewrite no; last by rewrite hs -Eo); rewrite no; last by rewrite hs -Eo /= E2.
  by subst op c; exact: main.
Qed.

(** ** Lists of formulas *)
Record lbehaves (fs : seq formula2) (E : pst -> res (pst * seq (atom L))) : Prop := LBehaves {
  l_ok : forall st st' l, good_ctx (names st) -> E st = Ok (st', l) ->
    [/\ good_ctx (names st'), ext (names st) (names st'), fresh st' = (fresh st + size fs)%N,
        map (@aid R L) l = iota (fresh st) (size fs) &
        keys (names st') =i keys (names st) ++ map key_of (flatten (map formula_names fs))];
  l_says : forall (K : realFieldType) (val : poly -> (var -> K) -> K), arith_ok val A ->
    forall st st' l, good_ctx (names st) -> E st = Ok (st', l) ->
    forall c2, ext (names st') c2 -> List.Forall2 (says val (nu_of c2)) fs l;
  l_err : forall st e, good_ctx (names st) -> E st = Err e ->
    has (fun f => divides f.1.2 || divides f.2) fs /\ exists p q, a_div A p q = Err e
}.

Lemma lbehaves_nil : lbehaves [::] (fun st => Ok (st, [::])).
Proof.
split=> [st st' l G [<- <-]|K val AO st st' l G [_ <-] c2 _|//]; last exact: List.Forall2_nil.
by split=> //; [rewrite addn0|move=> k; rewrite cats0].
Qed.

Definition cons_eval (Ef : pst -> res (pst * atom L)) (El : pst -> res (pst * seq (atom L))) (st : pst) :=
  let! x := Ef st in let! y := El x.1 in Ok (y.1, x.2 :: y.2).

Lemma lbehaves_cons f fs Ef El : fbehaves f Ef -> lbehaves fs El -> lbehaves (f :: fs) (cons_eval Ef El).
Proof.
move=> Bf Bl; split=> [st st' l G|K val AO st st' l G|st e G]; rewrite /cons_eval.
- case E1 : (Ef st) => [[s1 h]|//] /=; case E2 : (El s1) => [[s2 l2]|//] /= [<- <-].
  have [G1 X1 F1 I1 M1] := f_ok Bf G E1; have [G2 X2 F2 I2 M2] := l_ok Bl G1 E2.
  split=> //=.
  + exact: ext_trans X1 X2.
  + by rewrite F2 F1; lia.
  + by rewrite I1 I2 F1.
  + by move=> k; rewrite M2 mem_cat M1 map_cat !mem_cat orbA.
- case E1 : (Ef st) => [[s1 h]|//] /=; case E2 : (El s1) => [[s2 l2]|//] /= [<- <-] c2 X.
  have [G1 X1 F1 I1 M1] := f_ok Bf G E1; have [G2 X2 F2 I2 M2] := l_ok Bl G1 E2.
  apply: List.Forall2_cons; first exact: (f_says Bf AO G E1 (ext_trans X2 X)).
  exact: (l_says Bl AO G1 E2 X).
- case E1 : (Ef st) => [[s1 h]|e1] /=; last by case=> <-; have [/= -> ?] := f_err Bf G E1.
  have [G1 X1 F1 I1 M1] := f_ok Bf G E1.
  case E2 : (El s1) => [[s2 l2]|e1] //= [<-]; have [-> ?] := l_err Bl G1 E2.
  by rewrite orbT.
Qed.

Lemma p_rel_close n st w r : blank w -> p_rel A n st (w ++ txt ")" ++ r) = No st.
Proof.
move=> hw.
have h x c : p_rel1 A n x c st (w ++ txt ")" ++ r) = No st.
  by rewrite /p_rel1; apply: sq_no; apply: p_lpar_no; rewrite skip_blank.
by rewrite /p_rel; do 5! (rewrite (alt_no _ (h _ _))).
Qed.

Lemma srel_size f s : srel_text f s -> (0 < size s)%N.
Proof. by case=> *; rewrite !size_cat /=; lia. Qed.

Lemma p_rels_ok fs s : srels_text fs s -> exists E, lbehaves fs E /\
  forall n k w, blank w -> (size s < n)%N -> (size s < k)%N ->
  forall st r, good_ctx (names st) ->
  p_rels A n k st (s ++ w ++ txt ")" ++ r) = fin (E st) (w ++ txt ")" ++ r).
Proof.
elim=> [|f fs0 s0 s' hf hfs [El [Bl Rl]]].
  exists (fun st => Ok (st, [::])); split; first exact: lbehaves_nil.
  by move=> n [|k] w hw // hn hk st r G; rewrite /= p_rel_close.
have [Ef [Bf Rf]] := p_rel_ok hf.
exists (cons_eval Ef El); split; first exact: lbehaves_cons.
move=> n [|k] w hw // hn hk st r G.
have [n1 k1] : (size s' < n)%N /\ (size s' < k)%N.
  by move: hn hk; rewrite size_cat; have := srel_size hf; lia.
have n2 : (size s0 < n)%N by move: hn; rewrite size_cat; lia.
rewrite /= -catA (Rf n n2) // /cons_eval; case E1 : (Ef st) => [[s1 h]|e] //=.
have [G1 _ _ _ _] := f_ok Bf G E1.
rewrite /sq (Rl n k w) //; by case: (El s1) => [[s2 l2]|e].
Qed.

Lemma p_side_ok kw fs s : sside_text kw fs s -> (if txt kw is c :: _ then ~~ is_space c else false) ->
  exists E, lbehaves fs E /\ forall n, (size s < n)%N -> reads (p_side A n (chars kw)) s E predT.
Proof.
case=> w1 w2 t w3 h1 h2 h3 ht hkw; have [E [B H]] := p_rels_ok ht; exists E; split=> // n hn st r G _.
have ht' : (size t < n)%N by move: hn; rewrite !size_cat; lia.
rewrite -!catA /p_side (sq_yes _ (p_lpar_ok _ _ h1)) (sq_yes _ (lit_ok (x := chars kw) _ _ h2 hkw)).
rewrite /sq (H n n w3) //; case E1 : (E st) => [[s1 l]|e] //=.
by rewrite (p_rpar_ok _ _ h3).
Qed.

(** ** Sequents *)
Record pbehaves (q : problem) (E : pst -> res (pst * hiding_problem L)) : Prop := PBehaves {
  q_ok : forall st st' h, good_ctx (names st) -> E st = Ok (st', h) ->
    [/\ good_ctx (names st'), ext (names st) (names st'), hp_name h = pb_name q,
        map (@aid R L) (hp_ante h ++ hp_succ h) = iota (fresh st) (size (pb_ante q ++ pb_succ q)) &
        keys (names st') =i keys (names st) ++ map key_of (problem_names q)];
  q_says : forall (K : realFieldType) (val : poly -> (var -> K) -> K), arith_ok val A ->
    forall st st' h, good_ctx (names st) -> E st = Ok (st', h) ->
    forall c2, ext (names st') c2 ->
    List.Forall2 (says val (nu_of c2)) (pb_ante q) (hp_ante h) /\
    List.Forall2 (says val (nu_of c2)) (pb_succ q) (hp_succ h);
  q_err : forall st e, good_ctx (names st) -> E st = Err e ->
    problem_divides q /\ exists p r, a_div A p r = Err e
}.

Definition problem_eval (name : text) (E1 E2 : pst -> res (pst * seq (atom L))) (st : pst) : res (pst * hiding_problem L) :=
  let! x := E1 st in let! y := E2 x.1 in Ok (y.1, HidingProblem name x.2 y.2).

Lemma pbehaves_problem q E1 E2 : lbehaves (pb_ante q) E1 -> lbehaves (pb_succ q) E2 ->
  pbehaves q (problem_eval (pb_name q) E1 E2).
Proof.
move=> B1 B2; split=> [st st' h G|K val AO st st' h G|st e G]; rewrite /problem_eval.
- case Ea : (E1 st) => [[s1 l1]|//] /=; case Eb : (E2 s1) => [[s2 l2]|//] /= [<- <-].
  have [G1 X1 F1 I1 M1] := l_ok B1 G Ea; have [G2 X2 F2 I2 M2] := l_ok B2 G1 Eb.
  split=> //=.
  + exact: ext_trans X1 X2.
  + by rewrite map_cat I1 I2 F1 size_cat iotaD.
  + by move=> k; rewrite M2 mem_cat M1 /problem_names map_cat flatten_cat map_cat !mem_cat orbA.
- case Ea : (E1 st) => [[s1 l1]|//] /=; case Eb : (E2 s1) => [[s2 l2]|//] /= [<- <-] c2 X.
  have [G1 X1 F1 I1 M1] := l_ok B1 G Ea; have [G2 X2 F2 I2 M2] := l_ok B2 G1 Eb.
  split; first exact: (l_says B1 AO G Ea (ext_trans X2 X)).
  exact: (l_says B2 AO G1 Eb X).
- rewrite /problem_divides has_cat.
  case Ea : (E1 st) => [[s1 l1]|e1] /=; last by case=> <-; have [-> ?] := l_err B1 G Ea.
  have [G1 X1 F1 I1 M1] := l_ok B1 G Ea.
  by case Eb : (E2 s1) => [[s2 l2]|e1] //= [<-]; have [-> ?] := l_err B2 G1 Eb; rewrite orbT.
Qed.

Lemma p_cmd_ok q s : problem_text q s -> exists E, pbehaves q E /\ reads (p_cmd A) s E predT.
Proof.
case=> w1 w2 w3 s1 s2 w4 h1 h2 h3 h4 hq hs1 hs2.
have [E1 [B1 R1]] := p_side_ok hs1 isT; have [E2 [B2 R2]] := p_side_ok hs2 isT.
exists (problem_eval (pb_name q) E1 E2); split; first exact: pbehaves_problem.
move=> st r G _; set t := _ ++ r; rewrite /p_cmd; set n := (size t).+1.
have [n1 n2] : (size s1 < n)%N /\ (size s2 < n)%N.
  by rewrite /n /t !size_cat; lia.
have -> : t = w1 ++ txt "(" ++ w2 ++ txt "sequent" ++ w3 ++ txt """" ++ pb_name q ++
   txt """" ++ s1 ++ s2 ++ w4 ++ txt ")" ++ r by rewrite /t -!catA.
move: n n1 n2 => n n1 n2.
rewrite (sq_yes _ (p_lpar_ok _ _ h1)) (sq_yes _ (lit_ok (x := chars "sequent") _ _ h2 isT)).
rewrite (sq_yes _ (quoted_string_ok _ st h3 hq)) /problem_eval.
rewrite /sq (R1 n n1) //; case Ea : (E1 st) => [[st1 l1]|e] //=.
have [G1 _ _ _ _] := l_ok B1 G Ea.
rewrite (R2 n n2) //; case Eb : (E2 st1) => [[st2 l2]|e] //=.
by rewrite (p_rpar_ok _ _ h4).
Qed.

(** ** Files *)
Section File.
Variables (W : Type) (perform : W -> nat -> seq (atom L) -> seq (atom L) -> res (W * (seq nat * seq nat))).

Definition finish (x : res (option (text * (seq nat * seq nat)) * text)) : res (option (text * (seq nat * seq nat))) :=
  let! x := x in if skip x.2 is [::] then Ok x.1 else Err (Exc "ParseException").

Lemma problem_skip q s r : problem_text q s -> exists c s', skip (s ++ r) = c :: s'.
Proof.
by case=> w1 w2 w3 s1 s2 w4 h1 *; rewrite -catA skip_blank //=; do 2!eexists.
Qed.

Lemma problem_size q s : problem_text q s -> (0 < size s)%N.
Proof. by case=> *; rewrite !size_cat /=; lia. Qed.

Lemma p_cmds_end k w last st s : blank s -> finish (p_cmds A perform k.+1 w last st s) = Ok last.
Proof.
move=> hs; rewrite /= (_ : p_cmd A st s = No st) /= ?skip_all //.
by rewrite /p_cmd; apply: sq_no; apply: p_lpar_no; rewrite skip_all.
Qed.

Lemma p_cmds_one q s E : problem_text q s -> reads (p_cmd A) s E predT ->
  forall k w last st r, good_ctx (names st) ->
  finish (p_cmds A perform k.+1 w last st (s ++ r)) =
  let! x := E st in
  match perform w (nvars (names x.1)) (hp_ante x.2) (hp_succ x.2) with
  | Ok (w', h) => finish (p_cmds A perform k w' (Some (hp_name x.2, h)) x.1 r)
  | Err IndexError => Err (Exc "ParseException")
  | Err e => Err e
  end.
Proof.
move=> ht Re k w last st r G; rewrite /= (Re st r G isT); case: (E st) => [[st' h]|e] //=.
case: (perform w _ _ _) => [[w' x]|[]] //=.
by have [c [s' ->]] := problem_skip r ht.
Qed.

Lemma keys_in c x : key_of x \in keys c -> exists i, dget (var_map c) (key_of x) = Ok i.
Proof. exact: dget_mem. Qed.

Lemma mem_key x l : List.In x l -> key_of x \in map key_of l.
Proof. by elim: l => //= y l IH [->|/IH h]; rewrite inE ?eqxx ?h ?orbT. Qed.

Lemma key_of_inj x y : key_of x = key_of y -> x = y.
Proof. by move=> h; rewrite -[x]string_of_list_ascii_of_string -[y]string_of_list_ascii_of_string; congr string_of_list_ascii. Qed.

Lemma numbering_keys c names : good_ctx c -> {subset map key_of names <= keys c} -> numbering names (nu_of c).
Proof.
move=> G sub x y /mem_key /sub /keys_in[i Ei] /mem_key /sub /keys_in[j Ej]; rewrite /nu_of Ei Ej => Eij.
by apply: key_of_inj; apply: (good_inj G Ei); rewrite Ej Eij.
Qed.

Lemma below_keys c c2 names : good_ctx c -> ext c c2 -> {subset map key_of names <= keys c} ->
  numbered_below names (nu_of c2) (nvars c).
Proof.
move=> G X sub x /mem_key /sub /keys_in[i Ei]; rewrite /nu_of (X _ _ Ei).
by have := good_lt G Ei; rewrite good_nvars // leq_max => ->; rewrite orbT.
Qed.

Lemma p_cmds_ok (K : realFieldType) (val : poly -> (var -> K) -> K) qs s : arith_ok val A -> problems_text qs s ->
  ~~ has problem_divides qs \/ (forall p r e, a_div A p r <> Err e) ->
  forall st, good_ctx (names st) -> exists l c2,
  [/\ good_ctx c2, ext (names st) c2, {subset map key_of (file_names qs) <= keys c2},
      forall c3, ext c2 c3 -> List.Forall2 (reading val (nu_of c3)) qs l &
      forall k w last, (size s < k)%N -> finish (p_cmds A perform k w last st s) = in_order perform w last l].
Proof.
move=> AO; elim=> {qs s} [s hs _ st G|q s qs s' hq hqs IH hd st G].
  exists [::], (names st); split=> // -[|k] w last // _.
  exact: p_cmds_end.
have [E [B Re]] := p_cmd_ok hq.
have hd' : ~~ has problem_divides qs \/ (forall p r e, a_div A p r <> Err e).
  by case: hd => [|h]; [rewrite /= negb_or => /andP[_ ->]; left|right].
case Es : (E st) => [[st1 h]|e]; last first.
  have [D [p [r Er]]] := q_err B G Es.
  by case: hd => [/=|/(_ _ _ _ Er)//]; rewrite D.
have [G1 X1 N1 I1 M1] := q_ok B G Es.
have [l [c2 [G2 X2 S2 F2 P2]]] := IH hd' st1 G1.
have S1 : {subset map key_of (problem_names q) <= keys (names st1)} by move=> k; rewrite M1 mem_cat orbC => ->.
exists ((nvars (names st1), h) :: l), c2; split=> //.
- exact: ext_trans X1 X2.
- move=> k; rewrite /file_names /= map_cat mem_cat => /orP[/S1|/S2//].
  by move=> H; have [i /X2 Hi] := dget_mem H; exact: dget_dmem Hi.
- move=> c3 X3; have [Sa Ss] := q_says B AO G Es (ext_trans X2 X3).
  apply: List.Forall2_cons; last exact: F2.
  split=> //; first by rewrite I1 iota_uniq.
  exact: below_keys (ext_trans X2 X3) S1.
move=> [|k] w last // hk; rewrite (p_cmds_one hq Re) // Es /=.
case: (perform _ _ _ _) => [[w' x]|//]; apply: P2.
by move: hk; rewrite size_cat; have := problem_size hq; lia.
Qed.

(** Every file with sequents. *)
Theorem file_reading (K : realFieldType) (val : poly -> (var -> K) -> K) qs s : arith_ok val A -> problems_text qs s ->
  ~~ has problem_divides qs \/ (forall p r e, a_div A p r <> Err e) ->
  exists nu l, [/\ numbering (file_names qs) nu, List.Forall2 (reading val nu) qs l &
    forall w, process_commands A perform w s = in_order perform w None l].
Proof.
move=> AO hs hd; have [l [c2 [G2 _ S2 F2 P2]]] := p_cmds_ok AO hs hd (st := Pst (new_ctx sname) 0) (@new_good _).
exists (nu_of c2), l; split=> [||w]; [exact: numbering_keys|exact: F2|exact: P2].
Qed.

(** A file with one sequent. *)
Theorem single_cmd (K : realFieldType) (val : poly -> (var -> K) -> K) q s w' : arith_ok val A ->
  problem_text q s -> blank w' ->
  (exists e, [/\ p_cmd A (Pst (new_ctx sname) 0) (s ++ w') = Raise e, problem_divides q,
      exists p r, a_div A p r = Err e & forall w, process_commands A perform w (s ++ w') = Err e]) \/
  exists nu h st, [/\ p_cmd A (Pst (new_ctx sname) 0) (s ++ w') = Yes h w' st,
    numbering (problem_names q) nu, reading val nu q (maxn 1 (distinct (problem_names q)), h) &
    forall w, process_commands A perform w (s ++ w') =
      in_order perform w None [:: (maxn 1 (distinct (problem_names q)), h)]].
Proof.
move=> AO hs hw; have [E [B Re]] := p_cmd_ok hs; set st := Pst (new_ctx sname) 0.
have G : good_ctx (names st) by exact: new_good.
case Es : (E st) => [[st1 h]|e]; last first.
  left; have [D [p [r Er]]] := q_err B G Es; exists e; split=> //; first by rewrite Re // Es.
    by exists p, r.
  by move=> w; rewrite /process_commands -/(finish _) (p_cmds_one hs Re) // Es.
right; have [G1 X1 N1 I1 M1] := q_ok B G Es.
have Sz : nvars (names st1) = maxn 1 (distinct (problem_names q)).
  rewrite good_nvars // /distinct; congr maxn.
  have -> : size (var_map (names st1)) = size (keys (names st1)) by rewrite size_map.
  apply/perm_size/uniq_perm; [exact: good_keys|exact: undup_uniq|].
  by move=> k; rewrite M1 mem_undup.
exists (nu_of (names st1)), h, st1; split.
- by rewrite Re // Es.
- by apply: numbering_keys => // k; rewrite M1.
- have [Sa Ss] := q_says B AO G Es (@ext_refl _); split=> //=; first by rewrite I1 iota_uniq.
  by rewrite -Sz; apply: below_keys => // k; rewrite M1.
move=> w; rewrite /process_commands -/(finish _) (p_cmds_one hs Re) // Es /= Sz.
case: (perform _ _ _ _) => [[w1 x]|//]; rewrite -[size _]prednK; first exact: p_cmds_end.
by rewrite size_cat; have := problem_size hs; lia.
Qed.

Theorem single_reading (K : realFieldType) (val : poly -> (var -> K) -> K) q s w' : arith_ok val A ->
  problem_text q s -> blank w' ->
  (problem_divides q /\ exists p r e, a_div A p r = Err e /\ forall w, process_commands A perform w (s ++ w') = Err e) \/
  exists nu h, [/\ numbering (problem_names q) nu, reading val nu q (maxn 1 (distinct (problem_names q)), h) &
    forall w, process_commands A perform w (s ++ w') =
      in_order perform w None [:: (maxn 1 (distinct (problem_names q)), h)]].
Proof.
move=> AO hs hw; have [[e [_ D [p [r E]] H]]|[nu [h [st [_ N Rd H]]]]] := single_cmd AO hs hw.
  by left; split=> //; exists p, r, e.
by right; exists nu, h.
Qed.
End File.

(** ** Any text *)
Definition total (T : Type) (k n : nat) (p : elt pst T) : Prop := forall st s,
  good_ctx (names st) -> (size s < n)%N ->
  match p st s with
  | Yes _ r st' => tail k s r /\ good_ctx (names st')
  | No st' => good_ctx (names st')
  | Raise e => exists p q, a_div A p q = Err e
  end.

Lemma total_le T k k' n n' (p : elt pst T) : (k' <= k)%N -> (n' <= n)%N -> total k n p -> total k' n' p.
Proof.
move=> hk hn h st s G hs; have := h st s G (leq_trans hs hn).
by case: (p st s) => // a r st' [H G']; split=> //; apply: tail_le H.
Qed.

Lemma total_sq T T' k k' n (p : elt pst T) (f : T -> elt pst T') :
  total k n p -> (forall a, total k' (n - k) (f a)) -> total (k + k') n (sq p f).
Proof.
move=> hp hf st s G hs; rewrite /sq; have := hp st s G hs.
case: (p st s) => // a r st' [ht G'].
have hr : (size r < n - k)%N by have := tail_size ht; lia.
have := hf a st' r G' hr; case: (f a st' r) => // b t st'' [ht' G'']; split=> //.
exact: tail_trans ht ht'.
Qed.

Lemma total_alt T k n (p q : elt pst T) : total k n p -> total k n q -> total k n (alt p q).
Proof.
move=> hp hq st s G hs; rewrite /alt; have := hp st s G hs; case: (p st s) => // st' G'.
exact: hq.
Qed.

Lemma total_opt T k n (p : elt pst T) : total k n p -> total 0 n (opt p).
Proof.
move=> hp st s G hs; rewrite /opt; have := hp st s G hs; case: (p st s) => // [a r st' [h G']|st' G'].
  by split=> //; apply: tail_le h.
by split=> //; exact: tail0.
Qed.

Lemma total_ret T n (a : T) : total 0 n (ret a).
Proof. by move=> st s G hs; split=> //; exact: tail0. Qed.

Lemma total_act T n (f : pst -> res (pst * T)) :
  (forall st, good_ctx (names st) ->
    match f st with Ok (st', _) => good_ctx (names st') | Err e => exists p q, a_div A p q = Err e end) ->
  total 0 n (act f).
Proof.
move=> h st s G hs; rewrite /act; have := h st G; case: (f st) => [[st' a]|e] // G'; split=> //.
exact: tail0.
Qed.

Lemma total_lit_at w n : total (size w) n (lit_at w).
Proof.
move=> st s G hs; rewrite /lit_at; case E: (strip w s) => [r|] //.
by split=> //; exact: strip_tailk.
Qed.

Lemma total_lit w n : total (size w) n (lit w).
Proof.
move=> st s G hs; rewrite /lit /lit_at; case E: (strip w _) => [r|] //.
by split=> //; exact: tail_trans (skip_tail s) (strip_tailk E).
Qed.

Lemma total_key w n : total 0 n (key w).
Proof.
move=> st s G hs; rewrite /key; case E: (strip w _) => [[|c r]|] //.
  by split=> //; apply: tail_le (tail_trans (skip_tail s) (strip_tailk E)).
by case: ifP => // _; split=> //; apply: tail_le (tail_trans (skip_tail s) (strip_tailk E)).
Qed.

Lemma total_word_at p n : total 0 n (word_at p).
Proof.
move=> st s G hs; rewrite /word_at; have := span_tail p s.
by case: (span p s) => [[|c a] b] /= E //; split=> //; exists (c :: a).
Qed.

Lemma total_word p n : total 0 n (word p).
Proof.
move=> st s G hs; rewrite /word.
have := @total_word_at p n st (skip s) G (leq_ltn_trans (size_skip s) hs).
case: (word_at p st (skip s)) => // a r st' [h G']; split=> //.
exact: tail_trans (skip_tail s) h.
Qed.

Lemma total_quoted n : total 0 n (@quoted_string pst).
Proof.
move=> st s G hs; rewrite /quoted_string; case E: (strip _ _) => [r|] //.
have := span_tail (fun c => ~~ eqc c """") r; case: (span _ r) => a b Er; simpl in Er.
case E': (strip (chars """") b) => [r'|] //; split=> //.
have hr : tail 0 r r' by exists (a ++ chars """"); rewrite Er (strip_tail E') catA.
exact: tail_le (tail_trans (skip_tail s) (tail_trans (strip_tailk E) hr)).
Qed.

Lemma total_number n : total 0 n (p_number A).
Proof.
apply: (total_sq (k := 0) (k' := 0) (total_opt (@total_lit _ _))) => ?.
apply: (total_sq (k := 0) (k' := 0) (@total_word _ _)) => ?.
apply: (total_sq (k := 0) (k' := 0)) => [|?]; first exact: total_le (@total_lit_at (chars ".") _).
apply: (total_sq (k := 0) (k' := 0) (total_opt (@total_word_at _ _))) => ?.
exact: total_ret.
Qed.

Lemma total_var n : total 0 n (p_var L).
Proof.
apply: (total_sq (k := 0) (k' := 0) (@total_word _ _)) => v; apply: total_act => st G.
by rewrite /do_var; have [c' [i [-> G' _ _ _]]] := get_ring_varP (v : sname) G.
Qed.

Lemma total_lpar n : total 1 n p_lpar. Proof. exact: (@total_lit (chars "(")). Qed.
Lemma total_rpar n : total 0 n p_rpar. Proof. exact: total_le (@total_lit (chars ")") n). Qed.

Lemma total_fn2 x f n t : (forall p q e, f p q = Err e -> exists p' q', a_div A p' q' = Err e) ->
  total 0 n t -> total 0 n.+1 (@p_fn2 R L x f t).
Proof.
move=> hf ht; apply: (@total_le _ 1 _ n.+1) => //.
apply: (total_sq (k' := 0) (@total_lpar _)) => ?; rewrite subn1 /=.
apply: (total_sq (k := 0) (k' := 0)) => [|?]; first exact: total_le (@total_lit x n).
rewrite subn0; apply: (total_sq (k := 0) (k' := 0)) => // a.
rewrite subn0; apply: (total_sq (k := 0) (k' := 0)) => // b.
apply: (total_sq (k := 0) (k' := 0) (@total_rpar _)) => ?; apply: total_act => st G.
by rewrite /pure; case E : (f a b) => [p|e] //=; exact: hf E.
Qed.

Lemma total_fn1 x f n t : total 0 n t -> total 0 n.+1 (@p_fn1 R L x f t).
Proof.
move=> ht; apply: (@total_le _ 1 _ n.+1) => //.
apply: (total_sq (k' := 0) (@total_lpar _)) => ?; rewrite subn1 /=.
apply: (total_sq (k := 0) (k' := 0)) => [|?]; first exact: total_le (@total_lit x n).
rewrite subn0; apply: (total_sq (k := 0) (k' := 0)) => // ?.
by apply: (total_sq (k := 0) (k' := 0) (@total_rpar _)) => ?; apply: total_ret.
Qed.

Lemma total_term n : total 0 n (p_sterm A n).
Proof.
elim: n => [|n IH]; first by move=> st s.
rewrite p_stermE; apply: total_alt; first exact: total_number.
apply: total_alt; first exact: total_var.
rewrite /p_funs; apply: total_alt; first by apply: total_fn2 => // p q e E; exists p, q.
by do 3! (apply: total_alt; first exact: total_fn2); exact: total_fn1.
Qed.

Lemma total_rel1 n x op : total 1 n (p_rel1 A n x op).
Proof.
apply: (total_sq (k' := 0) (@total_lpar _)) => ?.
apply: (total_sq (k := 0) (k' := 0) (@total_key _ _)) => ?.
have ht := total_le (leqnn 0) (leq_subr 1 n) (@total_term n).
rewrite subn0; apply: (total_sq (k := 0) (k' := 0)) => // ?.
rewrite subn0; apply: (total_sq (k := 0) (k' := 0)) => // ?.
by apply: (total_sq (k := 0) (k' := 0) (@total_rpar _)) => ?; apply: total_act.
Qed.

Lemma total_rel n : total 1 n (p_rel A n).
Proof. by rewrite /p_rel; do 5! (apply: total_alt; first exact: total_rel1); exact: total_rel1. Qed.

Lemma total_rels n k : (k <= n)%N -> total 0 k (p_rels A n k).
Proof.
elim: k => [|k IH] hk st s G hs //=.
have := @total_rel n st s G (leq_trans hs hk).
case: (p_rel A n st s) => [f r st' [h1 G']|st' G'|e h] //; last by split => //; exact: tail0.
have hr : (size r < k)%N by have := tail_size h1; lia.
have := @total_sq _ _ 0 0 k (p_rels A n k) (fun fs => ret (f :: fs)) (IH (ltnW hk))
  (fun fs => @total_ret _ _ (f :: fs)) st' r G' hr.
case: (sq _ _ st' r) => [a t st''|st''|e] //.
by move=> [h3 G'']; split=> //; apply: tail_le (tail_trans h1 h3).
Qed.

Lemma total_side n m kw : (m <= n)%N -> total 0 m (p_side A n kw).
Proof.
move=> hm; apply: (@total_le _ 1 _ m) => //.
apply: (total_sq (k' := 0) (@total_lpar _)) => ?.
apply: (total_sq (k := 0) (k' := 0)) => [|?]; first exact: total_le (@total_lit kw _).
apply: (total_sq (k := 0) (k' := 0)) => [|?].
  by apply: total_le (total_rels (leqnn n)) => //; lia.
by apply: (total_sq (k := 0) (k' := 0) (@total_rpar _)) => ?; apply: total_ret.
Qed.

Lemma total_cmd n : total 1 n (p_cmd A).
Proof.
move=> st s G _; rewrite /p_cmd; set m := (size s).+1.
suff h : total 1 m (sq p_lpar (fun _ => sq (lit (chars "sequent")) (fun _ =>
   sq (@quoted_string _) (fun name => sq (p_side A m (chars "antecedent")) (fun ante =>
   sq (p_side A m (chars "succedent")) (fun succ =>
   sq p_rpar (fun _ => ret (HidingProblem name ante succ)))))))) by apply: h.
apply: (total_sq (k' := 0) (@total_lpar _)) => ?.
apply: (total_sq (k := 0) (k' := 0)) => [|?]; first exact: total_le (@total_lit (chars "sequent") _).
apply: (total_sq (k := 0) (k' := 0) (@total_quoted _)) => ?.
apply: (total_sq (k := 0) (k' := 0)) => [|?]; first by apply: total_side; lia.
apply: (total_sq (k := 0) (k' := 0)) => [|?]; first by apply: total_side; lia.
by apply: (total_sq (k := 0) (k' := 0) (@total_rpar _)) => ?; apply: total_ret.
Qed.

Section Total.
Variables (W : Type) (perform : W -> nat -> seq (atom L) -> seq (atom L) -> res (W * (seq nat * seq nat))).

Lemma p_cmds_errors k w last st s e : good_ctx (names st) -> (size s < k)%N ->
  p_cmds A perform k w last st s = Err e ->
  (exists p q, a_div A p q = Err e) \/ (e <> IndexError /\ exists w n a a', perform w n a a' = Err e).
Proof.
elim: k w last st s => // k IH w last st s G hs /=.
have := @total_cmd (size s).+1 st s G (ltnSn _).
case: (p_cmd A st s) => [q r st' [h G']|//|e' h [<-]]; last by left.
case Ep : (perform w _ _ _) => [[w' x]|e'].
  by apply: IH => //; have := tail_size h; lia.
have H : e' <> IndexError -> e' = e -> (exists p q, a_div A p q = Err e) \/
    (e <> IndexError /\ exists w n a a', perform w n a a' = Err e).
  by move=> ne Ee; subst e'; right; split=> //; do 4!eexists; exact: Ep.
by case: e' {Ep} H => [|||||| s0 |] //= H [Ee]; exact: H.
Qed.

Theorem commands_errors w s e : process_commands A perform w s = Err e ->
  [\/ e = Exc "ParseException", exists p q, a_div A p q = Err e |
      e <> IndexError /\ exists w n a a', perform w n a a' = Err e].
Proof.
rewrite /process_commands; case E : (p_cmds _ _ _ _ _ _ _) => [x|e'] /=.
  by case: (skip x.2) => // c l [<-]; constructor 1.
move=> [<-]; have [h|h] := p_cmds_errors (st := {| names := new_ctx sname; fresh := 0 |}) (@new_good _) (ltnSn _) E; [by constructor 2|by constructor 3].
Qed.

(** The result of a file is that of its last sequent. *)
Lemma in_order_last w last l o : in_order perform w last l = Ok o ->
  match l with
  | [::] => o = last
  | x :: l' => exists w' w'' r, perform w' (seq.last x l').1 (hp_ante (seq.last x l').2) (hp_succ (seq.last x l').2) = Ok (w'', r) /\
      o = Some (hp_name (seq.last x l').2, r)
  end.
Proof.
elim: l w last => [|[n h] l IH] w last /=; first by case.
case Ep : (perform _ _ _ _) => [[w' r]|[]] // /IH; case: l {IH} => [->|y l //].
by exists w, w', r.
Qed.
End Total.

(** ** Numerals *)
Lemma compare_ok a b l r : sterm_text a (txt " " ++ l) -> sterm_text b (txt " " ++ r) ->
  problem_text (Problem [::] [::] [:: (REq, a, b)]) (compare_text l r).
Proof.
move=> ha hb.
have -> : compare_text l r = [::] ++ txt "(" ++ [::] ++ txt "sequent" ++ txt " " ++ txt """" ++ [::] ++
    txt """" ++ txt " (antecedent)" ++ (txt " (succedent (= " ++ l ++ txt " " ++ r ++ txt "))") ++ [::] ++ txt ")".
  by rewrite /compare_text -!catA.
apply: StProblem => //.
  by apply: (@StSide "antecedent" [::] (txt " ") [::] [::] [::]) => //; exact: StNil.
have -> : txt " (succedent (= " ++ l ++ txt " " ++ r ++ txt "))" = txt " " ++ txt "(" ++ [::] ++ txt "succedent" ++
    ((txt " " ++ txt "(" ++ [::] ++ txt "=" ++ (txt " " ++ l) ++ (txt " " ++ r) ++ [::] ++ txt ")") ++ [::]) ++ [::] ++ txt ")".
  by rewrite -!catA.
apply: StSide => //; apply: StCons; last exact: StNil.
apply: StRel => //; first by do 2!right; left.
by rewrite /separate orbC.
Qed.

Lemma digits_find ds r : digits ds -> find (predC digit) (ds ++ r) = (size ds + find (predC digit) r)%N.
Proof. by move=> /andP[h _]; rewrite find_cat has_predC h. Qed.

Lemma digits_sym ds : digits ds -> sym ds.
Proof.
move=> h; have /andP[h1 h2] := h; apply/and3P; split=> //.
  by apply: sub_all h1 => c hc; rewrite /sym_char hc.
by rewrite /begins_decimal -[X in find _ X]cats0 digits_find // addn0 nth_default ?andbF.
Qed.

Lemma decimal_sym q s : decimal_text q s -> all sym_char s.
Proof.
have D ds : digits ds -> all sym_char ds by move=> /andP[h _]; apply: sub_all h => c hc; rewrite /sym_char hc.
by case=> [ds /D h|ds es /D h /D h']; rewrite !all_cat ?h ?h'.
Qed.

Section Numerals.
Variables (K : realFieldType) (val : poly -> (var -> K) -> K) (AO : arith_ok val A).
Variables (W : Type) (perform : W -> nat -> seq (atom L) -> seq (atom L) -> res (W * (seq nat * seq nat))).

Local Notation read_as := (read_as A val perform).

Lemma compare_reading a b l r : sterm_text a (txt " " ++ l) -> sterm_text b (txt " " ++ r) ->
  ~~ divides a -> ~~ divides b -> (distinct (tvars a ++ tvars b) <= 1)%N ->
  exists nu, numbered_below (tvars a ++ tvars b) nu 1 /\ forall u,
  (forall e : var -> K, exists x y, [/\ tvalue a (fun n => e (nu n)) = Some x, tvalue b (fun n => e (nu n)) = Some y & u e = x - y]) ->
  read_as (compare_text l r) u.
Proof.
move=> ha hb da db dn.
have [] := single_reading perform AO (compare_ok ha hb) (isT : blank [::]).
  by rewrite /problem_divides /= (negbTE da) (negbTE db) => -[].
rewrite /problem_names /= cats0 /formula_names /=.
have -> : maxn 1 (distinct (tvars a ++ tvars b)) = 1%N by apply/maxn_idPl.
case=> nu [h [_ [/= Hn Ha Hs _ Hb] Hp]]; exists nu; split.
  by move=> x hx; apply: Hb; rewrite /problem_names /= cats0.
move=> u hu; case: h Hn Ha Hs Hp => nm ante succ /= -> Ha Hs Hp.
move: Ha Hp; inversion_clear 1 => Hp.
move: Hs Hp; inversion_clear 1 as [|? f ? l' Hf Hl]; inversion_clear Hl => Hp.
case: Hf => /= Ho _ Hv; exists f; split=> // [e|w]; last by have := Hp w; rewrite cats0.
by have [x [y [Ex Ey ->]]] := hu e; exact: Hv.
Qed.

Lemma x_text : sterm_text (TVar "x") (txt " " ++ txt "x").
Proof. exact: (@StVar (txt " ") (txt "x")). Qed.

(** With a dot. *)
Lemma dotted q s : decimal_text q s -> read_as (compare_text (txt "x") s) (fun e => e 0%N - ratr q).
Proof.
move=> h; have [//|//|//|nu [Hb H]] := compare_reading x_text (StNum (w := txt " ") isT h).
by apply: H => e; exists (e (nu "x"%string)), (ratr q); split=> //; have := Hb "x"%string (or_introl erefl); case: (nu _).
Qed.
Lemma dotted_neg q s : decimal_text q s -> read_as (compare_text (txt "x") (txt "~" ++ s)) (fun e => e 0%N + ratr q).
Proof.
move=> h; have [//|//|//|nu [Hb H]] := compare_reading x_text (StNeg (w := txt " ") (w' := [::]) isT isT h).
apply: H => e; exists (e (nu "x"%string)), (ratr (- q)); split=> //.
by rewrite rmorphN opprK; have := Hb "x"%string (or_introl erefl); case: (nu _).
Qed.

(** Without a dot. *)
Lemma undotted ds : digits ds ->
  read_as (compare_text ds (ds ++ txt ".")) (fun e => e 0%N - ratr (decimal ds)).
Proof.
move=> h; have [//|//|//|nu [Hb H]] := compare_reading (StVar (w := txt " ") isT (digits_sym h))
  (StNum (w := txt " ") isT (DecDot h)).
apply: H => e; exists (e (nu (string_of_list_ascii ds))), (ratr (decimal ds)); split=> //.
by have := Hb _ (or_introl erefl); case: (nu _).
Qed.

(** With a minus sign. *)
Lemma minus_numeral q s : decimal_text q s ->
  read_as (compare_text (txt "-" ++ s) (txt "~" ++ s)) (fun e => e 0%N + ratr q).
Proof.
move=> h; have hv : sym (txt "-" ++ s) by apply/and3P; split=> //=; exact: decimal_sym h.
have [//|//|//|nu [Hb H]] := compare_reading (StVar (w := txt " ") isT hv)
  (StNeg (w := txt " ") (w' := [::]) isT isT h).
apply: H => e; exists (e (nu (string_of_list_ascii (txt "-" ++ s)))), (ratr (- q)); split=> //.
by rewrite rmorphN opprK; have := Hb _ (or_introl erefl); case: (nu _).
Qed.

(** A tilde without a dot. *)
Lemma p_sterm_tilde n st w ds r : blank w -> digits ds -> sfollow r ->
  p_sterm A n.+1 st (w ++ txt "~" ++ ds ++ r) = No st.
Proof.
move=> hw hd hr; have [d1 d2] := digits_num hd; rewrite p_stermE (@alt_no _ _ _ _ _ st).
  rewrite (@alt_no _ _ _ _ _ st); first by apply: p_funs_no; rewrite skip_blank.
  by apply: p_var_no; rewrite skip_blank.
rewrite /p_number (@sq_yes _ _ _ _ _ _ _ (Some tt) (ds ++ r) st); last by rewrite /opt (lit_ok (x := chars "~")).
rewrite (@sq_yes _ _ _ _ _ _ _ ds r st).
  apply: sq_no; rewrite /lit_at strip_no //; case: (r) hr => // c r'; apply: contra => /eqcP <-; by [].
by apply: (@word_ok _ _ [::]) => //; [exact: sfollow_nonum|exact: num_space].
Qed.

Lemma tilde_undotted ds w : digits ds ->
  process_commands A perform w (compare_text (txt "x") (txt "~" ++ ds)) = Err (Exc "ParseException").
Proof.
move=> hd; set s := compare_text _ _.
have Es : s = txt "(sequent """" (antecedent) (succedent" ++ txt " (= x" ++ txt " " ++ txt "~" ++ ds ++ txt ")))".
  by rewrite /s /compare_text -!catA.
have Rl n st : (4 < n)%N -> good_ctx (names st) -> exists st',
    p_rel A n st (txt " (= x" ++ txt " " ++ txt "~" ++ ds ++ txt ")))") = No st' /\ good_ctx (names st').
  move=> hn G; set t := txt " (= x" ++ _.
  have Et : t = txt " " ++ txt "(" ++ [::] ++ txt "=" ++ (txt " " ++ txt "x") ++ txt " " ++ txt "~" ++ ds ++ txt ")))" by [].
  have no x (op : relop) st0 : strip x (txt "= x ~" ++ ds ++ txt ")))") = None -> p_rel1 A n x op st0 t = No st0.
    by move=> hx; rewrite Et p_rel1_no.
  have [E [B Re]] := p_sterm_ok x_text.
  case: n hn Re no => // n hn Re no.
  case Ex : (E st) => [[st' p]|e]; last by have [] := b_err B G Ex.
  have [G' _ _ _ _] := b_ok B G Ex; exists st'; split=> //.
  rewrite /p_rel; do 3! (rewrite (@alt_no _ _ _ _ _ st); last exact: no).
  rewrite (@alt_no _ _ _ _ _ st'); last first.
    rewrite Et /p_rel1 (sq_yes _ (@p_lpar_ok (txt " ") _ _ isT)).
    rewrite (@sq_yes _ _ _ _ _ _ _ tt ((txt " " ++ txt "x") ++ txt " " ++ txt "~" ++ ds ++ txt ")))") st) //.
    rewrite (@sq_yes _ _ _ _ _ _ _ p (txt " " ++ txt "~" ++ ds ++ txt ")))") st').
      by apply: sq_no; exact: p_sterm_tilde.
    by have := Re n.+1 (ltnW (ltnW hn)) st (txt " " ++ txt "~" ++ ds ++ txt ")))") G isT; rewrite Ex => /= <-.
  by rewrite (@alt_no _ _ _ _ _ st'); apply: no.
have C st : good_ctx (names st) -> exists st', p_cmd A st s = No st'.
  move=> G; rewrite /p_cmd; set n := (size s).+1.
  have hn : (44 < n)%N by rewrite /n Es !size_cat /=; lia.
  rewrite Es -[txt "(sequent """" (antecedent) (succedent" ++ _]/([::] ++ txt "(" ++ [::] ++ txt "sequent" ++ txt " " ++ txt """" ++ [::] ++ txt """" ++
    txt " " ++ txt "(" ++ [::] ++ txt "antecedent" ++ [::] ++ txt ")" ++ txt " " ++ txt "(" ++ [::] ++ txt "succedent" ++ _).
  rewrite (sq_yes _ (@p_lpar_ok [::] _ _ isT)) (sq_yes _ (@lit_ok _ [::] (chars "sequent") _ _ isT isT)).
  rewrite (sq_yes _ (@quoted_string_ok _ (txt " ") [::] _ _ isT isT)).
  have Ea r : p_side A n (chars "antecedent") st (txt " " ++ txt "(" ++ [::] ++ txt "antecedent" ++ [::] ++ txt ")" ++ r) = Yes [::] r st.
    rewrite /p_side (sq_yes _ (@p_lpar_ok (txt " ") _ _ isT)) (sq_yes _ (@lit_ok _ [::] (chars "antecedent") _ _ isT isT)).
    case: n hn => // n hn; rewrite (@sq_yes _ _ _ _ _ _ _ [::] (txt ")" ++ r) st) //.
  rewrite (sq_yes _ (Ea _)).
  have [st' [Er G']] := Rl n st (leq_trans (isT : 4 < 45)%N hn) G.
  exists st'; apply: sq_no; rewrite /p_side (sq_yes _ (@p_lpar_ok (txt " ") _ _ isT)) (sq_yes _ (@lit_ok _ [::] (chars "succedent") _ _ isT isT)).
  rewrite (@sq_yes _ _ _ _ _ _ _ [::] (txt " (= x" ++ txt " " ++ txt "~" ++ ds ++ txt ")))") st').
    by apply: sq_no; apply: lit_no.
  by case: n hn Er {Ea} => // n hn; rewrite /= => ->.
have [st' Ec] := C (Pst (new_ctx sname) 0) (@new_good _).
by rewrite /process_commands /= Ec.
Qed.
End Numerals.

(** ** The meaning of a sequent *)
Lemma tvalue_ext (K : realFieldType) t (v v' : string -> K) : (forall x, List.In x (tvars t) -> v x = v' x) ->
  tvalue t v = tvalue t v'.
Proof.
elim: t => //= [x h|a IHa b IHb h|a IHa b IHb h|a IHa b IHb h|a IHa b IHb h|a IHa h].
- by rewrite h //; left.
- by rewrite IHa ?IHb // => x hx; apply: h; apply/List.in_or_app; [right|left].
- by rewrite IHa ?IHb // => x hx; apply: h; apply/List.in_or_app; [right|left].
- by rewrite IHa ?IHb // => x hx; apply: h; apply/List.in_or_app; [right|left].
- by rewrite IHa ?IHb // => x hx; apply: h; apply/List.in_or_app; [right|left].
- by rewrite IHa.
Qed.

Lemma numbering_env (K : realFieldType) names nu (v : string -> K) : numbering names nu ->
  exists e : var -> K, forall x, List.In x names -> e (nu x) = v x.
Proof.
move=> N; exists (fun i => if [seq x <- names | nu x == i] is x :: _ then v x else 0) => x hx.
have [M S] : List.In x [seq y <- names | nu y == nu x] /\
    forall y, List.In y [seq y <- names | nu y == nu x] -> List.In y names /\ nu y = nu x.
  elim: names hx {N} => //= y l IH [->|/IH[M S]].
    rewrite eqxx; split=> [|z]; first by left.
    case=> [<-|]; first by split=> //; left.
    elim: l {IH} => //= u l IH; case: eqP => [E|_] => [[<-|/IH]|/IH]; first by split=> //; right; left.
      by case=> [[|]]; split=> //; [left|right; right].
    by case=> [[|]]; split=> //; [left|right; right].
  case: eqP => [E|_]; split=> [|z]; [by right| |by []|by case/S; split=> //; right].
  by case=> [<-|/S[]]; split=> //; [left|right].
case: [seq _ <- _ | _] M S => // y l _ /(_ y (or_introl erefl))[hy E].
by rewrite (N _ _ hy hx E).
Qed.

Lemma op_rel2 (K : realFieldType) op (x y : K) : op_true op (x - y) = rel2 op x y.
Proof. by case: op; rewrite /op_true /rel2 ?subr_gt0 ?subr_lt0 ?subr_le0 ?subr_ge0 ?subr_eq0. Qed.

Lemma says_holds (K : realFieldType) (val : poly -> (var -> K) -> K) nu f a e v b : says val nu f a ->
  (forall x, List.In x (formula_names f) -> e (nu x) = v x) -> formula_holds v f = Some b ->
  atom_true val a e = b.
Proof.
case=> Ho _ Hv he; rewrite /formula_holds.
have Ea : tvalue f.1.2 (fun n => e (nu n)) = tvalue f.1.2 v.
  by apply: tvalue_ext => x hx; apply: he; apply/List.in_or_app; left.
have Eb : tvalue f.2 (fun n => e (nu n)) = tvalue f.2 v.
  by apply: tvalue_ext => x hx; apply: he; apply/List.in_or_app; right.
case Ta : (tvalue _ v) => [x|//]; case Tb : (tvalue _ v) => [y|//] [<-].
by rewrite /atom_true (Hv e x y) ?Ea ?Eb // Ho op_rel2.
Qed.
End Facts.
