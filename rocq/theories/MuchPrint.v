(** What highschool_qe/muchnik.py prints: the clauses and the diagrams. *)
From Coq Require Import ZArith String Ascii.
From mathcomp Require Import all_ssreflect all_algebra all_real_closed.
From Verif Require Import Py VtsInst MuchModel MuchSpec MuchSeq MuchDiag MuchStep MuchReal MuchInst MuchFull MuchEx MuchCStep
  MuchCplx MuchCFull MuchCEx MuchInter.

Set Implicit Arguments.
Unset Strict Implicit.
Unset Printing Implicit Defensive.
Import GRing.Theory Num.Theory Order.TTheory.
Local Open Scope ring_scope.
Local Notation "s +++ t" := (String.append s t) (right associativity, at level 60).

(** ** Model. *)
Definition nl : string := String "010" EmptyString.

(** [reduce(f, l)]. *)
Definition reduce (T : Type) (f : T -> T -> T) (l : seq T) : res T :=
  if l is x :: l' then Ok (foldl f x l') else Err TypeError.

Section Model.
Variables (P : eqType) (K : realDomainType) (A : algebra P K).
(** [str] of polynomials and of numbers. *)
Variables (str : P -> string) (istr : int -> string).

(** muchnik.py 806-825: pprint_clause, with the printed text as its value; a
    tuple of lists is a list of lists, and the dictionary [lookup] a list in
    the order of its keys. *)
Definition pprint_clause (data : seq (seq (seq P))) (lookup : seq (nat * string)) : res string :=
  if (size data == 0)%N then Ok ("No assigments" +++ nl)
  else
    let! disj := mapM (fun conjData =>
        let! conj := foldM (fun conj x =>
            let! ps := pyget conjData x.1 in
            Ok (conj ++ [seq str p +++ x.2 | p <- ps])) [::] lookup in
        let! conjStr := reduce (fun l r => l +++ " & " +++ nl +++ "  " +++ r) conj in
        Ok ("(" +++ nl +++ "  " +++ conjStr +++ nl +++ ")")) data in
    let! disjStr := reduce (fun l r => l +++ " | " +++ nl +++ r) disj in
    Ok ("ans:" +++ nl +++ disjStr +++ nl).

(** muchnik.py 496 and 783: the calls in complex_full and real_full. *)
Definition complex_lookup : seq (nat * string) := [:: (0%N, " == 0"); (1%N, " != 0")]%string.
Definition real_lookup : seq (nat * string) := [:: (0%N, " < 0"); (1%N, " == 0"); (2%N, " > 0")]%string.
Definition print_complex (ret : seq (seq P * seq P)) : res string :=
  pprint_clause [seq [:: c.1; c.2] | c <- ret] complex_lookup.
Definition print_real (ret : seq (seq P * seq P * seq P)) : res string :=
  pprint_clause [seq [:: c.1.1; c.1.2; c.2] | c <- ret] real_lookup.

(** [%ns]. *)
Fixpoint spaces (n : nat) : string := if n is n'.+1 then String " " (spaces n') else EmptyString.
Definition pad (n : nat) (s : string) : string := spaces (n - String.length s) +++ s.

(** muchnik.py 827-845: pprint_diagram.  [print x,] leaves a space before the
    next item; the columns are sorted by [lt]. *)
Definition pprint_diagram (C : eqType) (lt : rel C) (D : diagram P C) : res string :=
  let! max_len := pylast (sortedset ltn [seq String.length (str q) | q <- rows D]) in
  let header := foldl (fun h q => foldl (ss_add lt) h (cols D q)) [::] (rows D) in
  let! lines := foldM (fun out q =>
      let! line := foldM (fun line c =>
          if c \in cols D q then let! v := cell D q c in Ok (line +++ " " +++ pad 2 (istr v))
          else Ok (line +++ " " +++ " *")) (pad max_len (str q) +++ "   ") header in
      Ok (out +++ line +++ " " +++ nl)) ""%string (sortedset (key_lt A) (rows D)) in
  Ok (lines +++ nl).
End Model.

(** ** Specification. *)
Definition unlines (ls : seq string) : string := foldr (fun l t => l +++ nl +++ t) ""%string ls.

(** All but the last are followed by [sep]. *)
Fixpoint separated (sep : string) (l : seq string) : seq string :=
  match l with [::] => [::] | [:: x] => [:: x] | x :: l' => (x +++ sep) :: separated sep l' end.

(** The lines of a disjunction of conjunctions. *)
Definition conjunction (atoms : seq string) : seq string :=
  "("%string :: separated " & " [seq "  " +++ a | a <- atoms].
Fixpoint disjunction (cs : seq (seq string)) : seq string :=
  match cs with
  | [::] => [::]
  | [:: c] => conjunction c ++ [:: ")"]%string
  | c :: cs' => conjunction c ++ ") | "%string :: disjunction cs'
  end.
Definition answer_lines (cs : seq (seq string)) : seq string :=
  if cs is [::] then [:: "No assigments"]%string else "ans:"%string :: disjunction cs.

Section Spec.
Variables (P : eqType) (K : realDomainType) (A : algebra P K) (str : P -> string) (istr : int -> string).
Definition atoms (ps : seq P) (rel : string) : seq string := [seq str p +++ rel | p <- ps].
Definition real_atoms (c : seq P * seq P * seq P) : seq string :=
  atoms c.1.1 " < 0" ++ atoms c.1.2 " == 0" ++ atoms c.2 " > 0".
Definition complex_atoms (c : seq P * seq P) : seq string := atoms c.1 " == 0" ++ atoms c.2 " != 0".

(** The lines of a table: one for each row, in the order [order] and with the
    names padded to [width], with the columns [header]; then an empty one. *)
Definition cell_text (r : res int) : string := if r is Ok v then pad 2 (istr v) else " *"%string.
Definition table_line (C : eqType) (D : diagram P C) (width : nat) (header : seq C) (q : P) : string :=
  pad width (str q) +++ "   " +++ foldr (fun c t => " " +++ cell_text (cell D q c) +++ t) " "%string header.

Definition printed_table (C : eqType) (lt : rel C) (D : diagram P C) (text : string) : Prop :=
  exists width header order,
  [/\ uniq order /\ order =i rows D, sorted (fun p q => ~~ key_lt A q p) order,
      sorted lt header /\ (forall c, c \in header <-> exists2 q, q \in rows D & c \in cols D q),
      (forall q, q \in rows D -> (String.length (str q) <= width)%N) /\
      (exists2 q, q \in rows D & String.length (str q) = width) &
      text = unlines (rcons [seq table_line D width header q | q <- order] ""%string)].
End Spec.

(** Nothing but spaces. *)
Fixpoint blank (s : string) : bool := if s is String a s' then Ascii.eqb a " " && blank s' else true.

(** ** Proofs. *)
Lemma appA s t u : s +++ (t +++ u) = (s +++ t) +++ u.
Proof. by elim: s => //= a s ->. Qed.
Lemma app0 s : s +++ ""%string = s.
Proof. by elim: s => //= a s ->. Qed.
Local Arguments String.append : simpl never.
Lemma app0l s : ""%string +++ s = s.
Proof. by []. Qed.
Lemma unlines_cat l m : unlines (l ++ m) = unlines l +++ unlines m.
Proof. by elim: l => //= x l ->; rewrite -!appA. Qed.

Lemma length_app s t : String.length (s +++ t) = (String.length s + String.length t)%N.
Proof. by elim: s => //= a s; rewrite /String.append -/String.append /= => ->. Qed.

(** Padding is on the left, with spaces. *)
Lemma pad_text n s : exists2 t, pad n s = t +++ s & blank t.
Proof. by exists (spaces (n - String.length s)) => //; elim: (n - _)%N. Qed.

Lemma pad_length n s : String.length (pad n s) = maxn n (String.length s).
Proof.
rewrite /pad length_app; have -> : forall k, String.length (spaces k) = k by elim=> //= k ->.
by rewrite maxnE addnC -maxnE maxnC maxnE.
Qed.

Lemma padding n s : String.length (pad n s) = maxn n (String.length s) /\ exists2 t, pad n s = t +++ s & blank t.
Proof. by split; [exact: pad_length|exact: pad_text]. Qed.

(** All lines of a table have the same length. *)
Lemma line_length (P : eqType) (str : P -> string) (istr : int -> string) (C : eqType) (D : diagram P C) width header q :
  (forall v, (String.length (istr v) <= 2)%N) -> (String.length (str q) <= width)%N ->
  String.length (table_line str istr D width header q) = (width + 3 + 3 * size header + 1)%N.
Proof.
move=> h2 hw; rewrite /table_line [LHS]length_app pad_length [String.length (_ +++ _)]length_app (maxn_idPl hw) -!addnA; congr (_ + (_ + _))%N.
elim: header => //= c l IH.
have E : String.length (cell_text istr (cell D q c)) = 2%N.
  by case: (cell _ _ _) => [v|//]; rewrite /cell_text pad_length (maxn_idPl (h2 v)).
by rewrite -[LHS]/(String.length (_ +++ _)).+1 length_app E IH !addSn !addnS !add0n !addn0.
Qed.

Lemma separated_cons sep x y l : separated sep (x :: y :: l) = (x +++ sep) :: separated sep (y :: l).
Proof. by []. Qed.

Lemma separated_app sep s x l : unlines (separated sep ((s +++ x) :: l)) = s +++ unlines (separated sep (x :: l)).
Proof. by case: l => [|y l]; rewrite ?separated_cons /= -!appA. Qed.

Definition conj_op (l r : string) := l +++ " & " +++ nl +++ "  " +++ r.
Definition disj_op (l r : string) := l +++ " | " +++ nl +++ r.

Lemma conj_text x l : foldl conj_op x l +++ nl = unlines (separated " & " (x :: [seq "  " +++ a | a <- l])).
Proof.
elim: l x => [|y l IH] x; first by rewrite /= app0.
by rewrite [foldl _ _ _]/= IH [map _ _]/= separated_cons /= /conj_op !separated_app -!appA.
Qed.

Definition block (c : string * seq string) := "(" +++ nl +++ "  " +++ foldl conj_op c.1 c.2 +++ nl +++ ")".
Definition listed (T : Type) (c : T * seq T) : seq T := c.1 :: c.2.

Lemma block_text c : block c = unlines (conjunction (listed c)) +++ ")".
Proof. by rewrite /conjunction /= separated_app -conj_text /block -!appA. Qed.

Lemma disj_text c cs : foldl disj_op (block c) (map block cs) +++ nl =
  unlines (disjunction (map (@listed _) (c :: cs))).
Proof.
have app_fold s x l : foldl disj_op (s +++ x) l = s +++ foldl disj_op x l.
  by elim: l x => //= y l IH x; rewrite -IH /disj_op -!appA.
elim: cs c => [|c' cs IH] c; first by rewrite [foldl _ _ _]/= block_text /disjunction /= unlines_cat /= app0 -appA.
rewrite [foldl _ _ _]/= (_ : disj_op (block c) (block c') = (block c +++ " | " +++ nl) +++ block c'); last first.
  by rewrite /disj_op -!appA.
rewrite app_fold -appA IH block_text.
by rewrite [disjunction _]/= -/(disjunction (map _ (c' :: cs))) unlines_cat /= -!appA.
Qed.

Section Clause.
Variables (P : eqType) (str : P -> string).

Lemma conj_loop (conjData : seq (seq P)) (lookup : seq (nat * string)) acc :
  all (fun x => (x.1 < size conjData)%N) lookup ->
  foldM (fun conj x => let! ps := pyget conjData x.1 in Ok (conj ++ [seq str p +++ x.2 | p <- ps])) acc lookup
  = Ok (acc ++ flatten [seq atoms str (nth [::] conjData x.1) x.2 | x <- lookup]).
Proof.
elim: lookup acc => [|x l IH] acc /=; first by rewrite cats0.
move=> /andP[lt h]; have -> : pyget conjData x.1 = Ok (nth [::] conjData x.1) by rewrite /pyget (drop_nth [::] lt).
by rewrite !bind_ok IH // /atoms catA.
Qed.

Lemma print_text (data : seq (seq (seq P))) lookup (at_ : seq (seq P) -> seq string) :
  (forall c, c \in data -> all (fun x => (x.1 < size c)%N) lookup) ->
  (forall c, c \in data -> flatten [seq atoms str (nth [::] c x.1) x.2 | x <- lookup] = at_ c) ->
  (forall c, c \in data -> at_ c <> [::]) ->
  pprint_clause str data lookup = Ok (unlines (answer_lines (map at_ data))).
Proof.
move=> h1 h2 h3; rewrite /pprint_clause; case: data => [|c data] in h1 h2 h3 *; first by rewrite /= app0.
pose split (l : seq string) := (head ""%string l, behead l).
have E : forall cs, {subset cs <= c :: data} -> mapM (fun conjData =>
        let! conj := foldM (fun conj x =>
            let! ps := pyget conjData x.1 in
            Ok (conj ++ [seq str p +++ x.2 | p <- ps])) [::] lookup in
        let! conjStr := reduce conj_op conj in
        Ok ("(" +++ nl +++ "  " +++ conjStr +++ nl +++ ")")) cs = Ok (map block (map (fun c => split (at_ c)) cs)).
  elim=> //= d cs IH sub; rewrite conj_loop ?h1 ?sub ?mem_head // bind_ok /= h2 ?sub ?mem_head //.
  have := h3 d (sub d (mem_head _ _)); case: (at_ d) => //= x l _.
  by rewrite IH // => y hy; apply: sub; rewrite inE hy orbT.
rewrite [size _ == _]/= E // bind_ok [reduce _ _]/= bind_ok -/disj_op.
rewrite disj_text /answer_lines [map at_ _]/= -[unlines (_ :: _)]/("ans:" +++ nl +++ _); congr (Ok (_ +++ nl +++ unlines (disjunction _))).
rewrite -[_ :: map at_ _]/(map at_ (c :: data)) -[split _ :: _]/(map (fun c => split (at_ c)) (c :: data)) -map_comp.
by apply/(@eq_in_map _ _ _ _ (c :: data)) => x /h3 /=; case: (at_ x).
Qed.

(** A clause without atoms. *)
Lemma print_empty (data : seq (seq (seq P))) lookup c0 :
  (forall c, c \in data -> all (fun x => (x.1 < size c)%N) lookup) ->
  c0 \in data -> flatten [seq atoms str (nth [::] c0 x.1) x.2 | x <- lookup] = [::] ->
  pprint_clause str data lookup = Err TypeError.
Proof.
move=> h1 m0 e0; rewrite /pprint_clause ifN; last by case: (data) m0.
rewrite (_ : mapM _ data = Err TypeError) //; elim: data h1 m0 => //= c data IH h1 m0.
rewrite conj_loop ?h1 ?mem_head // bind_ok cat0s; move: m0; rewrite inE => /orP[/eqP<-|m0]; first by rewrite e0.
rewrite IH //; last by move=> d hd; apply: h1; rewrite inE hd orbT.
by case: (flatten _).
Qed.
End Clause.

Section Results.
Variables (P : eqType) (K : realDomainType) (A : algebra P K) (str : P -> string).
Variables (C : idomainType) (den : P -> {poly C}).
Hypothesis ok : algebra_contract A den.
Variable setiter : seq P -> seq P.
Hypothesis order : set_order setiter.

Lemma real_printed lesser equalities greater : exists N dnf b,
  (forall n, (N <= n)%N -> real_full A setiter n lesser equalities greater = Ok (dnf, b)) /\
  print_real str dnf = Ok (unlines (answer_lines (map (real_atoms str) dnf))).
Proof.
have [N [dnf [b [s h]]]] := real_full_ok ok order lesser equalities greater.
exists N, dnf, b; split=> [n /h[]//|]; have [E Es] := h N (leqnn N).
have [dnf' [b' [E' hd _]]] := real_full_shape ok order Es; move: E'; rewrite E => -[Ed _]; subst dnf'.
rewrite /print_real (print_text (at_ := fun c => real_atoms str (nth [::] c 0, nth [::] c 1, nth [::] c 2))).
- by congr (Ok (unlines (answer_lines _))); rewrite -map_comp; apply: eq_map => -[[a1 a2] a3].
- by move=> _ /mapP[c _ ->].
- by move=> _ /mapP[c _ ->]; rewrite /real_atoms /= cats0 catA.
move=> _ /mapP[c /hd[nv [w [D [_ _ _ ->]]]] ->] /=; rewrite /real_atoms /atoms /=.
case Ev: (var_frag A s) nv => [//|q l] _ /=.
by case: eqP => [//|_]; case: eqP => [_|_] /= /(congr1 size); rewrite !size_cat /= ?addnS ?addSn.
Qed.

Lemma complex_printed equalities inequalities : exists N dnf b,
  (forall n, (N <= n)%N -> complex_full A setiter n equalities inequalities = Ok (dnf, b)) /\
  print_complex str dnf = Ok (unlines (answer_lines (map (complex_atoms str) dnf))).
Proof.
have [N [dnf [b [s h]]]] := complex_full_ok ok order equalities inequalities.
exists N, dnf, b; split=> [n /h[]//|]; have [E Es] := h N (leqnn N).
have [dnf' [b' [E' hd _]]] := complex_full_shape ok order Es; move: E'; rewrite E => -[Ed _]; subst dnf'.
rewrite /print_complex (print_text (at_ := fun c => complex_atoms str (nth [::] c 0, nth [::] c 1))).
- by congr (Ok (unlines (answer_lines _))); rewrite -map_comp; apply: eq_map => -[a1 a2].
- by move=> _ /mapP[c _ ->].
- by move=> _ /mapP[c _ ->]; rewrite /complex_atoms /= cats0.
move=> _ /mapP[c /hd[nv [w [D [_ _ _ ->]]]] ->] /=; rewrite /complex_atoms /atoms /=.
case Ev: (var_frag A s) nv => [//|q l] _ /=.
by case: eqP => [_|_] /= /(congr1 size); rewrite ?size_cat /= ?addnS ?addSn.
Qed.
End Results.

(** *** Tables. *)
Section SortedFacts.
Variables (T : eqType) (lt : rel T).

Lemma uniq_sortedset l : uniq (sortedset lt l).
Proof. rewrite /sortedset; have : uniq ([::] : seq T) by []. by elim: l [::] => //= x l IH s u; apply: IH; exact: uniq_add. Qed.

(** The list is in order for the relation [le]. *)
Variable le : rel T.
Hypothesis lt_le : forall x y, lt x y -> le x y.
Hypothesis nlt_le : forall x y, x != y -> ~~ lt x y -> le y x.

Lemma insert_path x a s : x \notin s -> path le a s -> le a x -> path le a (ss_insert lt x s).
Proof.
elim: s a => [|y s IH] a; first by rewrite /= andbT.
rewrite inE negb_or /= => /andP[ne nx] /andP[ay p] ax; case: ifP => h /=.
  by rewrite ax lt_le.
by rewrite ay IH // nlt_le ?h.
Qed.

Lemma add_sorted s x : sorted le s -> sorted le (ss_add lt s x).
Proof.
rewrite /ss_add; case: ifPn => // nx; case: s nx => [//|y s] nx p /=; move: nx; rewrite inE negb_or => /andP[ne nx].
by case: ifP => h /=; [rewrite lt_le|apply: insert_path => //; rewrite nlt_le ?h].
Qed.

Lemma adds_sorted s l : sorted le s -> sorted le (foldl (ss_add lt) s l).
Proof. by elim: l s => //= x l IH s /add_sorted/IH. Qed.
End SortedFacts.

Lemma mem_adds (T : eqType) (lt : rel T) s l : foldl (ss_add lt) s l =i s ++ l.
Proof.
elim: l s => [|x l IH] s y; first by rewrite cats0.
by rewrite /= IH !mem_cat mem_add !inE orbCA orbA.
Qed.

Lemma list_lt_asym (K : realDomainType) (s t : seq K) : list_lt s t -> ~~ list_lt t s.
Proof.
elim: s t => [|a s IH] [|b t] //=; rewrite [b == a]eq_sym; case: eqP => [_|_]; first exact: IH.
by rewrite -leNgt; exact: ltW.
Qed.

Section Table.
Variables (P : eqType) (K : realDomainType) (A : algebra P K) (str : P -> string) (istr : int -> string).
Variables (C : eqType) (lt : rel C) (D : diagram P C).
Hypothesis lt_total : forall x y, x != y -> ~~ lt x y -> lt y x.

Lemma print_no_rows : rows D = [::] -> pprint_diagram A str istr lt D = Err IndexError.
Proof. by move=> E; rewrite /pprint_diagram E. Qed.

Lemma line_loop q hd t :
  foldM (fun line c =>
          if c \in cols D q then let! v := cell D q c in Ok (line +++ " " +++ pad 2 (istr v))
          else Ok (line +++ " " +++ " *")) t hd
  = Ok (t +++ foldr (fun c t => " " +++ cell_text istr (cell D q c) +++ t) ""%string hd).
Proof.
elim: hd t => [|c hd IH] t /=; first by rewrite app0.
case: ifP => h; first by rewrite (cell_vd h) !bind_ok IH /= -!appA.
by rewrite bind_ok IH (cell_err (negbT h)) /= -!appA.
Qed.

Lemma lines_loop width hd out ord :
  foldM (fun out q =>
      let! line := foldM (fun line c =>
          if c \in cols D q then let! v := cell D q c in Ok (line +++ " " +++ pad 2 (istr v))
          else Ok (line +++ " " +++ " *")) (pad width (str q) +++ "   ") hd in
      Ok (out +++ line +++ " " +++ nl)) out ord
  = Ok (out +++ unlines [seq table_line str istr D width hd q | q <- ord]).
Proof.
have foldE q l : foldr (fun c t => " " +++ cell_text istr (cell D q c) +++ t) " "%string l =
    foldr (fun c t => " " +++ cell_text istr (cell D q c) +++ t) ""%string l +++ " ".
  by elim: l => //= c l ->; rewrite -!appA.
elim: ord out => [|q ord IH] out; first by rewrite /= app0.
rewrite [foldM _ _ _]/= line_loop !bind_ok IH /= /table_line foldE -!appA //.
Qed.

Lemma header_loop h rs : sorted lt h ->
  let hd := foldl (fun h q => foldl (ss_add lt) h (cols D q)) h rs in
  sorted lt hd /\ forall c, c \in hd <-> c \in h \/ exists2 q, q \in rs & c \in cols D q.
Proof.
elim: rs h => [|q rs IH] h sh /=; first by split=> // c; split=> [|[//|[q]]//]; left.
have [|s1 s2] := IH (foldl (ss_add lt) h (cols D q)); first exact: (adds_sorted (le := lt)).
split=> // c; rewrite s2 mem_adds mem_cat; split=> [[/orP[?|hc]|[q' hq hc]]|[->|[q']]].
- by left.
- by right; exists q; rewrite ?mem_head.
- by right; exists q'; rewrite // inE hq orbT.
- by left.
- rewrite inE => /orP[/eqP->|hq] hc; first by left; rewrite hc orbT.
  by right; exists q'.
Qed.

Lemma max_last (l : seq nat) : l <> [::] -> exists m,
  [/\ pylast (sortedset ltn l) = Ok m, m \in l & forall x, x \in l -> (x <= m)%N].
Proof.
move=> n0; have mE := mem_sortedset ltn l; have srt : sorted ltn (sortedset ltn l).
  by apply: adds_sorted => // x y ne; rewrite -leqNgt leq_eqVlt eq_sym (negbTE ne).
case E: (sortedset ltn l) => [|x s] in mE srt *.
  by case: (l) n0 mE => // a k _ /(_ a); rewrite mem_head.
exists (last x s); split=> //; first by rewrite -mE mem_last.
move=> y; rewrite -mE; move: srt => /=; elim: s x y {E mE} => [|z s IH] x y /=; first by rewrite inE => _ /eqP->.
move=> /andP[xz p]; rewrite inE => /orP[/eqP->|]; last exact: IH.
by apply: leq_trans (ltnW xz) _; apply: IH => //; exact: mem_head.
Qed.

Lemma print_rows : rows D <> [::] -> exists2 text,
  pprint_diagram A str istr lt D = Ok text & printed_table A str istr lt D text.
Proof.
move=> n0; rewrite /pprint_diagram.
have [|m [-> hm lem]] := @max_last [seq String.length (str q) | q <- rows D]; first by case: (rows D) n0.
rewrite bind_ok; set hd := foldl _ _ _; set ord := sortedset _ _; rewrite lines_loop bind_ok.
eexists; first by []; exists m, hd, ord; split.
- by split; [exact: uniq_sortedset|exact: mem_sortedset].
- apply: adds_sorted => // p q; exact: list_lt_asym.
- have [//|h1 h2] := @header_loop [::] (rows D); split=> // c.
  by rewrite h2; split=> [[]//|]; right.
- split=> [q hq|]; first by apply: lem; exact: map_f.
  by have /mapP[q hq ->] := hm; exists q.
- by rewrite -cats1 unlines_cat /= app0l app0.
Qed.
End Table.

(** The extended diagrams have every cell. *)
Section Extended.
Variables (P : eqType) (K : realDomainType) (A : algebra P K) (str : P -> string) (istr : int -> string).
Variables (C : idomainType) (den : P -> {poly C}).
Hypothesis ok : algebra_contract A den.
Variable setiter : seq P -> seq P.
Hypothesis order : set_order setiter.
Variables (s : seq P) (f : P -> int).
Hypotheses (cl : closed_seq A den s) (us : uniq s) (srt : sorted (fun p q => (a_degree A p <= a_degree A q)%N) s)
  (f0 : f (a_zero A) = 0).

Lemma nonempty_rows (T : eqType) (D : diagram P T) : rows D =i s -> rows D <> [::].
Proof. by case: cl => z _ _ _ h E; rewrite -h E in z. Qed.

Lemma real_table_printed (D : diagram P [eqType of rat]) : assigned [seq p <- s | const den p] f D ->
  real_extend A setiter D [seq p <- s | ~~ const den p] = Err DiagramExc \/
  exists D' text, [/\ real_extend A setiter D [seq p <- s | ~~ const den p] = Ok D', rows D' =i s,
    {in s &, forall q q', cols D' q =i cols D' q'},
    pprint_diagram A str istr <%R D' = Ok text & printed_table A str istr <%R D' text].
Proof.
move=> as_; rewrite -(nonconst_filter ok); have as2 := as_; rewrite -(const_filter ok) in as2.
have rE : rows D =i constant_frag A s ++ [::] by move=> q; rewrite cats0 (const_filter ok); case: as_ => ->.
have inv := assigned_sinv ok cl as2 f0.
have [->|[D' [prs [h1 h2 h3 _]]]] := extend_shape ok order cl srt us (done := [::]) erefl rE inv; [by left|right].
have [|text E pt] := print_rows A str istr (lt := <%R) (D := D') _ (nonempty_rows h2).
  by move=> x y ne; rewrite -leNgt le_eqVlt eq_sym (negbTE ne).
exists D', text; split=> // q q'; rewrite -!h2 => hq hq' c.
by rewrite !(sv_cols h3).
Qed.

Lemma complex_table_printed (D : diagram P [eqType of nat]) : cassigned [seq p <- s | const den p] f D ->
  exists D' text, [/\ complex_extend A setiter D [seq p <- s | ~~ const den p] = Ok D', rows D' =i s,
    {in s &, forall q q', cols D' q =i cols D' q'},
    pprint_diagram A str istr ltn D' = Ok text & printed_table A str istr ltn D' text].
Proof.
move=> as_; rewrite -(nonconst_filter ok); have as2 := as_; rewrite -(const_filter ok) in as2.
have rE : rows D =i constant_frag A s ++ [::] by move=> q; rewrite cats0 (const_filter ok); case: as_ => ->.
have inv := cassigned_cinv ok cl as2 f0.
have [D' [n [h1 h2 h3 _]]] := cextend_shape ok order cl srt us (done := [::]) erefl rE inv.
have [|text E pt] := print_rows A str istr (lt := ltn) (D := D') _ (nonempty_rows h2).
  by move=> x y ne; rewrite -leqNgt leq_eqVlt eq_sym (negbTE ne).
exists D', text; split=> // q q'; rewrite -!h2 => hq hq' c.
by rewrite !(cv_cols h3).
Qed.
End Extended.

(** Runs. *)
Definition show_sign (v : int) : string := match v with Negz 0 => "-1" | 0 => "0" | _ => "1" end%string.

Local Open Scope Z_scope.
Definition name (p : Pxy) : string :=
  (match rd p with
   | [::] => "0" | [:: [:: 0; 1]] => "y" | [:: [:: 2]] => "2" | [:: [:: 0; 4]] => "4*y"
   | [:: [::]; [:: 2]] => "2*x" | _ => "x**2 + y"
   end)%string.
Local Close Scope Z_scope.

(** x^2 + y, with the signs of y and 4y typed in; one of the lines is not an
    answer, and the last is not read. *)
Definition typed : seq string := [:: "-1"; "yes"; "-1"; "1"]%string.
Definition typed_diagram := real_partial algxy id 50 [:: px_x2y] (Some (answering (r_assignment_interactive algxy) typed)).
Lemma typed_run : (let! D := typed_diagram in pprint_diagram algxy name show_sign <%R D) = Ok (unlines
  [:: "       0     0  0  0  0  0  0  0  0  0 ";
      "       y    -1 -1 -1 -1 -1 -1 -1 -1 -1 ";
      "       2     1  1  1  1  1  1  1  1  1 ";
      "     4*y    -1 -1 -1 -1 -1 -1 -1 -1 -1 ";
      "     2*x    -1 -1 -1 -1  0  1  1  1  1 ";
      "x**2 + y     1  1  0 -1 -1 -1  0  1  1 ";
      ""]%string).
Proof. by vm_compute. Qed.

Lemma typed_short : (if real_partial algxy id 50 [:: px_x2y] (Some (answering (r_assignment_interactive algxy) (take 2 typed)))
  is Err EOFError then true else false).
Proof. by vm_compute. Qed.

Lemma ctyped_run : (let! D := complex_partial algxy id 50 [:: px_x2y] (Some (answering (c_assignment_interactive algxy)
    [:: "1"; "-1"; "1"]%string)) in pprint_diagram algxy name show_sign ltn D) = Ok (unlines
  [:: "       0     0  0  0  0 ";
      "       y     1  1  1  1 ";
      "       2     1  1  1  1 ";
      "     4*y     1  1  1  1 ";
      "     2*x     1  0  1  1 ";
      "x**2 + y     1  1  0  0 ";
      ""]%string).
Proof. by vm_compute. Qed.

Lemma printed_run : (let! r := complex_full algxy id 50 [:: px_x2y] [:: px_x] in print_complex name r.1) = Ok (unlines
  [:: "ans:"; "("; "  4*y == 0 & "; "  y != 0"; ") | "; "("; "  y != 0 & "; "  4*y != 0"; ")"]%string).
Proof. by vm_compute. Qed.

Lemma empty_clause (P : eqType) (str : P -> string) dnf : ([::], [::], [::]) \in dnf -> print_real str dnf = Err TypeError.
Proof.
move=> h; apply: (print_empty (c0 := [:: [::]; [::]; [::]])) => //; first by move=> _ /mapP[c _ ->].
by apply/mapP; exists ([::], [::], [::]).
Qed.
