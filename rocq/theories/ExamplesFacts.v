(** Facts about vts/examples_parser.py: reading directories. *)
From Coq Require Import String Ascii.
From mathcomp Require Import all_ssreflect all_algebra.
From Verif Require Import Py CheckerModel GParserModel GParserSpec GParserFacts.
From Verif Require Import FileSys ExamplesSpec FileFacts ExamplesModel.

Set Implicit Arguments.
Unset Strict Implicit.
Unset Printing Implicit Defensive.

Lemma node_ind_in (C : Type) (P : node C -> Prop) :
  (forall c, P (File c)) -> (forall es, (forall k m, List.In (k, m) es -> P m) -> P (Dir es)) ->
  forall n, P n.
Proof.
move=> hf hd; fix IH 1 => n; refine (match n return P n with File c => hf c | Dir es => hd es _ end).
elim: es => [k m []|[k1 m1] es IHes k m i].
case: i => [e|i]; last exact: IHes i.
have <- : m1 = m by move: e; clear; case.
exact: IH.
Qed.

Section Walk.
Variables (C : Type) (fold : string -> string).
Implicit Types (n m : node C) (p q : fpath).

Notation here := (fun e : string * node C => if e.2 is File c then Some ([:: e.1], c) else None).

(** The files below a directory in the order of [os.walk]. *)
Fixpoint wlist n : seq (fpath * C) :=
  if n is Dir es then
    pmap here es ++
    flatten (map (fun e : string * node C => let: (k, m) := e in
                    [seq (k :: pc.1, pc.2) | pc <- wlist m]) es)
  else [::].

Lemma pmap_in (T U : Type) (f : T -> option U) (l : seq T) b :
  List.In b (pmap f l) <-> exists2 a, List.In a l & f a = Some b.
Proof.
elim: l => [|a l IH] /=; first by split=> [//|[]].
case e: (f a) => [b'|] /=; split.
- by case=> [<-|/IH[a' i h]]; [exists a; [left|]|exists a'; [right|]].
- case=> a' [<-|i]; first by rewrite e => -[->]; left.
  by move=> h; right; apply/IH; exists a'.
- by move/IH=> [a' i h]; exists a'; [right|].
- case=> a' [<-|i]; first by rewrite e.
  by move=> h; apply/IH; exists a'.
Qed.

Lemma flatten_in (T : Type) (l : seq (seq T)) x :
  List.In x (flatten l) <-> exists2 s, List.In s l & List.In x s.
Proof.
elim: l => [|s l IH] /=; first by split=> [//|[]].
rewrite List.in_app_iff; split.
  by case=> [i|/IH[s' i h]]; [exists s; [left|]|exists s'; [right|]].
by case=> s' [<-|i] h; [left|right; apply/IH; exists s'].
Qed.

Lemma wlist_in es q c : List.In (q, c) (wlist (Dir es)) <-> has_file (Dir es) q c.
Proof.
suff H n : forall q c, List.In (q, c) (wlist n) <-> (has_file n q c /\ is_dir n).
  by rewrite H; split=> [[]|].
elim/node_ind_in: n => {es q c} [c0|es IH] q c; first by split=> [//|[]].
rewrite /= List.in_app_iff pmap_in flatten_in; split.
  case=> [[[k [c'|//]] i /= [<- <-]]|[s /List.in_map_iff[[k m] [<- i]]]].
    by split=> //; apply: BelowDir i _; exact: HereFile.
  move=> /List.in_map_iff[[q' c'] [/= [<- <-]]] /(IH _ _ i)[h _].
  by split=> //; exact: BelowDir i h.
case=> h _; inversion h as [|? k m q' ? i h']; subst.
case: m i h' => [c'|es'] i h'.
  by left; exists (k, File c') => //=; inversion h'; subst.
right; exists [seq (k :: pc.1, pc.2) | pc <- wlist (Dir es')].
  by apply/List.in_map_iff; exists (k, Dir es').
apply/List.in_map_iff; exists (q', c); split=> //.
by apply/(IH _ _ i); split.
Qed.

Notation walked_from p n := (flatten [seq [seq (w.1.1, f) | f <- w.2] | w <- walk_from p n]).

Lemma walked_fromE p n :
  [seq (rcons x.1 x.2, x.2) | x <- walked_from p n] = [seq (p ++ pc.1, base pc.1) | pc <- wlist n].
Proof.
elim/node_ind_in: n p => [c|es IH] p //=.
rewrite map_cat map_cat; congr (_ ++ _).
  rewrite -map_comp /= => {IH}.
  by elim: es => [|[k [c|es']] es IH] //=; rewrite ?cats1 IH.
elim: es IH => [|[k m] es IHes] IH //=.
rewrite map_cat flatten_cat !map_cat IHes; last by move=> k' m' i; apply: (IH k'); right.
congr (_ ++ _).
rewrite (IH k m (or_introl erefl)) -map_comp.
have ne pc : List.In pc (wlist m) -> pc.1 != [::].
  case: m {IH} => // es' i.
  by case: pc i => q c /wlist_in h; inversion h.
elim: (wlist m) ne => //= -[q c] l IHl ne.
rewrite cat_rcons IHl; last by move=> pc i; apply: ne; right.
by have := ne (q, c) (or_introl erefl); case: q {ne}.
Qed.

(** A loop over the files found by [os.walk], each opened in turn. *)
Lemma walk_loop (A : Type) (F : A -> string -> C -> res A) (a : A) (s : node C) dir n :
  wf fold s -> look fold s dir = Some n ->
  foldM (fun a pf => let! c := get fold s (rcons pf.1 pf.2) in F a pf.2 c) a
    (flatten [seq [seq (w.1.1, f) | f <- w.2] | w <- walk fold s dir]) =
  foldM (fun a pc => F a (base pc.1) pc.2) a (wlist n).
Proof.
move=> w e; rewrite /walk e.
have : forall q c, List.In (q, c) (wlist n) -> look fold s (dir ++ q) = Some (File c).
  case: n e => // es e q c /wlist_in h; rewrite (look_cat _ e).
  by apply: has_file_look h; apply: look_wf w e.
have := walked_fromE dir n.
elim: (walked_from dir n) (wlist n) a => [|[d f] l IH] [|[q c] l'] a //= [e1 e2 e3] h.
rewrite /get e1 (h q c (or_introl erefl)) /= e2.
case: (F _ _ _) => //= a'; apply: IH => // q' c' i; apply: h; by right.
Qed.

Lemma walk_none (s : node C) dir : look fold s dir = None -> walk fold s dir = [::].
Proof. by rewrite /walk => ->. Qed.
End Walk.

(** ** Dictionaries filled in a loop *)
Section DictLoop.
Variables (K : eqType) (V : Type).
Implicit Types (d : dict K V) (k : K) (v : V).

Lemma dget_dset d k v k' : dget (dset d k v) k' = if k' == k then Ok v else dget d k'.
Proof.
elim: d => [|[k1 v1] d IH] /=; first by [].
case: (eqVneq k k1) => [<-|ne] /=; first by case: ifP.
rewrite IH; case: (eqVneq k' k1) => [->|//].
by rewrite eq_sym (negbTE ne).
Qed.

Definition fill d (l : seq (K * V)) : dict K V := foldl (fun d kv => dset d kv.1 kv.2) d l.

Lemma fill_out l d k : k \notin map fst l -> dget (fill d l) k = dget d k.
Proof.
elim: l d => [|[k1 v1] l IH] d //=; rewrite inE negb_or => /andP[ne n].
by rewrite /fill /= -/(fill _ l) IH // dget_dset (negbTE ne).
Qed.

Lemma fst_in k v (l : seq (K * V)) : List.In (k, v) l -> k \in map fst l.
Proof. by elim: l => //= -[k1 v1] l IH [[-> _]|/IH i]; rewrite inE ?eqxx ?i ?orbT. Qed.

(** The last value written wins. *)
Lemma fill_in l d k : k \in map fst l ->
  exists a v b, [/\ l = a ++ (k, v) :: b, k \notin map fst b & dget (fill d l) k = Ok v].
Proof.
elim: l d => [|[k1 v1] l IH] d //=; rewrite inE.
case: (boolP (k \in map fst l)) => [i _|n].
  by have [a [v [b [-> nb h]]]] := IH (dset d k1 v1) i; exists ((k1, v1) :: a), v, b.
rewrite orbF => /eqP e; rewrite -{}e; exists [::], v1, l; split=> //.
by rewrite /fill /= -/(fill _ l) fill_out // dget_dset eqxx.
Qed.

Lemma fill_spec l :
  (forall k v v', List.In (k, v) l -> List.In (k, v') l -> v = v') ->
  forall k v, dget (fill [::] l) k = Ok v <-> List.In (k, v) l.
Proof.
move=> fu k v; case: (boolP (k \in map fst l)) => [i|n].
  have [a [v' [b [e _ ->]]]] := fill_in [::] i.
  have i' : List.In (k, v') l by rewrite e List.in_app_iff; right; left.
  by split=> [[<-]//|i'']; rewrite (fu _ _ _ i' i'').
rewrite fill_out //; split=> // i; by rewrite (fst_in i) in n.
Qed.
End DictLoop.

(** ** Reading directories *)
Section Read.
Variable fold : string -> string.
Variable dump : examples term -> text.
Variable load_text : text -> res (examples term).
Implicit Types (s : fs) (n : node content).

Notation unpickle_from_dir := (unpickle_from_dir fold load_text).
Notation parse_files_from_dir := (parse_files_from_dir fold dump).
Notation load := (load load_text).

Lemma unpickle_loop s dir n : wf fold s -> look fold s dir = Some n ->
  unpickle_from_dir s dir =
  let! l := mapM (fun pc => let! o := load pc.2 in Ok (base pc.1, o)) (wlist n) in
  Ok (fill [::] l).
Proof.
move=> w e.
rewrite /ExamplesModel.unpickle_from_dir /walked.
rewrite (walk_loop (fun ret f c => let! o := load c in Ok (dset ret f o)) _ w e).
rewrite /fill; elim: (wlist n) [::] => //= -[q c] l IH d /=.
case: (load c) => //= o; rewrite IH.
by case: (mapM _ l).
Qed.

Lemma unpickle_none s dir : look fold s dir = None -> unpickle_from_dir s dir = Ok [::].
Proof. by rewrite /ExamplesModel.unpickle_from_dir /walked => /walk_none ->. Qed.

Lemma unpickle_file_none s dir c : look fold s dir = Some (File c) -> unpickle_from_dir s dir = Ok [::].
Proof. by rewrite /ExamplesModel.unpickle_from_dir /walked /walk => ->. Qed.

Lemma mapM_forall2 (A B : Type) (f : A -> res B) (l : seq A) (bs : seq B) :
  mapM f l = Ok bs <-> List.Forall2 (fun a b => f a = Ok b) l bs.
Proof.
elim: l bs => [|a l IH] bs /=.
  by split=> [[<-]|h]; [exact: List.Forall2_nil|inversion h].
split.
  case ea: (f a) => [b|] //=; case el: (mapM f l) => [bs'|] //= [<-].
  by apply: List.Forall2_cons => //; apply/IH.
move=> h; inversion h as [|? b ? bs' h1 h2]; subst.
by rewrite h1 /= (proj2 (IH bs') h2).
Qed.

Lemma mapM_in (A B : Type) (f : A -> res B) (l : seq A) (bs : seq B) : mapM f l = Ok bs ->
  (forall b, List.In b bs <-> exists2 a, List.In a l & f a = Ok b).
Proof.
move/mapM_forall2; elim=> {l bs} [|a b l bs h _ IH] x /=; first by split=> [//|[]].
rewrite IH; split.
  by case=> [<-|[a' i e]]; [exists a; [left|]|exists a'; [right|]].
case=> a' [<-|i]; first by rewrite h => -[->]; left.
by right; exists a'.
Qed.

Lemma mapM_total (A B : Type) (f : A -> res B) (l : seq A) :
  (forall a, List.In a l -> exists b, f a = Ok b) -> exists bs, mapM f l = Ok bs.
Proof.
elim: l => [|a l IH] h /=; first by exists [::].
have [b ->] := h a (or_introl erefl).
have [bs ->] := IH (fun a' i => h a' (or_intror i)).
by exists (b :: bs).
Qed.

(** All files pickled, with different names: all are returned. *)
Lemma unpickle_all s dir es : wf fold s -> look fold s dir = Some (Dir es) ->
  distinct_names (Dir es) ->
  (forall q c, has_file (Dir es) q c -> exists o, c = Pickle o) ->
  exists2 r, unpickle_from_dir s dir = Ok r &
  forall f o, dget r f = Ok o <-> exists2 q, has_file (Dir es) q (Pickle o) & base q = f.
Proof.
move=> w e dn hp; rewrite (unpickle_loop w e).
case: (@mapM_total _ _ (fun pc => let! o := load pc.2 in Ok (base pc.1, o)) (wlist (Dir es))).
  move=> [q c] /wlist_in /hp[o ->]; by exists (base q, o).
move=> l el; rewrite el /=; exists (fill [::] l) => //.
have lE := mapM_in el.
have inE f o : List.In (f, o) l <-> exists2 q, has_file (Dir es) q (Pickle o) & base q = f.
  rewrite lE; split.
    case=> -[q c] /wlist_in h /=; have [o' eo] := hp _ _ h; rewrite eo /= => -[<- <-].
    by exists q; rewrite -?eo.
  by case=> q /wlist_in i <-; exists (q, Pickle o).
move=> f o; rewrite fill_spec // => k v v' /inE[q h b] /inE[q' h' b'].
have eq : q = q' by apply: dn h h' _; rewrite b b'.
rewrite -eq in h'.
have wd := look_wf w e.
have := has_file_look wd h'; rewrite (has_file_look wd h).
by case.
Qed.

(** The same for the texts. *)
Lemma parse_loop s dir n st : wf fold s -> look fold s dir = Some n ->
  match parse_files st [seq (base pc.1, read_text dump pc.2) | pc <- wlist n] with
  | Ok l => exists st', parse_files_from_dir s dir st = Ok (fill [::] l, st')
  | Err e => parse_files_from_dir s dir st = Err e
  end.
Proof.
move=> w e.
rewrite /ExamplesModel.parse_files_from_dir /walked.
rewrite (walk_loop (fun a f c => let! x := scan (size (read_text dump c)).+1 a.2 (read_text dump c) in
                                 Ok (dset a.1 f x.1, x.2)) _ w e).
move: (wlist n) => l {w e n}; set d : dict string_eqType (seq sequent) := [::].
elim: l d st => [|[q c] l IH] d st; first by exists st.
rewrite [parse_files _ _]/(let! x := scan (size (read_text dump c)).+1 st (read_text dump c) in
  let! rest := parse_files x.2 [seq (base pc.1, read_text dump pc.2) | pc <- l] in
  Ok ((base q, x.1) :: rest)).
rewrite [foldM _ _ _]/(let! y := (let! x := scan (size (read_text dump c)).+1 st (read_text dump c) in
   Ok (dset d (base q) x.1, x.2)) in foldM (fun a pc =>
     let! x := scan (size (read_text dump pc.2)).+1 a.2 (read_text dump pc.2) in
     Ok (dset a.1 (base pc.1) x.1, x.2)) y l).
case: (scan _ st _) => [[qs st']|e1]; last by [].
have := IH (dset d (base q) qs) st'; rewrite -[(qs, st').2]/st'.
by case: (parse_files _ _) => [l'|e'] h; exact: h.
Qed.

Lemma parse_all s dir es (want : fpath -> seq sequent) : wf fold s ->
  look fold s dir = Some (Dir es) -> distinct_names (Dir es) ->
  (forall q c, has_file (Dir es) q c -> exists t, [/\ c = Text t, file_text (want q) t &
     ~~ has (sequent_mentions "sympy") (want q)]) ->
  exists r st, parse_files_from_dir s dir true = Ok (r, st) /\
  forall f qs, dget r f = Ok qs <->
    exists q c, [/\ has_file (Dir es) q c, base q = f & qs = want q].
Proof.
move=> w e dn hp; have := parse_loop true w e.
rewrite (@files_round_trip [seq (base pc.1, want pc.1) | pc <- wlist (Dir es)]).
- case=> st ->; exists (fill [::] [seq (base pc.1, want pc.1) | pc <- wlist (Dir es)]), st; split=> //.
  have iE f qs : List.In (f, qs) [seq (base pc.1, want pc.1) | pc <- wlist (Dir es)] <->
      exists q c, [/\ has_file (Dir es) q c, base q = f & qs = want q].
    rewrite List.in_map_iff; split.
      by case=> -[q c] [[<- <-] /wlist_in h]; exists q, c.
    by case=> q [c [/wlist_in i <- ->]]; exists (q, c).
  move=> f qs; rewrite fill_spec // => k v v' /iE[q [c [h b ->]]] /iE[q' [c' [h' b' ->]]].
  by congr want; apply: dn h h' _; rewrite b b'.
- have : forall q c, List.In (q, c) (wlist (Dir es)) -> exists t, [/\ c = Text t, file_text (want q) t &
     ~~ has (sequent_mentions "sympy") (want q)] by move=> q c /wlist_in; exact: hp.
  elim: (wlist _) => [|[q c] l IH] h /=; first exact: List.Forall2_nil.
  apply: List.Forall2_cons; last by apply: IH => q' c' i; apply: h; right.
  by have [t [-> ft _]] := h q c (or_introl erefl).
- have : forall q c, List.In (q, c) (wlist (Dir es)) -> ~~ has (sequent_mentions "sympy") (want q).
    by move=> q c /wlist_in /hp[t []].
  elim: (wlist _) => [|[q c] l IH] h //=.
  rewrite negb_or (h q c (or_introl erefl)) /=.
  by apply: IH => q' c' i; apply: (h q' c'); right.
Qed.

Lemma parse_none s dir st : look fold s dir = None -> parse_files_from_dir s dir st = Ok ([::], st).
Proof. by rewrite /ExamplesModel.parse_files_from_dir /walked => /walk_none ->. Qed.

(** What is read below a directory depends on that directory only. *)
Lemma parse_local s s' dir st : wf fold s -> wf fold s' -> look fold s dir = look fold s' dir ->
  parse_files_from_dir s dir st = parse_files_from_dir s' dir st.
Proof.
move=> w w' e.
case e1: (look fold s dir) => [n|]; last first.
  have e2 : look fold s' dir = None by rewrite -e.
  by rewrite (parse_none _ e1) (parse_none _ e2).
have e2 : look fold s' dir = Some n by rewrite -e.
rewrite /ExamplesModel.parse_files_from_dir /walked.
pose F (a : dict string_eqType (seq sequent) * bool) f c := (let! x := scan (size (read_text dump c)).+1 a.2 (read_text dump c) in
                                 Ok (dset a.1 f x.1, x.2)).
by rewrite (walk_loop F _ w e1) (walk_loop F _ w' e2).
Qed.

Lemma unpickle_local s s' dir : wf fold s -> wf fold s' -> look fold s dir = look fold s' dir ->
  unpickle_from_dir s dir = unpickle_from_dir s' dir.
Proof.
move=> w w' e.
case e1: (look fold s dir) => [n|]; last first.
  have e2 : look fold s' dir = None by rewrite -e.
  by rewrite (unpickle_none e1) (unpickle_none e2).
have e2 : look fold s' dir = Some n by rewrite -e.
by rewrite (unpickle_loop w e1) (unpickle_loop w' e2).
Qed.
End Read.
