(** Facts about vts/examples_parser.py: writing the pickles, being interrupted,
    and reading them again. *)
From Coq Require Import String Ascii.
From mathcomp Require Import all_ssreflect all_algebra.
From mathcomp.zify Require Import zify.
From Verif Require Import Py CheckerModel GParserModel.
From Verif Require Import FileSys ExamplesSpec FileFacts ExamplesModel ExamplesFacts.

Set Implicit Arguments.
Unset Strict Implicit.
Unset Printing Implicit Defensive.

Section Entries.
Variables (C : Type) (fold : string -> string).
Implicit Types (es : seq (string * node C)).
Notation set_entry := (set_entry fold).
Notation same := (same fold).

Lemma set_entry_twice es k (m m' : node C) : set_entry (set_entry es k m) k m' = set_entry es k m'.
Proof.
elim: es => [|[k1 m1] es IH] /=; first by rewrite same_refl.
by case: ifP => s /=; rewrite s ?IH.
Qed.

Lemma set_entry_cat (a b : seq (string * node C)) k m :
  ~~ has (fun e => same k e.1) a -> set_entry (a ++ b) k m = a ++ set_entry b k m.
Proof. by elim: a => //= -[k1 m1] a IH; rewrite negb_or => /andP[/negbTE -> /IH ->]. Qed.

(** Writing a list of entries over a prefix of it. *)
Lemma fill_prefix (new : seq (string * node C)) a b :
  uniq [seq fold e.1 | e <- new] ->
  ~~ has (fun e => has (fun e' => same e.1 e'.1) a) new ->
  map fst b = take (size b) (map fst new) ->
  foldl (fun es e => set_entry es e.1 e.2) (a ++ b) new = a ++ new ++ drop (size new) b.
Proof.
elim: new a b => [|[k m] new IH] a b //=; first by rewrite drop0.
move=> /andP[n u]; rewrite negb_or => /andP[na nh] eb.
rewrite set_entry_cat //.
have nh' : ~~ has (fun e => has (fun e' => same e.1 e'.1) (rcons a (k, m))) new.
  move: nh n => {IH na eb u}; elim: new => // -[k2 m2] new IH.
  rewrite [has _ _]/= [has _ (_ :: _)]/= [map _ _]/= !negb_or.
  move=> /andP[n1 n2] /andP[n3 n4]; rewrite IH // andbT has_rcons negb_or n1 andbT.
  by rewrite /FileSys.same eq_sym.
case: b eb => [|[k' m'] b] /= eb.
  rewrite cats1 -[rcons a _]cats0 IH ?take0 //=.
  by rewrite cat_rcons.
case: eb => -> eb; rewrite same_refl -cat_rcons IH //.
by rewrite cat_rcons.
Qed.

Lemma fill_fresh (new : seq (string * node C)) :
  uniq [seq fold e.1 | e <- new] -> foldl (fun es e => set_entry es e.1 e.2) [::] new = new.
Proof.
move=> u; rewrite -[[::]]cat0s (fill_prefix u) ?take0 //=; first by rewrite cats0.
by elim: new {u}.
Qed.
End Entries.

Lemma app_cancel (a b c : string) : (a ++ c)%string = (b ++ c)%string -> a = b.
Proof.
have len u v : String.length (u ++ v)%string = (String.length u + String.length v)%N.
  by elim: u => //= x u ->.
elim: a b => [|x a IH] [|y b] //= e.
- by have := congr1 String.length e; rewrite /= len; lia.
- by have := congr1 String.length e; rewrite /= len; lia.
- by case: e => -> /IH ->.
Qed.

Section Write.
Variable fold : string -> string.
Variable load_text : text -> res (examples term).
Implicit Types (s : fs) (ff : dict string_eqType (examples term)).

Notation look := (look fold).
Notation same := (same fold).
Notation perform := (perform fold).


(** The entry of a written file. *)
Definition ent (f : string * examples term) : string * node content :=
  ((f.1 ++ ".pkl")%string, File (Pickle f.2)).

Definition file_ops (f : string * examples term) : seq op :=
  let p := [:: "vts"; "Examples"; "Metitarski"; f.1 ++ ".pkl"]%string in [:: Open p; Dump p f.2].

Lemma ops_ofE ff : ops_of [:: ("Metitarski"%string, ff)] =
  Makedirs out_dir :: flatten (map file_ops ff).
Proof. by rewrite /ops_of /= cats0. Qed.

Definition apart := FileFacts.apart fold.

Lemma apart_rcons p k q : apart p q -> apart (rcons p k) q.
Proof.
move=> [a1 a2]; split; rewrite map_rcons.
  apply: contra a1 => /prefixP[t ->]; rewrite -cats1 -catA; exact: prefix_prefix.
apply: contra a2 => /prefixP[t]; case/lastP: t => [|t x] e.
  by case/negP: a1; rewrite cats0 in e; rewrite -e -cats1; exact: prefix_prefix.
by move: e; rewrite -rcons_cat => /rcons_inj[-> _]; exact: prefix_prefix.
Qed.

Lemma put_entry s es k c : wf fold s -> look s out_dir = Some (Dir es) ->
  (forall es', entry fold es k <> Some (Dir es')) ->
  exists s', [/\ put fold c s (rcons out_dir k) = Ok s', wf fold s',
    look s' out_dir = Some (Dir (set_entry fold es k (File c))) &
    forall q, apart out_dir q -> look s' q = look s q].
Proof.
move=> w e ne.
case: (@upd_leaf _ fold (fun o => if o is Some (Dir _) then Err EISDIR else Ok (File c)) s out_dir
         k es (File c) e).
  by case e1: (entry _ _ _) => [[c'|es']|] //; case: (ne es').
move=> s' h1 h2; exists s'; split=> //.
  apply: upd_wf w h1 => o m; case: o => [[c'|//]|] [<-]; exact: WfFile.
by move=> q a; apply: (upd_other h1); exact: apart_rcons.
Qed.

(** The directory after [i] of the changes. *)
Fixpoint partial_fill (es : seq (string * node content)) ff (i : nat) :=
  match ff, i with
  | [::], _ | _, 0 => es
  | f :: _, 1 => set_entry fold es (ent f).1 (File Partial)
  | f :: ff', i'.+2 => partial_fill (set_entry fold es (ent f).1 (ent f).2) ff' i'
  end.

Definition no_dirs (es : seq (string * node content)) ff := forall f es', List.In f ff -> entry fold es (ent f).1 <> Some (Dir es').

Lemma no_dirs_set es ff k (c : content) : no_dirs es ff -> no_dirs (set_entry fold es k (File c)) ff.
Proof. by move=> h f es' /h{}h; rewrite entry_set; case: ifP. Qed.

Lemma write_files ff s es i : wf fold s -> look s out_dir = Some (Dir es) -> no_dirs es ff ->
  exists s', [/\ foldM perform s (take i (flatten (map file_ops ff))) = Ok s', wf fold s',
    look s' out_dir = Some (Dir (partial_fill es ff i)) &
    forall q, apart out_dir q -> look s' q = look s q].
Proof.
elim: ff s es i => [|f ff IH] s es i w e nd; first by exists s.
case: i => [|i]; first by exists s.
have [s1 [p1 w1 l1 f1]] := @put_entry s es (ent f).1 Partial w e (fun es' => nd f es' (or_introl erefl)).
case: i => [|i]; first by exists s1; split=> //=; rewrite p1.
have nd1 := @no_dirs_set _ _ (ent f).1 Partial nd.
have [s2 [p2 w2 l2 f2]] := @put_entry s1 _ (ent f).1 (Pickle f.2) w1 l1
  (fun es' => nd1 f es' (or_introl erefl)).
rewrite set_entry_twice in l2.
have nd2 : no_dirs (set_entry fold es (ent f).1 (ent f).2) ff.
  by apply: no_dirs_set => g es' i'; apply: nd; right.
have [s3 [p3 w3 l3 f3]] := IH s2 _ i w2 l2 nd2.
exists s3; split=> //=; first by rewrite p1 /= p2.
by move=> q a; rewrite f3 // f2 // f1.
Qed.

Lemma partial_fill_all es ff i : (size ff).*2 <= i ->
  partial_fill es ff i = foldl (fun es e => set_entry fold es e.1 e.2) es (map ent ff).
Proof.
elim: ff es i => [|f ff IH] es i; first by case: i.
by rewrite [size _]/= doubleS; case: i => [|[|i]] // h; apply: IH.
Qed.

(** The directory as it is, or new and empty. *)
Definition entries_at s p (es : seq (string * node content)) : Prop :=
  look s p = Some (Dir es) \/ look s p = None /\ es = [::].

Lemma mkdir_entry s d k es : wf fold s -> look s d = Some (Dir es) -> entry fold es k = None ->
  exists s', [/\ mkdir fold s (rcons d k) = Ok s', wf fold s', look s' (rcons d k) = Some (Dir [::]) &
    forall q, apart (rcons d k) q -> look s' q = look s q].
Proof.
move=> w e ne.
case: (@upd_leaf _ fold (fun o => if o is Some _ then Err EEXIST else Ok (Dir [::])) s d k es (Dir [::]) e).
  by rewrite ne.
move=> s' h1 h2; exists s'; split=> //.
- apply: upd_wf w h1 => o m; case: o => [//|] [<-]; exact: WfDir.
- by rewrite look_rcons h2 entry_set same_refl.
- by move=> q a; exact: upd_other h1 a.
Qed.

Lemma perform_makedirs s ev es : wf fold s ->
  look s [:: "vts"]%string = Some (Dir ev) ->
  (forall c, look s ex_dir <> Some (File c)) ->
  entries_at s out_dir es ->
  exists s', [/\ perform s (Makedirs out_dir) = Ok s', wf fold s', look s' out_dir = Some (Dir es) &
    forall q, apart out_dir q -> look s' q = look s q].
Proof.
move=> w ev_ ex_ d_.
have fresh s1 ex1 : wf fold s1 -> look s1 ex_dir = Some (Dir ex1) -> look s1 out_dir = None ->
    exists s', [/\ mkdir fold s1 out_dir = Ok s', wf fold s', look s' out_dir = Some (Dir [::]) &
      forall q, apart out_dir q -> look s' q = look s1 q].
  move=> w1 e1 d1; have lE := look_rcons fold s1 ex_dir "Metitarski".
  rewrite e1 -[rcons _ _]/out_dir d1 in lE.
  exact: (@mkdir_entry s1 ex_dir "Metitarski" ex1 w1 e1 (esym lE)).
have pE r : makedirs fold s out_dir = r -> perform s (Makedirs out_dir) = unless_exists s r.
  by rewrite /ExamplesModel.perform => ->.
case ee: (look s ex_dir) => [[c|ex]|].
- by case: (ex_ c).
- have mE : makedirs fold s out_dir = mkdir fold s out_dir.
    rewrite (_ : makedirs fold s out_dir =
      let! n' := (if (if look s ex_dir is Some _ then true else false) then Ok s else
         unless_exists s (makedirs_rev fold s [:: "Examples"; "vts"]%string)) in mkdir fold n' out_dir) //.
    by rewrite ee.
  case: d_ => [d1|[d1 ->]]; last first.
    have [s' [h1 h2 h3 h4]] := fresh s ex w ee d1.
    by exists s'; rewrite (pE (Ok s')) // mE.
  exists s; rewrite (pE (Err EEXIST)) // mE.
  move: d1; rewrite /mkdir /out_dir /=; case: (s) => // l1.
  case: (entry _ _ _) => // -[//|l2] /=; case: (entry _ _ _) => // -[//|l3] /=.
  by case: (entry _ _ _).
have lE := look_rcons fold s [:: "vts"]%string "Examples".
rewrite ev_ -[rcons _ _]/ex_dir ee in lE.
have [s1 [m1 w1 l1 f1]] := @mkdir_entry s [:: "vts"]%string "Examples" ev w ev_ (esym lE).
have n0 : look s out_dir = None by exact: (@look_none _ fold s ex_dir).
have n1 : look s1 out_dir = None.
  by have := look_rcons fold s1 ex_dir "Metitarski"; rewrite l1.
have es0 : es = [::] by case: d_ => [|[]//]; rewrite n0.
have [s' [h1 h2 h3 h4]] := fresh s1 [::] w1 l1 n1.
exists s'; split=> //; last 1 first.
move=> q a; rewrite h4 //.
case: (boolP (prefix (map fold [:: "vts"; "Examples"]%string) (map fold q))) => pq.
  have eq : exists k q', [/\ q = [:: k, q'.1 & q'.2], fold k = fold "vts" & fold q'.1 = fold "Examples"].
    case: q pq {a} => [|k1 [|k2 q]] //=; first by rewrite andbF.
    by rewrite prefix0s andbT => /andP[/eqP e1 /eqP e2]; exists k1, (k2, q).
  case: eq => k1 [[k2 q'] [eq e1 e2]]; rewrite {}eq in a pq *.
  have sE n : look n [:: k1, k2 & q'] = look n ([:: "vts"; "Examples"]%string ++ q').
    case: n => //= l1'; rewrite (@entry_same _ fold l1' k1 "vts"); last by apply/eqP.
    case: (entry _ _ _) => // -[//|l2]; rewrite (@entry_same _ fold l2 k2 "Examples") //.
    by apply/eqP.
  rewrite !sE (look_none _ ee) (look_cat _ l1).
  move=> {pq sE}; rewrite /= in e2; case: q' a => [[_]|k3 q' _] //=.
  by rewrite e1 e2 /= !eqxx.
apply: f1; split=> //.
apply/negP=> h; case: a => _ /negP; apply.
by apply: prefix_trans h _; rewrite /= !eqxx.
rewrite (pE (Ok s')) //.
rewrite (_ : makedirs fold s out_dir =
    let! n' := (if (if look s ex_dir is Some _ then true else false) then Ok s else
       unless_exists s
        (let! n'' := (if (if look s [:: "vts"]%string is Some _ then true else false) then Ok s else
          unless_exists s (makedirs_rev fold s [:: "vts"]%string)) in mkdir fold n'' ex_dir))
    in mkdir fold n' out_dir) //.
by rewrite ee ev_ bind_ok -[ex_dir]/(rcons [:: "vts"] "Examples")%string m1.
by rewrite es0.
Qed.

Lemma write_run s ev es ff k : wf fold s ->
  look s [:: "vts"]%string = Some (Dir ev) ->
  (forall c, look s ex_dir <> Some (File c)) ->
  entries_at s out_dir es -> no_dirs es ff ->
  exists s', [/\ foldM perform s (take k.+1 (ops_of [:: ("Metitarski"%string, ff)])) = Ok s',
    wf fold s', look s' out_dir = Some (Dir (partial_fill es ff k)) &
    forall q, apart out_dir q -> look s' q = look s q].
Proof.
move=> w hv he ha hn; rewrite ops_ofE.
have [s1 [p1 w1 l1 f1]] := perform_makedirs w hv he ha.
have [s2 [p2 w2 l2 f2]] := write_files k w1 l1 hn.
exists s2; split=> //; last by move=> q a; rewrite f2 // f1.
rewrite [take _ _]/= -[foldM _ _ _]/(let! s' := perform s (Makedirs out_dir) in
  foldM perform s' (take k (flatten (map file_ops ff)))).
by rewrite p1.
Qed.

Lemma size_ops ff : size (ops_of [:: ("Metitarski"%string, ff)]) = (size ff).*2.+1.
Proof. by rewrite ops_ofE /=; congr _.+1; elim: ff => //= f ff ->. Qed.

(** The new directory after [i] of the changes. *)
Fixpoint partial_list ff (i : nat) : seq (string * node content) :=
  match ff, i with
  | [::], _ | _, 0 => [::]
  | f :: _, 1 => [:: ((ent f).1, File Partial)]
  | f :: ff', i'.+2 => ent f :: partial_list ff' i'
  end.

Definition fold_names ff : seq string := [seq fold (ent f).1 | f <- ff].

Lemma partial_fill_list a ff i : uniq (fold_names ff) ->
  ~~ has (fun f => has (fun e => same (ent f).1 e.1) a) ff ->
  partial_fill a ff i = a ++ partial_list ff i.
Proof.
elim: ff a i => [|f ff IH] a i; first by case: i => [|i] _ _; rewrite cats0.
rewrite /fold_names /= negb_or => /andP[n u] /andP[na nh].
case: i => [|[|i]]; first by rewrite cats0.
  by rewrite -[a in LHS]cats0 set_entry_cat.
rewrite -[X in set_entry _ X]cats0 set_entry_cat //= IH //; first by rewrite -catA.
move: nh n => {IH na u}; elim: ff => // g ff IH.
rewrite /fold_names [has _ _]/= [has _ (_ :: _)]/= [map _ _]/= !negb_or.
move=> /andP[n1 n2] /andP[n3 n4]; rewrite IH // andbT has_cat negb_or n1 /= orbF.
by rewrite /FileSys.same eq_sym.
Qed.

Lemma partial_fill_new ff i : uniq (fold_names ff) -> partial_fill [::] ff i = partial_list ff i.
Proof. by move=> u; rewrite partial_fill_list // -all_predC; elim: (ff). Qed.

Lemma partial_list_names ff i :
  map fst (partial_list ff i) = take (size (partial_list ff i)) (map fst (map ent ff)).
Proof. by elim: ff i => [|f ff IH] [|[|i]] //=; rewrite ?take0 // -IH. Qed.

Lemma partial_list_size ff i : size (partial_list ff i) <= size ff.
Proof. by elim: ff i => [|f ff IH] [|[|i]] //=; rewrite ltnS. Qed.

(** Writing again over an interrupted run. *)
Lemma refill ff i : uniq (fold_names ff) ->
  foldl (fun es e => set_entry fold es e.1 e.2) (partial_list ff i) (map ent ff) = map ent ff.
Proof.
move=> u; rewrite -[partial_list ff i]cat0s fill_prefix.
- by rewrite drop_oversize ?cats0 // size_map partial_list_size.
- by rewrite -map_comp.
- by rewrite -all_predC; elim: (map _ _).
- exact: partial_list_names.
Qed.

Lemma partial_list_all ff i : (size ff).*2 <= i -> partial_list ff i = map ent ff.
Proof.
elim: ff i => [|f ff IH] i; first by case: i.
by rewrite [size _]/= doubleS; case: i => [|[|i]] // h; rewrite /= IH.
Qed.

(** A directory with files only. *)
Lemma wlist_flat (l : seq (string * content)) :
  wlist (Dir [seq (e.1, File e.2) | e <- l]) = [seq ([:: e.1], e.2) | e <- l].
Proof.
rewrite /= -[RHS]cats0; congr (_ ++ _); first by elim: l => //= -[k c] l ->.
by elim: l.
Qed.

Definition partial_files ff (i : nat) : seq (string * content) :=
  [seq ((f.1 ++ ".pkl")%string, Pickle f.2) | f <- take i./2 ff] ++
  (if odd i then if drop i./2 ff is f :: _ then [:: ((f.1 ++ ".pkl")%string, Partial)] else [::] else [::]).

Lemma partial_listE ff i : partial_list ff i = [seq (e.1, File e.2) | e <- partial_files ff i].
Proof.
suff H n : forall i, i < n -> forall ff, partial_list ff i = [seq (e.1, File e.2) | e <- partial_files ff i].
  exact: (H i.+1).
elim: n => // n IH {}i li {}ff; case: ff => [|f ff]; first by case: i li => [|i] _; rewrite /partial_files /=; case: odd.
case: i li => [|[|i]] li //; rewrite /= IH; last by lia.
by rewrite /partial_files /= negbK.
Qed.

Lemma fill_new (K : eqType) (V : Type) (d l : dict K V) : uniq (map fst (d ++ l)) -> fill d l = d ++ l.
Proof.
elim: l d => [|[k v] l IH] d; first by rewrite cats0.
rewrite /fill /= -/(fill _ l) => u.
have -> : dset d k v = rcons d (k, v).
  have : k \notin map fst d.
    by move: u; rewrite map_cat cat_uniq /= => /and3P[_ /norP[]].
  elim: d {u} => //= -[k1 v1] d IHd; rewrite inE negb_or => /andP[/negbTE -> /IHd ->] //.
by rewrite IH cat_rcons.
Qed.

Lemma unpickle_partial s ff i : wf fold s -> look s out_dir = Some (Dir (partial_list ff i)) ->
  uniq (fold_names ff) ->
  unpickle_from_dir fold load_text s out_dir =
    if odd i && (i./2 < size ff) then Err EOFError
    else Ok [seq ((f.1 ++ ".pkl")%string, f.2) | f <- take i./2 ff].
Proof.
move=> w e u; rewrite (unpickle_loop _ w e) partial_listE wlist_flat.
have u' : uniq [seq (f.1 ++ ".pkl")%string | f <- take i./2 ff].
  have : uniq (fold_names (take i./2 ff)).
    by move: u; rewrite /fold_names -{1}(cat_take_drop i./2 ff) map_cat cat_uniq => /andP[].
  rewrite /fold_names (map_comp fold (fun f : string * examples term => (f.1 ++ ".pkl")%string)).
  exact: map_uniq.
have mE (l : seq (string * examples term)) (t : seq (string * content)) :
    mapM (fun pc => let! o := load load_text pc.2 in Ok (base pc.1, o))
      [seq ([:: e.1], e.2) | e <- [seq ((f.1 ++ ".pkl")%string, Pickle f.2) | f <- l] ++ t] =
    let! r := mapM (fun pc => let! o := load load_text pc.2 in Ok (base pc.1, o))
      [seq ([:: e.1], e.2) | e <- t] in
    Ok ([seq ((f.1 ++ ".pkl")%string, f.2) | f <- l] ++ r).
  by elim: l => /= [|f l ->]; case: (mapM _ _).
rewrite /partial_files mE.
have fE : fill [::] [seq ((f.1 ++ ".pkl")%string, f.2) | f <- take i./2 ff] =
   [seq ((f.1 ++ ".pkl")%string, f.2) | f <- take i./2 ff] :> dict string_eqType _.
  by rewrite fill_new //= -map_comp.
case: (odd i) => /=; last by rewrite cats0 fE.
case ed: (drop i./2 ff) => [|f l] /=.
  have -> : i./2 < size ff = false.
    apply/negbTE; rewrite -leqNgt; have := congr1 size ed; rewrite size_drop /= => /eqP.
    by rewrite subn_eq0.
  by rewrite /= cats0 fE.
have -> // : i./2 < size ff.
have := congr1 size ed; rewrite size_drop /=; lia.
Qed.
End Write.
