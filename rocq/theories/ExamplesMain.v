(** The main facts about vts/examples_parser.py: what is read back after
    writing, after an interruption, and what the checker sees. *)
From Coq Require Import String Ascii.
From mathcomp Require Import all_ssreflect all_algebra.
From mathcomp.zify Require Import zify.
From Verif Require Import Py CheckerModel GParserModel GParserSpec.
From Verif Require Import FileSys ExamplesSpec FileFacts ExamplesModel ExamplesFacts ExamplesWrite.

Set Implicit Arguments.
Unset Strict Implicit.
Unset Printing Implicit Defensive.

Section Main.
Variable fold : string -> string.
Variable dump : examples term -> text.
Variable load_text : text -> res (examples term).
Variables (simp expand : term -> term) (var_set : seq string -> seq string).
Variable mk : cls -> term -> term -> formula term.
Implicit Types (s : fs) (ff : dict string_eqType (examples term)).

Notation look := (look fold).
Notation same := (same fold).
Notation preformat := (examples_preformat_uni fold dump simp expand var_set mk).
Notation write := (write_examples fold dump simp expand var_set mk).
Notation unpickle_from_dir := (unpickle_from_dir fold load_text).
Notation unpickle_dirs := (unpickle_dirs fold load_text).

Lemma dset_uniq (V : Type) (d : dict string_eqType V) k v :
  uniq (map fst d) -> uniq (map fst (dset d k v)).
Proof.
elim: d => [|[k1 v1] d IH] //= /andP[n u].
case: eqVneq => [_|ne] /=; first by rewrite n.
rewrite IH // andbT; apply: contra n => {IH u}.
elim: d => [|[k2 v2] d IH] /=; first by rewrite inE eq_sym (negbTE ne).
case: eqVneq => [_|_] /=; rewrite !inE //.
by case/orP=> [->//|/IH ->]; rewrite orbT.
Qed.

Lemma foldM_inv (A B : Type) (P : A -> Prop) (f : A -> B -> res A) l a r :
  (forall a x a', P a -> f a x = Ok a' -> P a') -> P a -> foldM f a l = Ok r -> P r.
Proof.
move=> h; elim: l a => [|x l IH] a pa /=; first by case=> <-.
by case e: (f a x) => [a'|//] /=; apply: IH; exact: h e.
Qed.

Lemma parse_uniq s dir st r : parse_files_from_dir fold dump s dir st = Ok r -> uniq (map fst r.1).
Proof.
apply: (@foldM_inv _ _ (fun a : dict string_eqType (seq sequent) * bool => is_true (uniq (map fst a.1)))) => //.
move=> a pf a' u; case: (get _ _ _) => // c; rewrite bind_ok; cbv zeta.
case: (scan (size _).+1 _ _) => // x; rewrite bind_ok => -[<-]; exact: dset_uniq.
Qed.

Lemma mapM_keys (K A B : Type) (f : A -> res B) (l : seq (K * A)) r :
  mapM (fun x => let! y := f x.2 in Ok (x.1, y)) l = Ok r -> map fst r = map fst l.
Proof.
elim: l r => [|[k a] l IH] r /=; first by case=> <-.
case: (f a) => //= b; case e: (mapM _ l) => [r'|//] /= [<-] /=; by rewrite (IH r').
Qed.

Lemma preformat_shape s d : preformat s = Ok d ->
  exists2 ff, d = [:: ("Metitarski"%string, ff)] & uniq (map fst ff).
Proof.
rewrite /examples_preformat_uni /parse_example_dirs.
case e: (parse_files_from_dir _ _ _ _ _) => [r|//]; rewrite !bind_ok /=.
case em: (mapM _ r.1) => [ff|//] /= [<-]; exists ff => //.
by rewrite (mapM_keys em); exact: parse_uniq e.
Qed.

Lemma dmem_fst (V : Type) (d : dict string_eqType V) k : dmem d k = (k \in map fst d).
Proof. by elim: d => //= -[k1 v1] d IH; rewrite inE -IH; case: eqVneq. Qed.

Lemma names_uniq ff : uniq (map fst ff) -> names_differ fold ff -> uniq (fold_names fold ff).
Proof.
rewrite /fold_names /names_differ; elim: ff => //= -[f v] ff IH /= /andP[n u] h.
rewrite IH // ?andbT; last first.
  by move=> f1 g1 d1 d2; apply: h; rewrite dmem_fst inE -dmem_fst ?d1 ?d2 orbT.
apply/negP => i.
have [g [ig eg]] : exists g, g \in map fst ff /\ fold (f ++ ".pkl")%string = fold (g ++ ".pkl")%string.
  elim: ff i {IH n u h} => //= -[g w] ff IH; rewrite inE => /orP[/eqP e|/IH[g' [i e]]].
    by exists g; rewrite inE eqxx.
  by exists g'; rewrite inE i orbT.
case/negP: n; rewrite (h f g) ?dmem_fst ?inE ?eqxx ?ig ?orbT //.
by apply/eqP.
Qed.

(** ** The written dictionary *)
Definition with_pkl ff : dict string_eqType (examples term) := [seq ((f.1 ++ ".pkl")%string, f.2) | f <- ff].

Lemma with_pkl_of ff : pickles_of ff (with_pkl ff).
Proof.
split=> [f v|k]; last first.
  rewrite dmem_fst; elim: ff => //= -[g w] ff IH; rewrite inE => /orP[/eqP ->|/IH //].
  by exists g.
rewrite /with_pkl; elim: ff => //= -[g w] ff IH /=.
case: (eqVneq f g) => [->|ne]; first by rewrite eqxx.
case: eqVneq => [/app_cancel e|_]; last exact: IH.
by rewrite e eqxx in ne.
Qed.

Lemma look_same p q s : map fold p = map fold q -> look s p = look s q.
Proof.
elim: p q s => [|k p IH] [|j q] s //= [e1 e2]; case: s => // es.
rewrite (@entry_same _ fold es k j); last by apply/eqP.
by case: (entry _ _ _) => // m; exact: IH.
Qed.

Lemma unpickle_look s d d' : wf fold s -> look s d = look s d' ->
  unpickle_from_dir s d = unpickle_from_dir s d'.
Proof.
move=> w e; case e1: (look s d') e => [n|] e.
  by rewrite (unpickle_loop _ w e) (unpickle_loop _ w e1).
by rewrite (unpickle_none _ e) (unpickle_none _ e1).
Qed.

Lemma apart_in : ~~ same "vts" "GRF" -> FileFacts.apart fold out_dir in_dir.
Proof. by rewrite /FileSys.same => /negbTE h; split=> /=; rewrite ?[_ == fold "vts"]eq_sym h. Qed.

Lemma apart_hid : ~~ same "Metitarski" "HidingProblems" -> FileFacts.apart fold out_dir hid_dir.
Proof.
rewrite /FileSys.same => /negbTE h; split=> /=; rewrite !eqxx /=; last rewrite eq_sym; by rewrite h.
Qed.

Lemma apart_met : ~~ same "Metitarski" "MetiTarski" -> FileFacts.apart fold out_dir met_dir.
Proof.
rewrite /FileSys.same => /negbTE h; split=> /=; rewrite !eqxx /=; last rewrite eq_sym; by rewrite h.
Qed.

(** ** Writing into a directory that may exist *)
Lemma write_into s es ff : wf fold s -> writable fold s -> preformat s = Ok [:: ("Metitarski"%string, ff)] ->
  entries_at fold s out_dir es -> no_dirs fold es ff ->
  exists s', [/\ write None s = Ok s', wf fold s',
    look s' out_dir = Some (Dir (foldl (fun es e => set_entry fold es e.1 e.2) es (map ent ff))) &
    forall q, FileFacts.apart fold out_dir q -> look s' q = look s q].
Proof.
move=> w [[ev hv] hx] hp ha hn.
have [s' [h1 h2 h3 h4]] := write_run (size ff).*2 w hv hx ha hn.
exists s'; split=> //.
  by rewrite /write_examples hp bind_ok; rewrite take_oversize // size_ops in h1.
by rewrite h3 partial_fill_all.
Qed.

Lemma write_some s es ff k : wf fold s -> writable fold s ->
  preformat s = Ok [:: ("Metitarski"%string, ff)] ->
  entries_at fold s out_dir es -> no_dirs fold es ff ->
  exists s', [/\ write (Some k.+1) s = Ok s', wf fold s',
    look s' out_dir = Some (Dir (partial_fill fold es ff k)) &
    forall q, FileFacts.apart fold out_dir q -> look s' q = look s q].
Proof.
move=> w [[ev hv] hx] hp ha hn.
have [s' [h1 h2 h3 h4]] := write_run k w hv hx ha hn.
by exists s'; split=> //; rewrite /write_examples hp bind_ok.
Qed.

Lemma writable_after s s' es : writable fold s -> look s' out_dir = Some (Dir es) -> writable fold s'.
Proof.
move=> _; rewrite /out_dir /writable /ex_dir /=; case: s' => // l1.
case: (entry _ _ _) => // -[//|l2] /=; case: (entry _ _ _) => // -[//|l3] /= _.
by split; [exists l2|].
Qed.

Lemma round_dict s ff : wf fold s -> look s out_dir = Some (Dir (map ent ff)) ->
  uniq (fold_names fold ff) -> unpickle_from_dir s out_dir = Ok (with_pkl ff).
Proof.
move=> w e u; rewrite -(partial_list_all (leqnn _)) in e.
rewrite (unpickle_partial _ w e u) odd_double /= doubleK take_size //.
Qed.

Lemma clear_entries s ff : clear_way fold s ff ->
  exists2 es, entries_at fold s out_dir es & no_dirs fold es ff.
Proof.
move=> [h1 h2]; case e: (look s out_dir) => [[c|es]|]; first by case: (h1 c).
  exists es; first by left.
  move=> f es' i eE; apply: (h2 f.1 es').
    by rewrite dmem_fst; apply: (@fst_in _ _ _ f.2); case: f i {eE}.
  by rewrite look_rcons e.
by exists [::]; [right|].
Qed.

Lemma no_dirs_nil ff : no_dirs fold [::] ff.
Proof. by []. Qed.

Lemma fill_ent ff : uniq (fold_names fold ff) ->
  foldl (fun es e => set_entry fold es e.1 e.2) [::] (map ent ff) = map ent ff.
Proof. by move=> u; apply: fill_fresh; rewrite -map_comp. Qed.

Theorem every_file_read s es (want : fpath -> seq sequent) : wf fold s ->
  look s in_dir = Some (Dir es) -> distinct_names (Dir es) ->
  (forall q c, has_file (Dir es) q c -> exists t, [/\ c = Text t, file_text (want q) t &
     ~~ has (sequent_mentions "sympy") (want q)]) ->
  exists2 d, parse_example_dirs fold dump s = Ok [:: ("Metitarski"%string, d)] &
  forall f qs, dget d f = Ok qs <-> exists q c, [/\ has_file (Dir es) q c, base q = f & qs = want q].
Proof.
move=> w e dn h; have [r [st [h1 h2]]] := parse_all dump w e dn h.
by exists r => //; rewrite /parse_example_dirs -/in_dir h1.
Qed.

Theorem missing_directory s : look s in_dir = None ->
  parse_example_dirs fold dump s = Ok [:: ("Metitarski"%string, [::])].
Proof. by move=> e; rewrite /parse_example_dirs -/in_dir (parse_none dump true e). Qed.

Theorem round_trip s ff : wf fold s -> writable fold s -> look s out_dir = None ->
  preformat s = Ok [:: ("Metitarski"%string, ff)] -> names_differ fold ff ->
  exists s' r, [/\ write None s = Ok s', unpickle_from_dir s' out_dir = Ok r & pickles_of ff r].
Proof.
move=> w wr no hp nd; have [ff' [e] u] := preformat_shape hp; rewrite -{ff'}e in u.
have un := names_uniq u nd.
have [s' [h1 h2 h3 h4]] := write_into w wr hp (or_intror (conj no erefl)) (@no_dirs_nil ff).
rewrite fill_ent // in h3.
exists s', (with_pkl ff); split=> //; [exact: round_dict|exact: with_pkl_of].
Qed.

Theorem round_trip_dirs s ff h : wf fold s -> writable fold s -> look s out_dir = None ->
  preformat s = Ok [:: ("Metitarski"%string, ff)] -> names_differ fold ff ->
  case_ignored fold -> other_names fold -> unpickle_from_dir s hid_dir = Ok h ->
  exists s' r, [/\ write None s = Ok s', pickles_of ff r &
    unpickle_dirs s' = Ok [:: ("Metitarski"%string, r); ("HidingProblems"%string, h)]].
Proof.
move=> w wr no hp nd ci [oh _] eh; have [ff' [e] u] := preformat_shape hp; rewrite -{ff'}e in u.
have un := names_uniq u nd.
have [s' [h1 h2 h3 h4]] := write_into w wr hp (or_intror (conj no erefl)) (@no_dirs_nil ff).
rewrite fill_ent // in h3.
exists s', (with_pkl ff); split=> //; first exact: with_pkl_of.
rewrite /ExamplesModel.unpickle_dirs.
have -> : unpickle_from_dir s' met_dir = unpickle_from_dir s' out_dir.
  apply: unpickle_look => //; apply: look_same; rewrite /=; congr [:: _; _; _].
  by apply/esym/eqP.
rewrite (round_dict h2 h3 un) bind_ok.
rewrite (@unpickle_local fold load_text s' s hid_dir h2 w) ?eh //.
by apply: h4; exact: apart_hid.
Qed.

Theorem not_found s ff h : wf fold s -> writable fold s ->
  preformat s = Ok [:: ("Metitarski"%string, ff)] -> clear_way fold s ff ->
  look s met_dir = None -> case_matters fold -> other_names fold ->
  unpickle_from_dir s hid_dir = Ok h ->
  exists2 s', write None s = Ok s' &
    unpickle_dirs s' = Ok [:: ("Metitarski"%string, [::]); ("HidingProblems"%string, h)].
Proof.
move=> w wr hp /clear_entries[es ha hn] no ci [oh _] eh.
have [s' [h1 h2 h3 h4]] := write_into w wr hp ha hn.
exists s' => //; rewrite /ExamplesModel.unpickle_dirs.
rewrite unpickle_none ?bind_ok; last by rewrite h4 //; exact: apart_met.
rewrite (@unpickle_local fold load_text s' s hid_dir h2 w) ?eh //.
by apply: h4; exact: apart_hid.
Qed.

(** ** Interruptions *)
Theorem interrupted s ff k : wf fold s -> writable fold s -> look s out_dir = None ->
  preformat s = Ok [:: ("Metitarski"%string, ff)] -> names_differ fold ff ->
  exists2 s', write (Some k) s = Ok s' &
    if ~~ odd k && (0 < k) && (k.-1./2 < size ff)
    then unpickle_from_dir s' out_dir = Err EOFError
    else exists2 r, unpickle_from_dir s' out_dir = Ok r & pickles_of (take k.-1./2 ff) r.
Proof.
move=> w wr no hp nd; have [ff' [e] u] := preformat_shape hp; rewrite -{ff'}e in u.
have un := names_uniq u nd.
case: k => [|k].
  exists s; first by rewrite /write_examples hp bind_ok.
  by exists [::]; [rewrite unpickle_none|have := with_pkl_of (take 0 ff); rewrite take0].
have [s' [h1 h2 h3 h4]] := write_some k w wr hp (or_intror (conj no erefl)) (@no_dirs_nil ff).
rewrite partial_fill_new // in h3.
exists s' => //; have := unpickle_partial load_text h2 h3 un.
rewrite /= negbK andbT; case: ifP => // _ uE; exists (with_pkl (take k./2 ff)) => //; exact: with_pkl_of.
Qed.

Theorem recovered s ff k : wf fold s -> writable fold s -> look s out_dir = None ->
  preformat s = Ok [:: ("Metitarski"%string, ff)] -> names_differ fold ff -> ~~ same "vts" "GRF" ->
  exists s1 s2 r, [/\ write (Some k) s = Ok s1, write None s1 = Ok s2,
    unpickle_from_dir s2 out_dir = Ok r & pickles_of ff r].
Proof.
move=> w wr no hp nd vg; have [ff' [e] u] := preformat_shape hp; rewrite -{ff'}e in u.
have un := names_uniq u nd.
case: k => [|k].
  have [s' [r [h1 h2 h3]]] := round_trip w wr no hp nd.
  exists s, s', r; split=> //; by rewrite /write_examples hp bind_ok.
have [s1 [h1 h2 h3 h4]] := write_some k w wr hp (or_intror (conj no erefl)) (@no_dirs_nil ff).
rewrite partial_fill_new // in h3.
have hp1 : preformat s1 = Ok [:: ("Metitarski"%string, ff)].
  rewrite -hp /examples_preformat_uni /parse_example_dirs.
  rewrite (@parse_local fold dump s1 s in_dir true h2 w) //.
  by apply: h4; exact: apart_in.
have nd1 : no_dirs fold (partial_list ff k) ff.
  move=> f es' _ /entry_in[k' + _]; rewrite partial_listE => /List.in_map_iff[[k2 c] [//]].
have [s2 [g1 g2 g3 g4]] := write_into h2 (writable_after wr h3) hp1 (or_introl h3) nd1.
rewrite refill // in g3.
exists s1, s2, (with_pkl ff); split=> //; [exact: round_dict|exact: with_pkl_of].
Qed.

(** ** Old files *)
Theorem old_stays s ff k m : wf fold s -> writable fold s ->
  preformat s = Ok [:: ("Metitarski"%string, ff)] -> clear_way fold s ff ->
  look s (rcons out_dir k) = Some m -> (forall f, dmem ff f -> ~~ same k (f ++ ".pkl")%string) ->
  exists2 s', write None s = Ok s' & look s' (rcons out_dir k) = Some m.
Proof.
move=> w wr hp /clear_entries[es ha hn] ek ne.
have [s' [h1 h2 h3 h4]] := write_into w wr hp ha hn.
have {}ek : entry fold es k = Some m.
  by move: ek; rewrite look_rcons; case: ha => [->|[->]].
exists s' => //; rewrite look_rcons h3.
elim: ff es ek ne {hp ha hn s' h1 h2 h3 h4} => //= -[f v] ff IH es ek ne; apply: IH.
  by rewrite entry_set (negbTE (ne f _)) // dmem_fst inE eqxx.
by move=> g; rewrite dmem_fst => i; apply: ne; rewrite dmem_fst inE i orbT.
Qed.

Theorem each_written s ff f v : wf fold s -> writable fold s ->
  preformat s = Ok [:: ("Metitarski"%string, ff)] -> clear_way fold s ff -> names_differ fold ff ->
  dget ff f = Ok v ->
  exists2 s', write None s = Ok s' &
    look s' (rcons out_dir (f ++ ".pkl")%string) = Some (File (Pickle v)).
Proof.
move=> w wr hp /clear_entries[es ha hn] nd gf.
have [ff' [e] u] := preformat_shape hp; rewrite -{ff'}e in u.
have [s' [h1 h2 h3 h4]] := write_into w wr hp ha hn.
exists s' => //; rewrite look_rcons h3.
elim: ff es nd gf u {hp ha hn s' h1 h2 h3 h4} => //= -[g x] ff IH es nd gf /= /andP[n u].
case: (eqVneq f g) gf => [-> [->]|ne gf].
  have {}n : forall f, dmem ff f -> ~~ same (g ++ ".pkl")%string (f ++ ".pkl")%string.
    move=> f' d; apply: contra n => s'; rewrite (nd g f') -?dmem_fst //.
      by rewrite dmem_fst inE eqxx.
    by rewrite dmem_fst inE -dmem_fst d orbT.
  have : entry fold (set_entry fold es (g ++ ".pkl")%string (File (Pickle v))) (g ++ ".pkl")%string =
    Some (File (Pickle v)) by rewrite entry_set same_refl.
  move: (set_entry fold es _ _) => es1; elim: ff es1 n {IH nd u} => //= -[h z] ff IH es1 n e; apply: IH.
    by move=> f' d; apply: n; rewrite dmem_fst inE -dmem_fst d orbT.
  by rewrite entry_set (negbTE (n h _)) // dmem_fst inE eqxx.
apply: IH => //.
by move=> f1 f2 d1 d2; apply: nd; rewrite dmem_fst inE -dmem_fst ?d1 ?d2 orbT.
Qed.
(** A file in the way. *)
Lemma upd_file (f : option fs -> res fs) s p c k q : look s p = Some (File c) ->
  upd fold f s (p ++ k :: q) = Err ENOTDIR.
Proof.
elim: p s => [|x p IH] s /=; first by move=> [->].
by case: s => // es; case: (entry _ _ _) => // m /IH ->.
Qed.

Lemma mkdir_exists s p m : look s p = Some m -> mkdir fold s p = Err EEXIST.
Proof.
rewrite /mkdir; elim: p s => [|x p IH] s //=.
by case: s => // es; case: (entry _ _ _) => // m' /IH ->.
Qed.

Lemma blocked_parent s ff c : preformat s = Ok [:: ("Metitarski"%string, ff)] ->
  look s ex_dir = Some (File c) -> write None s = Err ENOTDIR.
Proof.
move=> hp ee; rewrite /write_examples hp bind_ok /ops_of [flatten _]/= [foldM _ _ _]/=.
have -> : makedirs fold s out_dir = mkdir fold s out_dir.
  rewrite (_ : makedirs fold s out_dir =
      let! n' := (if (if look s ex_dir is Some _ then true else false) then Ok s else
         unless_exists s (makedirs_rev fold s [:: "Examples"; "vts"]%string)) in mkdir fold n' out_dir) //.
  by rewrite ee.
by rewrite /mkdir (@upd_file _ s ex_dir c "Metitarski" [::] ee).
Qed.

Lemma blocked_directory s ff c : preformat s = Ok [:: ("Metitarski"%string, ff)] ->
  look s out_dir = Some (File c) -> write None s = if ff is [::] then Ok s else Err ENOTDIR.
Proof.
move=> hp ee; rewrite /write_examples hp bind_ok /ops_of [flatten _]/= [foldM _ _ _]/=.
have ex : (if look s ex_dir is Some _ then true else false) = true.
  by have := look_rcons fold s ex_dir "Metitarski"; rewrite -[rcons _ _]/out_dir ee; case: (look s ex_dir).
have -> : makedirs fold s out_dir = mkdir fold s out_dir.
  rewrite (_ : makedirs fold s out_dir =
      let! n' := (if (if look s ex_dir is Some _ then true else false) then Ok s else
         unless_exists s (makedirs_rev fold s [:: "Examples"; "vts"]%string)) in mkdir fold n' out_dir) //.
  by rewrite ex.
rewrite (mkdir_exists ee) /= ; case: ff hp => [//|f ff] _ /=.
by rewrite /put (@upd_file _ s out_dir c _ [::] ee).
Qed.
End Main.
