(** Facts about the file system. *)
From Coq Require Import String.
From mathcomp Require Import all_ssreflect.
From Verif Require Import Py FileSys ExamplesSpec.

Set Implicit Arguments.
Unset Strict Implicit.
Unset Printing Implicit Defensive.

Section Facts.
Variables (C : Type) (fold : string -> string).
Implicit Types (n m : node C) (es : seq (string * node C)) (p q : fpath) (k : string).

Notation look := (look fold).
Notation entry := (entry fold).
Notation set_entry := (set_entry fold).
Notation same := (same fold).
Notation wf := (wf fold).

Lemma same_refl k : same k k. Proof. exact: eqxx. Qed.
Lemma same_sym k k' : same k k' = same k' k. Proof. exact: eq_sym. Qed.
Lemma same_trans k k' k'' : same k k' -> same k' k'' -> same k k''.
Proof. by rewrite /FileSys.same => /eqP ->. Qed.
Lemma same_left k k' k'' : same k k' -> same k k'' = same k' k''.
Proof. by rewrite /FileSys.same => /eqP ->. Qed.

Lemma entry_in es k m : entry es k = Some m -> exists2 k', List.In (k', m) es & same k k'.
Proof.
elim: es => //= -[k1 m1] es IH; case: ifP => [s [<-]|_ /IH[k' i s]]; first by exists k1; [left|].
by exists k'; [right|].
Qed.

Lemma in_fold_mem k m es : List.In (k, m) es -> fold k \in [seq fold e.1 | e <- es].
Proof.
elim: es => //= -[k1 m1] es IH [[-> _]|/IH i]; first by rewrite in_cons eqxx.
by rewrite in_cons i orbT.
Qed.

Lemma in_entry es k m : uniq [seq fold e.1 | e <- es] -> List.In (k, m) es -> entry es k = Some m.
Proof.
elim: es => //= -[k1 m1] es IH /andP[n u] [[<- <-]|i]; first by rewrite same_refl.
case: ifP => [|_]; last exact: IH.
by rewrite /FileSys.same => /eqP s; move: n; rewrite /= -s (in_fold_mem i).
Qed.

Lemma entry_same es k k' : same k k' -> entry es k = entry es k'.
Proof. by move=> s; elim: es => //= -[k1 m1] es ->; rewrite (same_left _ s). Qed.

Lemma entry_set es k m k' :
  entry (set_entry es k m) k' = if same k' k then Some m else entry es k'.
Proof.
elim: es => //= -[k1 m1] es IH.
case: ifP => s /=.
  by rewrite (same_sym k' k) (same_left k' s) (same_sym k1 k'); case: ifP.
rewrite {}IH; case: (boolP (same k' k)) => [e|ne] //.
by rewrite (same_left _ e) s.
Qed.

Lemma set_entry_mem es k m k' m' : List.In (k', m') (set_entry es k m) ->
  List.In (k', m') es \/ (m' = m /\ same k k').
Proof.
elim: es => [|[k1 m1] es IH] /=; first by case=> [[-> ->]|//]; right; split=> //; exact: same_refl.
case: ifP => s /= [[e1 e2]|i]; try by [left; left|left; right].
- by right; subst.
- by left; left; congr (_, _).
- by case: (IH i); [left; right|right].
Qed.

Lemma set_entry_uniq es k m :
  uniq [seq fold e.1 | e <- es] -> uniq [seq fold e.1 | e <- set_entry es k m].
Proof.
elim: es => [|[k1 m1] es IH] //= /andP[n u]; case: ifP => s /=; first by rewrite n.
rewrite IH // andbT; apply: contra n => {IH u}.
elim: es => [|[k2 m2] es IH] /=.
  by rewrite inE => /eqP e; move: s; rewrite /FileSys.same e eqxx.
by case: ifP => s2 /=; rewrite !inE => // /orP[->//|/IH ->]; rewrite orbT.
Qed.

Lemma set_entry_new es k m : entry es k = None -> set_entry es k m = rcons es (k, m).
Proof. by elim: es => //= -[k1 m1] es IH; case: ifP => // _ /IH ->. Qed.

(** ** Lookup *)

Lemma look_cat n p q m : look n p = Some m -> look n (p ++ q) = look m q.
Proof.
elim: p n => [|k p IH] n /=; first by case=> ->.
by case: n => // es; case: (entry es k) => // m1; exact: IH.
Qed.

Lemma look_none n p q : look n p = None -> look n (p ++ q) = None.
Proof.
elim: p n => [|k p IH] n //=.
by case: n => // es; case: (entry es k) => // m1; exact: IH.
Qed.

Lemma look_rcons n p k : look n (rcons p k) =
  if look n p is Some (Dir es) then entry es k else None.
Proof.
rewrite -cats1; case e: (look n p) => [m|]; last exact: look_none.
rewrite (look_cat _ e); case: m {e} => //= es.
by case: (entry es k).
Qed.

Lemma at_path_look n p m : wf n -> at_path n p m -> look n p = Some m.
Proof.
move=> + a; elim: a => {n p m} [//|es k m q n i a IH] w /=.
by inversion w as [|? u h]; subst; rewrite (in_entry u i) IH //; exact: h i.
Qed.

Lemma at_path_wf n p m : wf n -> at_path n p m -> wf m.
Proof.
move=> + a; elim: a => {n p m} [//|es k m q n i a IH] w.
by inversion w as [|? u h]; subst; apply: IH; exact: h i.
Qed.

Lemma look_wf n p m : wf n -> look n p = Some m -> wf m.
Proof.
elim: p n => [|k p IH] n w /=; first by case=> <-.
case: n w => // es w; case e: (entry es k) => [m1|//]; apply: IH.
have [k' i _] := entry_in e.
by inversion w as [|? u h]; subst; exact: h i.
Qed.

Lemma has_file_at n q c : has_file n q c <-> at_path n q (File c).
Proof.
split; first by elim=> {n q c} [c|es k m q c i h a]; [exact: AtHere|exact: AtBelow i a].
move=> a; remember (File c) as f eqn: e; elim: a e => {n q f} [n ->|es k m q n i a IH /IH h].
  exact: HereFile.
exact: BelowDir i h.
Qed.

Lemma has_file_look n q c : wf n -> has_file n q c -> look n q = Some (File c).
Proof. by move=> w /has_file_at a; exact: at_path_look. Qed.

(** ** Updates *)

Definition apart p q : Prop :=
  ~~ prefix (map fold p) (map fold q) /\ ~~ prefix (map fold q) (map fold p).

(** A leaf in an existing directory changes. *)
Lemma upd_leaf (f : option (node C) -> res (node C)) n d k es m :
  look n d = Some (Dir es) -> f (entry es k) = Ok m ->
  exists2 n', upd fold f n (rcons d k) = Ok n' &
    look n' d = Some (Dir (set_entry es k m)).
Proof.
elim: d n => [|j d IH] n /=.
  case=> -> /=; case e: (entry es k) => [m1|] /= ->; first by exists (Dir (set_entry es k m)).
  by exists (Dir (set_entry es k m)).
case: n => // es'; case e: (entry es' j) => [m1|] // h hf.
have [n' -> hl] := IH m1 h hf.
exists (Dir (set_entry es' j n')) => //.
by rewrite entry_set same_refl.
Qed.

Lemma upd_inv (f : option (node C) -> res (node C)) n d k n' :
  upd fold f n (rcons d k) = Ok n' ->
  exists es m, [/\ look n d = Some (Dir es), f (entry es k) = Ok m &
                   look n' d = Some (Dir (set_entry es k m))].
Proof.
elim: d n n' => [|j d IH] n n' /=.
  case: n => // es; case e: (entry es k) => [m1|] /=; case ef: (f _) => [m|//] /= [<-];
  by exists es, m; rewrite e.
case: n => // es'; case e: (entry es' j) => [m1|]; last by case: d {IH}.
case eu: (upd _ _ _ _) => [n1|] //= [<-].
have [es [m [h1 h2 h3]]] := IH _ _ eu.
by exists es, m; split=> //=; rewrite entry_set same_refl.
Qed.

(** Elsewhere nothing changes. *)
Lemma upd_other (f : option (node C) -> res (node C)) n p n' q :
  upd fold f n p = Ok n' -> apart p q -> look n' q = look n q.
Proof.
elim: p n n' q => [|k p IH] n n' q; first by move=> _ []; rewrite prefix0s.
case: q => [|j q]; first by move=> _ [_]; rewrite prefix0s.
move=> h [a1 a2]; move: h a1 a2 => /=.
case: n => // es; case e: (entry es k) => [m|].
  case eu: (upd _ _ _ _) => [m'|] //= [<-].
  rewrite eq_sym entry_set -[fold j == fold k]/(same j k).
  case: (boolP (same j k)) => /= [s|ns] a1 a2 //.
  by rewrite (entry_same _ s) e; apply: IH eu _.
case: p {IH} => // /=; case: (f None) => //= m' [<-].
rewrite prefix0s andbT eq_sym entry_set -[fold j == fold k]/(same j k).
by case: (same j k).
Qed.

Lemma upd_wf (f : option (node C) -> res (node C)) n p n' :
  (forall o m, f o = Ok m -> wf m) -> wf n -> upd fold f n p = Ok n' -> wf n'.
Proof.
move=> hf; elim: p n n' => [|k p IH] n n' w /=; first exact: hf.
case: n w => // es w; inversion w as [|? u h]; subst.
have step m : wf m -> wf (Dir (set_entry es k m)).
  move=> wm; apply: WfDir; first exact: set_entry_uniq.
  by move=> k' m' /set_entry_mem[/h|[-> _]].
case e: (entry es k) => [m|].
  case eu: (upd _ _ _ _) => [m'|] //= [<-]; apply: step.
  have [k' i _] := entry_in e.
  exact: IH (h _ _ i) eu.
by case: p {IH} => //; case ef: (f None) => [m'|] //= [<-]; apply: step; exact: hf ef.
Qed.
End Facts.
