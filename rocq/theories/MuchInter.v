(** The interactive assignments of highschool_qe/muchnik.py. *)
From Coq Require Import ZArith String.
From mathcomp Require Import all_ssreflect all_algebra all_real_closed.
From Verif Require Import Py VtsInst MuchModel MuchSpec MuchSeq MuchReal MuchInst MuchFull MuchEx MuchCFull MuchCEx.

Set Implicit Arguments.
Unset Strict Implicit.
Unset Printing Implicit Defensive.
Import GRing.Theory Num.Theory Order.TTheory.
Local Open Scope ring_scope.

(** ** Model. *)

(** [int(v)]; only the strings -1, 0 and 1 get here. *)
Definition pyint (v : string) : res int :=
  if String.eqb v "-1" then Ok (-1) else if String.eqb v "0" then Ok 0
  else if String.eqb v "1" then Ok 1 else Err (Exc "ValueError").

(** muchnik.py 81-87: _get_interactive_value, with the lines that are still to
    be read; [raw_input] raises EOFError at their end.  The prompts and the
    complaints are not modelled. *)
Fixpoint get_interactive_value (allowed inp : seq string) : res (int * seq string) :=
  match inp with
  | [::] => Err EOFError
  | v :: rest =>
      if ~~ List.existsb (String.eqb v) allowed then get_interactive_value allowed rest
      else let! n := pyint v in Ok (n, rest)
  end.

Section Model.
Variables (P : eqType) (K : realDomainType) (A : algebra P K).

(** muchnik.py 89-101: c_assignment_interactive. *)
Definition c_assignment_interactive (inp : seq string) (const_frag : seq P) :
    res (diagram P [eqType of nat] * seq string) :=
  foldM (fun st c =>
    if c == a_zero A then Ok (put st.1 c 0%N 0, st.2)
    else if a_has_variable A c then
      let! vi := get_interactive_value [:: "0"; "1"]%string st.2 in
      Ok (put st.1 c 0%N vi.1, vi.2)
    else Ok (put st.1 c 0%N 1, st.2)) ([::], inp) const_frag.

(** muchnik.py 176-188: r_assignment_interactive. *)
Definition r_assignment_interactive (inp : seq string) (const_frag : seq P) :
    res (diagram P [eqType of rat] * seq string) :=
  foldM (fun st c =>
    let! vi := (if a_has_variable A c then get_interactive_value [:: "-1"; "0"; "1"]%string st.2
                else Ok (a_sign A c, st.2)) in
    Ok (put (put (put st.1 c 0 vi.1) c (1 / 2%:R) vi.1) c 1 vi.1, vi.2)) ([::], inp) const_frag.

(** The assignments as arguments of the partial procedures, on the input
    [inp]. *)
Definition answering (C : eqType) (f : seq string -> seq P -> res (diagram P C * seq string)) inp cf :
    res (diagram P C) :=
  let! r := f inp cf in Ok r.1.
End Model.

(** ** Specification: the lines that count as answers. *)
Definition real_answer (v : string) : option int :=
  match v with "-1" => Some (-1) | "0" => Some 0 | "1" => Some 1 | _ => None end%string.
Definition complex_answer (v : string) : option int :=
  match v with "0" => Some 0 | "1" => Some 1 | _ => None end%string.

(** The lines [inp] are read up to the [n]-th answer, [rest] is not. *)
Definition reads_answers (answer : string -> option int) (n : nat) (inp rest : seq string) : Prop :=
  exists used, [/\ inp = used ++ rest, size (pmap answer used) = n &
    used <> [::] -> answer (last ""%string used)].

(** ** Proofs. *)
Lemma real_answerE v : real_answer v = if List.existsb (String.eqb v) [:: "-1"; "0"; "1"]%string
  then if pyint v is Ok n then Some n else None else None.
Proof.
rewrite /List.existsb /pyint.
have [->//|n1] := String.eqb_spec v "-1"; have [->//|n2] := String.eqb_spec v "0".
have [->//|n3] := String.eqb_spec v "1".
rewrite /real_answer; repeat match goal with |- context [match ?x with _ => _ end] => destruct x; try reflexivity end; congruence.
Qed.

Lemma complex_answerE v : complex_answer v = if List.existsb (String.eqb v) [:: "0"; "1"]%string
  then if pyint v is Ok n then Some n else None else None.
Proof.
rewrite /List.existsb /pyint.
have [->//|n2] := String.eqb_spec v "0"; have [->//|n3] := String.eqb_spec v "1".
rewrite /complex_answer; repeat match goal with |- context [match ?x with _ => _ end] => destruct x; try reflexivity end; congruence.
Qed.

Section Reading.
Variables (answer : string -> option int) (allowed : seq string).
Hypothesis answerE : forall v, answer v = if List.existsb (String.eqb v) allowed
  then if pyint v is Ok n then Some n else None else None.
Hypothesis ints : List.forallb (fun v => if pyint v is Ok _ then true else false) allowed.

Lemma value_none inp : pmap answer inp = [::] -> get_interactive_value allowed inp = Err EOFError.
Proof.
elim: inp => //= v inp IH; rewrite answerE; case Ea: (List.existsb _ _) => //=.
have [w [hw /String.eqb_eq E]] := proj1 (List.existsb_exists _ _) Ea; subst w.
by have := proj1 (List.forallb_forall _ _) ints v hw; case: (pyint v).
Qed.

Lemma value_some inp v vs : pmap answer inp = v :: vs -> exists rest,
  [/\ get_interactive_value allowed inp = Ok (v, rest), pmap answer rest = vs &
      reads_answers answer 1 inp rest].
Proof.
elim: inp => //= l inp IH; rewrite {1}answerE; case Ea: (List.existsb _ _) => /=.
  have [w [hw /String.eqb_eq E]] := proj1 (List.existsb_exists _ _) Ea; subst w.
  have := proj1 (List.forallb_forall _ _) ints l hw; case En: (pyint l) => [n|//] _ /= [<- <-].
  by exists inp; split=> //; exists [:: l]; rewrite /= answerE Ea En.
move/IH => [rest [h1 h2 [used [h3 h4 h5]]]]; exists rest; split=> //.
exists (l :: used); split=> [|/=|_]; first by rewrite h3.
  by rewrite answerE Ea.
by case: used h4 h5 {h3} => //= x u _; apply.
Qed.

Lemma reads_trans n m x y z : reads_answers answer n x y -> reads_answers answer m y z ->
  reads_answers answer (n + m) x z.
Proof.
move=> [u [-> <- h1]] [w [-> <- h2]]; exists (u ++ w); split; first by rewrite catA.
  by rewrite pmap_cat size_cat.
by rewrite last_cat; case: w h2 => [_|a w /= h _]; [rewrite cats0|exact: h].
Qed.

Lemma reads0 x : reads_answers answer 0 x x.
Proof. by exists [::]. Qed.

(** One loop for both: [f c] is asked for where [ask c], and known elsewhere. *)
Section Loop.
Variables (P C : eqType) (ask : pred P) (known : P -> int).
Variable set : diagram P C -> P -> int -> diagram P C.
Let step (st : diagram P C * seq string) c :=
  let! vi := (if ask c then get_interactive_value allowed st.2 else Ok (known c, st.2)) in
  Ok (set st.1 c vi.1, vi.2).

Lemma loop_short cf D inp : (size (pmap answer inp) < size (filter ask cf))%N ->
  foldM step (D, inp) cf = Err EOFError.
Proof.
elim: cf D inp => //= c cf IH D inp; rewrite /step /=; case: ifP => ac; last by rewrite bind_ok; exact: IH.
case Ea: (pmap answer inp) => [|v vs]; first by rewrite (value_none Ea).
by have [rest [-> Er _]] := value_some Ea; rewrite /= ltnS -Er; exact: IH.
Qed.

Lemma loop_long cf D inp f : uniq cf -> (size (filter ask cf) <= size (pmap answer inp))%N ->
  (forall q, q \in cf -> f q = if ask q then nth 0 (pmap answer inp) (index q (filter ask cf)) else known q) ->
  exists2 rest, foldM step (D, inp) cf = Ok (foldl (fun D c => set D c (f c)) D cf, rest) &
    reads_answers answer (size (filter ask cf)) inp rest.
Proof.
elim: cf D inp => [|c cf IH] D inp; first by exists inp => //; exact: reads0.
rewrite [uniq _]/= => /andP[nc uc] le fE; have := fE c (mem_head _ _).
rewrite [foldM _ _ _]/= /step /=; move: le fE => /=; case: ifP => ac /= le fE Ec.
  case Ea: (pmap answer inp) le fE Ec => [//|v vs] le fE Ec; rewrite eqxx /= in Ec.
  have [rest [-> Er rd]] := value_some Ea; rewrite bind_ok /= -Ec.
  have [|q qc|rest' E rd'] := IH (set D c (f c)) rest uc.
  - by rewrite Er.
  - rewrite Er fE ?inE ?qc ?orbT //; case: ifP => // _; case: eqP => // E; by rewrite E qc in nc.
  - by exists rest' => //; rewrite -add1n; exact: reads_trans rd rd'.
rewrite -Ec; apply: IH => // q qc; rewrite fE // inE qc orbT //.
Qed.
End Loop.
End Reading.

Section Partial.
Variables (P : eqType) (K : realDomainType) (A : algebra P K).
Variables (C : idomainType) (den : P -> {poly C}).
Hypothesis ok : algebra_contract A den.
Variable setiter : seq P -> seq P.
Hypothesis order : set_order setiter.

Lemma askedE s : [seq p <- s | const den p & a_has_variable A p] =
  filter (a_has_variable A) [seq p <- s | const den p].
Proof. by rewrite -filter_predI; apply: eq_filter => p /=; rewrite andbC. Qed.

Let rset (D : diagram P [eqType of rat]) c v := put (put (put D c 0 v) c (1 / 2%:R) v) c 1 v.
Let cset (D : diagram P [eqType of nat]) c v := put D c 0%N v.
Let rf (ans : seq int) cf q : int :=
  if a_has_variable A q then nth 0 ans (index q (filter (a_has_variable A) cf)) else a_sign A q.
Let cf_ (ans : seq int) cf q : int :=
  if a_has_variable A q then nth 0 ans (index q (filter (a_has_variable A) cf)) else if q == a_zero A then 0 else 1.

Lemma c_stepE inp cf : c_assignment_interactive A inp cf = foldM (fun st c =>
    let! vi := (if a_has_variable A c then get_interactive_value [:: "0"; "1"]%string st.2
                else Ok (if c == a_zero A then 0 else 1, st.2)) in
    Ok (cset st.1 c vi.1, vi.2)) ([::], inp) cf.
Proof.
rewrite /c_assignment_interactive; move: ([::] : diagram P [eqType of nat]) inp; elim: cf => //= c cf IH D inp.
case: eqP => [->|_]; first by rewrite (negbTE (zero_scalar ok)) !bind_ok; exact: IH.
case: ifP => _; last by rewrite !bind_ok; exact: IH.
by case: (get_interactive_value _ _) => //= -[v rest]; exact: IH.
Qed.

Lemma r_inter cf inp : uniq cf ->
  if (size (pmap real_answer inp) < size (filter (a_has_variable A) cf))%N
  then r_assignment_interactive A inp cf = Err EOFError
  else exists2 rest, r_assignment_interactive A inp cf = Ok (foldl (fun D c => rset D c (rf (pmap real_answer inp) cf c)) [::] cf, rest)
       & reads_answers real_answer (size (filter (a_has_variable A) cf)) inp rest.
Proof.
move=> u; case: ltnP => le; first exact: (loop_short real_answerE isT (a_sign A) rset).
by apply: (loop_long real_answerE isT rset [::] (f := rf (pmap real_answer inp) cf) (known := a_sign A) u le).
Qed.

Lemma c_inter cf inp : uniq cf ->
  if (size (pmap complex_answer inp) < size (filter (a_has_variable A) cf))%N
  then c_assignment_interactive A inp cf = Err EOFError
  else exists2 rest, c_assignment_interactive A inp cf = Ok (foldl (fun D c => cset D c (cf_ (pmap complex_answer inp) cf c)) [::] cf, rest)
       & reads_answers complex_answer (size (filter (a_has_variable A) cf)) inp rest.
Proof.
move=> u; rewrite c_stepE; case: ltnP => le; first exact: (loop_short complex_answerE isT (fun c => if c == a_zero A then 0 else 1) cset).
by apply: (loop_long complex_answerE isT cset [::] (f := cf_ (pmap complex_answer inp) cf) (known := fun c => if c == a_zero A then 0 else 1) u le).
Qed.

Lemma r_reads cf inp D rest : uniq cf -> r_assignment_interactive A inp cf = Ok (D, rest) ->
  reads_answers real_answer (size [seq p <- cf | a_has_variable A p]) inp rest.
Proof. by move=> /(r_inter inp); case: ifP => [_ ->//|_ [rest' -> rd] [_ <-]]. Qed.

Lemma c_reads cf inp D rest : uniq cf -> c_assignment_interactive A inp cf = Ok (D, rest) ->
  reads_answers complex_answer (size [seq p <- cf | a_has_variable A p]) inp rest.
Proof. by move=> /(c_inter inp); case: ifP => [_ ->//|_ [rest' -> rd] [_ <-]]. Qed.

Lemma real_interactive ps : exists N s,
  [/\ uniq s, {subset ps <= s} & forall p, p \in s <-> generated A den ps p] /\
  forall n inp, (N <= n)%N ->
  let asked := [seq p <- s | const den p & a_has_variable A p] in
  let answers := pmap real_answer inp in
  let run := real_partial A setiter n ps (Some (answering (r_assignment_interactive A) inp)) in
  [/\ (size answers < size asked)%N -> run = Err EOFError,
      (size asked <= size answers)%N -> run = Err DiagramExc \/ exists2 D, run = Ok D & rows D =i s &
      (size asked <= size answers)%N -> forall (R : rcfType) (ev : {rmorphism C -> R}), sign_ok A den ev ->
        (forall q, q \in asked -> nth 0 answers (index q asked) = sgz (cvalue den ev q)) ->
        exists2 D, run = Ok D & sign_table den ev s D].
Proof.
have [s [N h]] := sequence_ok ok ps; exists N, s.
have [us srt sub cl gen] := sequence_spec ok (h N (leqnn N)); split=> // n inp /h Es asked answers run.
have uc : uniq [seq p <- s | const den p] by exact: filter_uniq.
have := r_inter inp uc; rewrite -askedE -/asked -/answers; set f := rf _ _.
have runE : run = let! r := r_assignment_interactive A inp [seq p <- s | const den p] in
    real_extend A setiter r.1 [seq p <- s | ~~ const den p].
  rewrite /run /real_partial -/(sequence A n ps) Es bind_ok /= (const_filter ok) (nonconst_filter ok) /answering.
  by case: (r_assignment_interactive _ _ _).
case: ltnP => le; first by move=> E; split=> // _; rewrite runE E.
move=> [rest E _]; rewrite {}E bind_ok /= in runE; set D0 := foldl _ _ _ in runE.
have as_ : assigned [seq p <- s | const den p] f D0.
  have [h1 h2] := fold_put3 f [seq p <- s | const den p] [::]; split; first by move=> q; rewrite h2 cats0.
  by move=> q c hq; rewrite h1 hq.
have f0 : f (a_zero A) = 0 by rewrite /f /rf (negbTE (zero_scalar ok)) (zero_sign ok).
split=> // _; rewrite runE; first exact: (extend_any ok order cl us srt as_ f0).
move=> R ev sok fE; apply: (extend_realizable ok order cl us srt as_) => q qs cq.
rewrite /f /rf; case: ifP => hv; last by rewrite sok ?hv.
by rewrite -askedE -fE // mem_filter cq hv.
Qed.

Lemma complex_interactive ps : exists N s,
  [/\ uniq s, {subset ps <= s} & forall p, p \in s <-> generated A den ps p] /\
  forall n inp, (N <= n)%N ->
  let asked := [seq p <- s | const den p & a_has_variable A p] in
  let answers := pmap complex_answer inp in
  let run := complex_partial A setiter n ps (Some (answering (c_assignment_interactive A) inp)) in
  [/\ (size answers < size asked)%N -> run = Err EOFError,
      (size asked <= size answers)%N -> exists2 D, run = Ok D & rows D =i s &
      (size asked <= size answers)%N -> forall (F : closedFieldType) (ev : {rmorphism C -> F}),
        [char F] =i pred0 -> scalars_ok A den ev ->
        (forall q, q \in asked -> nth 0 answers (index q asked) = nz (cvalue den ev q)) ->
        exists2 D, run = Ok D & zero_table den ev s D].
Proof.
have [s [N h]] := sequence_ok ok ps; exists N, s.
have [us srt sub cl gen] := sequence_spec ok (h N (leqnn N)); split=> // n inp /h Es asked answers run.
have uc : uniq [seq p <- s | const den p] by exact: filter_uniq.
have := c_inter inp uc; rewrite -askedE -/asked -/answers; set f := cf_ _ _.
have runE : run = let! r := c_assignment_interactive A inp [seq p <- s | const den p] in
    complex_extend A setiter r.1 [seq p <- s | ~~ const den p].
  rewrite /run /complex_partial -/(sequence A n ps) Es bind_ok /= (const_filter ok) (nonconst_filter ok) /answering.
  by case: (c_assignment_interactive _ _ _).
case: ltnP => le; first by move=> E; split=> // _; rewrite runE E.
move=> [rest E _]; rewrite {}E bind_ok /= in runE; set D0 := foldl _ _ _ in runE.
have as_ : cassigned [seq p <- s | const den p] f D0.
  have [h1 h2 h3] := fold_put f [seq p <- s | const den p] [::]; split.
  - by move=> q; rewrite h2 cats0.
  - exact: h3.
  - by move=> q c hq; rewrite h1 hq; case: (c == 0%N).
have f0 : f (a_zero A) = 0 by rewrite /f /cf_ (negbTE (zero_scalar ok)) eqxx.
split=> // _; rewrite runE; first exact: (cextend_any ok order cl us srt as_ f0).
move=> F ev ch sok fE; apply: (cextend_realizable ok order cl us srt as_ ch) => q qs cq.
rewrite /f /cf_; case: ifP => hv; first by rewrite -askedE -fE // mem_filter cq hv.
case: eqP => [->|/eqP n0]; first by rewrite /cvalue (den_zero ok) coef0 rmorph0 /nz eqxx.
rewrite /nz (negbTE (sok _ cq _ _)) ?hv //; apply: contra n0 => /eqP /(den_zero_only ok)->; exact: eqxx.
Qed.
End Partial.
