(** complex_extend: what one step does to a table. *)
From mathcomp Require Import all_ssreflect all_algebra.
From mathcomp.zify Require Import zify.
From Verif Require Import Py MuchModel MuchSpec MuchSeq MuchDiag MuchStep MuchSem.

Set Implicit Arguments.
Unset Strict Implicit.
Unset Printing Implicit Defensive.
Import GRing.Theory Num.Theory Order.TTheory.
Local Open Scope ring_scope.

(** Dictionaries have no key twice. *)
Definition wf (P T : eqType) (D : diagram P T) : Prop := forall q, uniq (cols D q).

Lemma uniq_dset (K : eqType) (V : Type) (d : dict K V) k v : uniq (map fst d) -> uniq (map fst (dset d k v)).
Proof.
elim: d => [//|[a b] d IH] /= /andP[na u]; case: eqVneq => [_|ne] /=; first by rewrite na.
rewrite IH // andbT -/(map fst _); apply: contra na; rewrite keys_dset inE.
by rewrite [a == k]eq_sym (negbTE ne).
Qed.

Lemma wf_put (P T : eqType) (D : diagram P T) q c v : wf D -> wf (put D q c v).
Proof.
move=> w q'; rewrite /cols /put /row dget_dset; case: eqP => [_|_]; last exact: w.
exact/uniq_dset/w.
Qed.

Lemma wf_touch (P T : eqType) (D : diagram P T) q : wf D -> wf (touch D q).
Proof.
move=> w q'; rewrite /touch; case: ifP => [_|/negbT h]; first exact: w.
by rewrite /cols /row dget_rcons //; case: eqP => // _; exact: w.
Qed.

Lemma foldM_inv (T S : Type) (f : S -> T -> res S) (I : S -> Prop) (l : seq T) s s' :
  (forall s x s', f s x = Ok s' -> I s -> I s') -> foldM f s l = Ok s' -> I s -> I s'.
Proof.
move=> h; elim: l s => [|x l IH] s /=; first by move=> [->].
by case E: (f s x) => [s1|//] /= /IH h1 /(h _ _ _ E).
Qed.

Section Step.
Variables (P : eqType) (K : realDomainType) (A : algebra P K).
Variables (C : idomainType) (den : P -> {poly C}).
Hypothesis ok : algebra_contract A den.
Variable setiter : seq P -> seq P.
Hypothesis order : set_order setiter.
Implicit Types (D : diagram P [eqType of nat]).

Local Notation zero := (a_zero A).
Local Notation degree := (a_degree A).
Local Notation der := (a_derivative A).
Local Notation rem p q := (a_pseudo_div A p q).2.
Local Notation lcrow p := (a_times A (a_LC A p) (fac (degree p))).

Lemma wf_copy_tail D p D' : copy_tail A D p = Ok D' -> wf D -> wf D'.
Proof.
rewrite /copy_tail => E w; apply: (foldM_inv (I := @wf _ _) _ E); last exact: wf_touch.
by move=> s x s'; case: (cell s _ x) => //= v [<-]; exact: wf_put.
Qed.

Lemma wf_step D p D' : complex_step A setiter D p = Ok D' -> wf D -> wf D'.
Proof.
move=> E w; move: E; rewrite /complex_step; have w1 := wf_put p (0%N : [eqType of nat]) 1 w.
case: (cell _ _ _) => //= v; case: ifP => _; first by move/wf_copy_tail; apply.
case E: (foldM _ _ _) => [[D2 done]|//] /=.
have w2 : wf (D2, done).1.
  apply: (foldM_inv (I := fun st => wf st.1) _ E) => [[D3 n] c st|]; last exact: wf_touch.
  case: (zeros_of _ _ _ _ _ _) => //= zs; case: (pyget zs 0) => //= z.
  case: (cell _ _ _) => //= u; case: (if u == 0 then _ else _) => //= m [<-] /= w3.
  exact: wf_put.
move=> E1; apply: (foldM_inv (I := @wf _ _) _ E1) w2 => s c s'.
case E2: (foldM _ _ _) => [D3|//] /= [<-] w3; apply: wf_put.
by apply: (foldM_inv (I := @wf _ _) _ E2) w3 => s1 q s2; case: (cell _ _ _) => //= u [<-]; exact: wf_put.
Qed.

(** The shape of a table with columns 0 .. n-1. *)
Record cinv D n : Prop := {
  cv_pos : (0 < n)%N;
  cv_wf : wf D;
  cv_cols : forall q, q \in rows D -> cols D q =i iota 0 n;
  cv_zero : zero \in rows D /\ vd D zero 0%N = 0;
  cv_root : forall c, (0 < c < n)%N -> has (isroot D 0%N c) (rows D)
}.

Section One.
Variables (D : diagram P [eqType of nat]) (p : P) (n : nat).
Hypothesis rd : ready A den D p.
Hypothesis inv : cinv D n.

Let D1 := put D p 0%N 1.
Let rest := [seq q <- rows D1 | q != p].

Lemma mem_rest q : (q \in rest) = (q \in rows D).
Proof.
rewrite mem_filter rows_put inE; case: eqP => [->|] //=.
by rewrite (negbTE (rd_new rd)).
Qed.

Lemma neq_row q : q \in rows D -> (q == p) = false.
Proof. by move=> hq; apply/negbTE; apply: contraNneq (rd_new rd) => <-. Qed.

Lemma cell_row q c : q \in rows D -> (c < n)%N -> cell D q c = Ok (vd D q c).
Proof. by move=> hq hc; rewrite cell_vd // (cv_cols inv hq) mem_iota. Qed.

Lemma cell_out q c : q \notin rows D -> cell D q c = Err KeyError.
Proof. by move=> hq; apply: cell_err; apply: contra hq; exact: cols_row. Qed.

Lemma cell_far q c : (n <= c)%N -> cell D q c = Err KeyError.
Proof.
move=> hc; case: (boolP (q \in rows D)) => [hq|]; last exact: cell_out.
by apply: cell_err; rewrite (cv_cols inv hq) mem_iota -leqNgt.
Qed.

(** The first row with a root in a column. *)
Definition zero_of c : P :=
  if zeros_of A setiter D 0%N c rest is Ok (z :: _) then z else zero.
Definition val c : int := vd D (rem p (zero_of c)) c.

Fixpoint mcount c k r : nat :=
  if k is k'.+1 then if vd D (der r) c != 0 then 0%N else (mcount c k' (der r)).+1 else 0%N.
Definition rcount c : nat := if val c == 0 then (mcount c (degree p) p).+1 else 0%N.

Lemma zero_ofP c : (0 < c < n)%N ->
  [/\ zero_of c \in rows D, isroot D 0%N c (zero_of c),
      forall q, q \in rows D -> isroot D 0%N c q -> (degree (zero_of c) <= degree q)%N &
      exists zs, zeros_of A setiter D 0%N c rest = Ok (zero_of c :: zs)].
Proof.
move=> /andP[c0 cn]; have h q : q \in rest -> (c \in cols D q) && (0%N \in cols D q).
  by rewrite mem_rest => hq; rewrite !(cv_cols inv hq) !mem_iota /= cn (cv_pos inv).
have := zeros_head A order h; have -> : has (isroot D 0%N c) rest.
  have /hasP[q hq r] : has (isroot D 0%N c) (rows D) by apply: (cv_root inv); rewrite c0.
  by apply/hasP; exists q; rewrite ?mem_rest.
move=> [z [zs [E]]]; rewrite mem_rest => hz rz mn.
rewrite /zero_of E; split=> //; last by exists zs.
by move=> q hq; apply: mn; rewrite mem_rest.
Qed.

Lemma zeros_ext D2 c : (forall q c, q != p -> cell D2 q c = cell D q c) ->
  zeros_of A setiter D2 0%N c rest = zeros_of A setiter D 0%N c rest.
Proof.
move=> h; rewrite /zeros_of; congr bind; apply: mapM_ext => q /InP.
by rewrite (perm_mem (order rest)) mem_rest => /neq_row/negbT hq; rewrite !h.
Qed.

Lemma multiplicityE D2 c k r : (forall q c, q != p -> cell D2 q c = cell D q c) -> (c < n)%N ->
  r \in p :: rows D -> multiplicity A D2 c k r = Ok (mcount c k r).
Proof.
move=> h cn; elim: k r => [//|k IH] r hr /=; have hd := rd_der rd hr.
rewrite h ?neq_row // cell_row // bind_ok; case: eqP => //= _.
by rewrite IH ?bind_ok // inE hd orbT.
Qed.

Lemma zero_of_rem c : (0 < c < n)%N -> rem p (zero_of c) \in rows D.
Proof.
move=> hc; have [hz rz _ _] := zero_ofP hc; apply: (rd_rem rd) => //.
by apply: contraTneq rz => ->; rewrite /isroot; case: (cv_zero inv) => _ ->; rewrite eqxx andbF.
Qed.

(** The loop over the columns. *)
Lemma loop_old l D2 done : all (fun c => 0 < c < n)%N l ->
  (forall q c, q != p -> cell D2 q c = cell D q c) ->
  exists D3, [/\ foldM (fun st col =>
        let: (D, roots_done) := st in
        let! zeros := zeros_of A setiter D 0%N col rest in
        let! z := pyget zeros 0 in
        let rem := rem p z in
        let! value := cell D rem col in
        let! m := (if value == 0 then
                     let! m := multiplicity A D col (degree p) p in Ok m.+1
                   else Ok 0%N) in
        Ok (put D p col value, (roots_done + m)%N)) (D2, done) l =
      Ok (D3, (done + sumn (map rcount l))%N),
    forall q c, cell D3 q c = if (q == p) && (c \in l) then Ok (val c) else cell D2 q c &
    rows D3 =i if l is [::] then rows D2 else p :: rows D2].
Proof.
elim: l D2 done => [|c l IH] D2 done /=.
  by move=> _ h; exists D2; split=> //; rewrite ?addn0 // => q c; rewrite andbF.
move=> /andP[hc hl] h; have [hz rz mn [zs E]] := zero_ofP hc.
have hr := zero_of_rem hc; have /andP[_ cn] := hc.
rewrite zeros_ext // E bind_ok /= h ?neq_row // cell_row // bind_ok -/(val c).
have -> : (if val c == 0 then let! m := multiplicity A D2 c (degree p) p in Ok m.+1 else Ok 0%N) = Ok (rcount c).
  by rewrite /rcount; case: eqP => // _; rewrite multiplicityE ?mem_head.
rewrite bind_ok; have [|D3 [E3 h3 r3]] := IH (put D2 p c (val c)) (done + rcount c)%N hl.
  by move=> q c' /negbTE nq; rewrite cell_put nq h ?nq.
exists D3; split.
- by rewrite addnA; exact: E3.
- move=> q c'; rewrite h3 cell_put inE; case: (eqVneq q p) => //= _.
  by case: (c' \in l); rewrite ?orbT // orbF; case: eqP => [->|].
- move=> q; rewrite r3; case: (l) => [|? ?]; rewrite ?inE rows_put ?inE //.
  by rewrite orbA orbb.
Qed.

(** A new column. *)
Lemma loop_rows L D2 col : col != 0%N -> {subset L <= rows D} ->
  (forall q, q \in rows D -> cell D2 q 0%N = Ok (vd D q 0%N)) ->
  exists D3, [/\ foldM (fun D q =>
          let! v0 := cell D q 0%N in
          Ok (put D q col (if v0 == 0 then 0 else 1))) D2 L = Ok D3,
    forall q c, cell D3 q c = if (q \in L) && (c == col) then Ok (if vd D q 0%N == 0 then 0 else 1)
      else cell D2 q c &
    rows D3 =i L ++ rows D2].
Proof.
move=> c0; elim: L D2 => [|x L IH] D2 sub h /=.
  by exists D2; split.
have hx : x \in rows D by apply: sub; rewrite mem_head.
rewrite h // !bind_ok; set w : int := if _ then _ else _.
have [||D3 [E3 h3 r3]] := IH (put D2 x col w).
- by move=> q hq; apply: sub; rewrite inE hq orbT.
- by move=> q hq; rewrite cell_put [0%N == col]eq_sym (negbTE c0) andbF; exact: h.
exists D3; split=> //.
- move=> q c; rewrite h3 cell_put inE; case: (eqVneq q x) => [->|] //=.
  by case: (x \in L); case: (c == col).
- by move=> q; rewrite r3 mem_cat rows_put !inE mem_cat orbCA.
Qed.

Lemma loop_new k m D2 : (0 < m)%N ->
  (forall q, q \in rows D -> cell D2 q 0%N = Ok (vd D q 0%N)) ->
  rows D2 =i p :: rows D ->
  exists D3, [/\ foldM (fun D column =>
        let! D' := foldM (fun D q =>
          let! v0 := cell D q 0%N in
          Ok (put D q column (if v0 == 0 then 0 else 1))) D (setiter rest) in
        Ok (put D' p column 0)) D2 (iota m k) = Ok D3,
    forall q c, cell D3 q c = if (q \in p :: rows D) && (c \in iota m k) then
        Ok (if q == p then 0 else if vd D q 0%N == 0 then 0 else 1) else cell D2 q c &
    rows D3 =i p :: rows D].
Proof.
elim: k m D2 => [|k IH] m D2 m0 h r /=.
  by exists D2; split=> // q c; rewrite andbF.
have memL q : (q \in setiter rest) = (q \in rows D) by rewrite (perm_mem (order rest)) mem_rest.
have [||D3 [-> h3 r3]] := @loop_rows (setiter rest) D2 m _ _ h; first by rewrite -lt0n.
  by move=> q; rewrite memL.
have rp : p \notin rows D := rd_new rd.
rewrite !bind_ok; have [|||D4 [E4 h4 r4]] := IH m.+1 (put D3 p m 0) => //.
- move=> q hq; rewrite cell_put neq_row // h3 memL hq /=.
  by rewrite eq_sym -[_ == _]negbK -lt0n m0; exact: h.
- by move=> q; rewrite rows_put !inE r3 mem_cat memL r inE; case: (q == p); case: (q \in rows D).
exists D4; split=> // q c; rewrite h4 cell_put h3 memL !inE.
case: (eqVneq q p) => [->|ne] //=; last by case: (q \in rows D); case: (c == m); case: (c \in _).
by rewrite (negbTE rp) /=; case: (c == m); case: (c \in _).
Qed.

Definition newcols : nat := (degree p - sumn [seq rcount c | c <- iota 1 n.-1])%N.

Lemma zero_neq : (zero == p) = false.
Proof. by apply: neq_row; case: (cv_zero inv). Qed.

Lemma size_cols : size (cols D1 zero) = n.
Proof.
have [hz _] := cv_zero inv; rewrite -[RHS](size_iota 0); apply/perm_size/uniq_perm.
- exact/wf_put/(cv_wf inv).
- exact: iota_uniq.
- by move=> c; rewrite cols_put zero_neq (cv_cols inv hz).
Qed.

Lemma complex_stepE : vd D (lcrow p) 0%N != 0 ->
  exists D', [/\ complex_step A setiter D p = Ok D',
    forall q c, cell D' q c =
      if q \in p :: rows D then
        if (n <= c < n + newcols)%N then Ok (if q == p then 0 else if vd D q 0%N == 0 then 0 else 1)
        else if q == p then if c == 0%N then Ok 1 else if (c < n)%N then Ok (val c) else Err KeyError
        else cell D q c
      else Err KeyError &
    rows D' =i p :: rows D].
Proof.
move=> l0; have hl := rd_lc rd (mem_head _ _).
have h1 q c : q != p -> cell D1 q c = cell D q c by move=> /negbTE nq; rewrite cell_put nq.
have zr : zero \in rows D1 by rewrite rows_put inE; case: (cv_zero inv) => ->; rewrite orbT.
rewrite /complex_step -/D1 h1 ?neq_row // cell_row ?(cv_pos inv) // bind_ok (negbTE l0).
rewrite (touch_row zr) -/rest size_cols.
have al : all (fun c => 0 < c < n)%N (iota 1 n.-1).
  by apply/allP => c; rewrite mem_iota; have := cv_pos inv; slia.
have [D2 [-> h2 r2]] := @loop_old (iota 1 n.-1) D1 0%N al h1.
rewrite bind_ok add0n -/newcols.
have hr2 : rows D2 =i p :: rows D.
  move=> q; rewrite r2; case: (iota _ _) => [|? ?]; rewrite ?inE rows_put ?inE //.
  by rewrite orbA orbb.
have [|D3 [-> h3 r3]] := @loop_new newcols n D2 (cv_pos inv) _ hr2.
  by move=> q hq; rewrite h2 neq_row // h1 ?neq_row // cell_row // (cv_pos inv).
exists D3; split=> // q c; rewrite h3 h2 cell_put !inE !mem_iota.
have cn : (1 <= c < 1 + n.-1)%N = (0 < c < n)%N by have := cv_pos inv; slia.
rewrite cn; case: (eqVneq q p) => [->|ne] /=.
  case: ifP => // _; rewrite lt0n; case: (eqVneq c 0%N) => //= c0.
  by rewrite cell_out ?(rd_new rd).
case: ifP => [/andP[-> ->]//|h]; case: (boolP (q \in rows D)) h => //= hq h; last exact: cell_out.
by rewrite h.
Qed.

Lemma complex_step_copy : vd D (lcrow p) 0%N = 0 ->
  exists D', [/\ complex_step A setiter D p = Ok D',
    forall q c, cell D' q c = if q == p then cell D (a_tail A p) c else cell D q c &
    rows D' =i p :: rows D].
Proof.
move=> l0; have hl := rd_lc rd (mem_head _ _); have ht := rd_tail rd (mem_head _ _).
have h1 q c : q != p -> cell D1 q c = cell D q c by move=> /negbTE nq; rewrite cell_put nq.
rewrite /complex_step -/D1 h1 ?neq_row // cell_row ?(cv_pos inv) // bind_ok l0 eqxx.
have tp : p != a_tail A p by rewrite eq_sym neq_row.
have ct : cols D1 (a_tail A p) =i iota 0 n.
  by move=> c; rewrite cols_put neq_row // (cv_cols inv ht).
have [|D' E [h2 r2]] := copy_tailE (D := D1) tp.
  apply/eqP => E; have := ct 0%N; rewrite E mem_iota (cv_pos inv) //.
exists D'; split=> // [q c|q]; last by rewrite r2 inE rows_put inE orbA orbb.
rewrite h2; case: (eqVneq q p) => [_|ne]; last exact: h1.
rewrite ct mem_iota /= add0n; case: ltnP => hc; first by rewrite h1 // eq_sym.
rewrite cell_far // cell_put eqxx ifN ?cell_out ?(rd_new rd) //.
by have := cv_pos inv; slia.
Qed.

Lemma complex_step_shape : exists D' n',
  [/\ complex_step A setiter D p = Ok D', rows D' =i p :: rows D, cinv D' n' &
      forall q, q \in rows D -> cell D' q 0%N = cell D q 0%N].
Proof.
have [zr z0] := cv_zero inv; have ht := rd_tail rd (mem_head _ _).
case: (eqVneq (vd D (lcrow p) 0%N) 0) => [l0|l0].
  have [D' [E h r]] := complex_step_copy l0.
  have vE q c : q \in rows D -> vd D' q c = vd D q c by move=> hq; rewrite /vd h neq_row.
  exists D', n; split=> //; last by move=> q hq; rewrite h neq_row.
  split; [exact: cv_pos inv|exact: wf_step E (cv_wf inv)| | |].
  - move=> q; rewrite r inE => hq c; case: (eqVneq q p) hq => [-> _|ne /= hq].
      by rewrite -(cv_cols inv ht); apply: cols_eq => c'; rewrite h eqxx.
    by rewrite -(cv_cols inv hq); apply: cols_eq => c'; rewrite h (negbTE ne).
  - by rewrite r inE zr orbT vE.
  - move=> c /(cv_root inv)/hasP[q hq rq]; apply/hasP; exists q; first by rewrite r inE hq orbT.
    by rewrite /isroot !vE.
have [D' [E h r]] := complex_stepE l0.
have hlow q c : q \in rows D -> (c < n)%N -> cell D' q c = cell D q c.
  by move=> hq hc; rewrite h inE hq orbT neq_row // [(n <= c)%N]leqNgt hc.
exists D', (n + newcols)%N; split=> //; last by move=> q hq; rewrite hlow // (cv_pos inv).
have vE q c : q \in rows D -> (c < n)%N -> vd D' q c = vd D q c.
  by move=> hq hc; rewrite /vd hlow.
split; [by rewrite addn_gt0 (cv_pos inv)|exact: wf_step E (cv_wf inv)| | |].
- move=> q; rewrite r => hq c; rewrite mem_iota /= add0n; apply/cols_cell/idP => [[v]|hc].
    rewrite h hq; case: ifP => [/andP[]//|nc].
    case: (eqVneq q p) hq => [->|ne] hq; last first.
      move/cell_cols; move: hq; rewrite inE (negbTE ne) /= => hq; rewrite (cv_cols inv hq) mem_iota /=.
      by move=> /leq_trans-> //; exact: leq_addr.
    case: eqP => [-> _|_]; first by rewrite addn_gt0 (cv_pos inv).
    by case: ltnP => // hc _; apply: leq_trans hc _; exact: leq_addr.
  rewrite h hq hc andbT; case: leqP => hn; first by eexists.
  case: (eqVneq q p) hq => [_ _|ne]; last by rewrite inE (negbTE ne) => hq; exists (vd D q c); rewrite cell_row.
  by case: eqP; [exists 1|exists (val c)].
- by rewrite r inE zr orbT vE ?(cv_pos inv).
- move=> c /andP[c0 hc]; case: (ltnP c n) => cn.
    have /hasP[q hq rq] : has (isroot D 0%N c) (rows D) by apply: (cv_root inv); rewrite c0.
    apply/hasP; exists q; first by rewrite r inE hq orbT.
    by rewrite /isroot !vE ?(cv_pos inv).
  apply/hasP; exists p; first by rewrite r mem_head.
  by rewrite /isroot /vd !h mem_head cn hc eqxx [(n <= 0)%N]leqNgt (cv_pos inv).
Qed.
End One.
End Step.
