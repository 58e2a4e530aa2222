(** expand_context: every parameter value is covered by one context, and the
    mappings lead to polynomials whose leading coefficient is known. *)
From mathcomp Require Import all_ssreflect all_algebra.
From mathcomp.zify Require Import zify.
From Verif Require Import Py MuchModel MuchSpec MuchSeq MuchDiag CohenModel CohenSpec.

Set Implicit Arguments.
Unset Strict Implicit.
Unset Printing Implicit Defensive.
Import GRing.Theory Num.Theory Order.TTheory.
Local Open Scope ring_scope.

Section Dict.
Variables (K : eqType) (V : Type).
Implicit Types (d : dict K V).

Lemma dset_same d k v : dget d k = Ok v -> dset d k v = d.
Proof. by elim: d => //= -[a b] d IH; case: eqP => [<- [->]|_ /IH->]. Qed.

Lemma dget_mem d k v : dget d k = Ok v -> dmem d k.
Proof. by move=> E; have := dget_keys d k; rewrite /dmem; case: (k \in _) => //; rewrite E. Qed.

Lemma dmem_get d k : dmem d k -> exists v, dget d k = Ok v.
Proof. by rewrite /dmem => h; have := dget_keys d k; rewrite h. Qed.

Lemma uniq_dset d k v : uniq (map fst d) -> uniq (map fst (dset d k v)).
Proof.
elim: d => [|[a b] d IH] //= /andP[nd u]; case: eqVneq => [//|ne] /=; first by rewrite nd.
by rewrite IH // keys_dset inE negb_or eq_sym ne nd.
Qed.
End Dict.

Lemma extends_refl (P : eqType) (V : Type) (d : dict P V) : extends d d.
Proof. by []. Qed.

Lemma extends_trans (P : eqType) (V : Type) (a b c : dict P V) : extends a b -> extends b c -> extends a c.
Proof. by move=> h1 h2 k v /h1/h2. Qed.

Lemma extends_dset (P : eqType) (V : Type) (d : dict P V) k v : (forall w, dget d k = Ok w -> w = v) ->
  extends d (dset d k v).
Proof. by move=> h k' v' E; rewrite dget_dset; case: eqP => // e; move: E; rewrite e => /h->. Qed.

Lemma foldM_mono (T S : Type) (f g : S -> T -> res S) (l : seq T) s r :
  (forall s x y, f s x = Ok y -> g s x = Ok y) -> foldM f s l = Ok r -> foldM g s l = Ok r.
Proof.
move=> h; elim: l s => //= x l IH s; case E: (f s x) => [s'|//] /=.
by rewrite (h _ _ _ E) /=; exact: IH.
Qed.

Section Exp.
Variables (P : eqType) (K : realDomainType) (A : algebra P K).
Variables (C : idomainType) (den : P -> {poly C}).
Hypothesis ok : algebra_contract A den.
Implicit Types (h : heap P) (con c : context P) (e : entry P).

Local Notation zero := (a_zero A).
Local Notation hv := (a_has_variable A).
Local Notation LC := (a_LC A).
Local Notation tail := (a_tail A).
Local Notation sz p := (size (den p)).
Local Notation reduces := (reduces A).

(** Evaluations of the parameters. *)
Record point := Point {
  pR : rcfType;
  pev : {rmorphism C -> pR};
  pok : sign_ok A den pev
}.
Implicit Type v : point.

Definition cs v con : bool := consistent den (pev v) con.

Lemma csP v con k s : cs v con -> dget con k = Ok s -> s = sgz (cvalue den (pev v) k).
Proof.
rewrite /cs /consistent; elim: con => //= -[a b] con IH /andP[/eqP E h].
by case: eqP => [-> [<-]|_]; [exact: E|exact: IH].
Qed.

Lemma cs_intro v con : uniq (map fst con) ->
  (forall k s, dget con k = Ok s -> s = sgz (cvalue den (pev v) k)) -> cs v con.
Proof.
rewrite /cs /consistent; elim: con => //= -[a b] con IH /andP[na u] h; apply/andP; split.
  by apply/eqP; apply: h; rewrite /= eqxx.
apply: IH => // k s E; apply: h; case: eqVneq => // ka; move: na; rewrite -ka.
by have := dget_mem E; rewrite /dmem => ->.
Qed.

Lemma cs_dset v con k s : ~~ dmem con k -> cs v (dset con k s) = cs v con && (s == sgz (cvalue den (pev v) k)).
Proof.
rewrite /cs /consistent /dmem; elim: con => [|[a b] con IH] /=; first by rewrite andbT.
rewrite inE negb_or => /andP[/negbTE-> nk] /=.
by rewrite IH // andbA.
Qed.

Lemma cs_extends v con c : uniq (map fst con) -> extends con c -> cs v c -> cs v con.
Proof. by move=> u ex h; apply: cs_intro => // k s /ex; exact: csP. Qed.

Lemma LC_const p : const den (LC p).
Proof. by rewrite /const (den_LC ok) size_polyC; case: eqP. Qed.

Lemma cvalue_LC v p : cvalue den (pev v) (LC p) = pev v (lead_coef (den p)).
Proof. by rewrite /cvalue (den_LC ok) coefC. Qed.

Lemma LC_eq0 p : (LC p == zero) = (p == zero).
Proof. by rewrite -!(den_eq0 ok) (den_LC ok) polyC_eq0 lead_coef_eq0. Qed.

Lemma hv_nonzero p : hv (LC p) -> p != zero.
Proof.
apply: contraTneq => ->; suff -> : LC zero = zero by rewrite (zero_scalar ok).
  by apply: (den_zero_only ok); rewrite (den_LC ok) (den_zero ok) lead_coef0 polyC0.
Qed.

(** *** Reduction. *)
Lemma reduces_fun con p q q' : reduces con p q -> reduces con p q' -> q = q'.
Proof.
move=> h; elim: h q' => {p q} [p nv|p s hp E s0|p q hp E _ IH] q' h'.
- by inversion h' => //; subst; move: nv; rewrite H.
- inversion h' => //; subst; by move: s0; move: H0; rewrite E => -[->]; rewrite eqxx.
- inversion h'; subst; first by move: H; rewrite hp.
    by move: H1; move: H0; rewrite E => -[<-]; rewrite eqxx.
  exact: IH.
Qed.

Lemma reduces_mono con c p q : extends con c -> reduces con p q -> reduces c p q.
Proof.
move=> ex; elim=> {p q} [p nv|p s hp E s0|p q hp E _ IH]; first exact: red_scalar.
  by apply: (red_nonzero hp (ex _ _ E)).
exact: red_tail hp (ex _ _ E) IH.
Qed.

Lemma reduces_size con p q : reduces con p q -> (sz q <= sz p)%N /\ (sz q = sz p -> q = p).
Proof.
elim=> {p q} [p nv|p s hp E s0|p q hp E _ [IH _]] //.
have := sz_tail ok (hv_nonzero hp) => lt; split; first by rewrite (leq_trans IH) // ltnW.
by move=> Eq; move: IH; rewrite Eq leqNgt lt.
Qed.

Lemma reduces_end con p q : reduces con p q -> q = zero \/ determined A con q.
Proof.
elim=> {p q} [p nv|p s hp E s0|p q hp E _ [IH|IH]] //; [|right|by left|by right].
  by case: (eqVneq p zero) => [->|/eqP n0]; [left|right; split=> //; left].
by split; [apply/eqP; exact: hv_nonzero|right; exists s].
Qed.

Lemma reduces_lc con p q : reduces con p q -> hv (LC p) -> dmem con (LC p).
Proof. by case=> {p q} [p nv|p s hp E s0|p q hp E _] h; [move: nv; rewrite h|exact: dget_mem E|exact: dget_mem E]. Qed.

Lemma determined_reduces con p q : determined A con p -> reduces con p q -> q = p.
Proof.
move=> [_ d] r; apply: (reduces_fun r); case: d => [d|[s E s0]]; first exact: red_scalar.
by case h: (hv (LC p)); [exact: red_nonzero E s0|apply: red_scalar; rewrite h].
Qed.

Lemma determined_mono con c p : extends con c -> determined A con p -> determined A c p.
Proof. by move=> ex [p0 [d|[s E s0]]]; split=> //; [left|right; exists s => //; exact: ex]. Qed.

Lemma reduces_E con p q v : cs v con -> reduces con p q ->
  map_poly (pev v) (den p) = map_poly (pev v) (den q).
Proof.
move=> h; elim=> {p q} [p nv|p s hp E s0|p q hp E _ <-] //.
rewrite (den_tail ok) rmorphB /= map_polyZ /=.
have := csP h E; move/esym/eqP; rewrite sgz_eq0 cvalue_LC => /eqP->.
by rewrite scale0r subr0.
Qed.

(** *** Heaps. *)
Definition hle h h' : Prop := (size h <= size h')%N /\
  forall a k, (a < size h)%N -> dget (hget h' a) k = dget (hget h a) k \/
    (~~ hv (LC k) /\ dget (hget h' a) k = Ok k).

Lemma hle_refl h : hle h h.
Proof. by split=> // a k _; left. Qed.

Lemma hle_trans h h' h2 : hle h h' -> hle h' h2 -> hle h h2.
Proof.
move=> [s1 h1] [s2 h3]; split=> [|a k ha]; first exact: leq_trans s1 s2.
have [->|[n ->]] := h3 a k (leq_trans ha s1); first exact: h1.
by right.
Qed.

Lemma hle_alloc h d : hle h (rcons h d).
Proof.
split=> [|a k ha]; first by rewrite size_rcons.
by left; rewrite /hget nth_rcons ha.
Qed.

Lemma hget_alloc h d : hget (rcons h d) (size h) = d.
Proof. by rewrite /hget nth_rcons ltnn eqxx. Qed.

Lemma hget_set h a p q a' k : (a < size h)%N ->
  dget (hget (hset h a p q) a') k = if (a' == a) && (k == p) then Ok q else dget (hget h a') k.
Proof.
move=> ha; rewrite /hget /hset nth_set_nth /=; case: eqVneq => [->|] //=.
by rewrite dget_dset.
Qed.

Lemma size_hset h a p q : (a < size h)%N -> size (hset h a p q) = size h.
Proof. by move=> ha; rewrite size_set_nth; apply/maxn_idPr. Qed.

Lemma hle_set h a p : (a < size h)%N -> ~~ hv (LC p) -> hle h (hset h a p p).
Proof.
move=> ha nv; split=> [|a' k _]; first by rewrite size_hset.
by rewrite hget_set //; case: ifP => [/andP[_ /eqP->]|_]; [right|left].
Qed.

Lemma hle_keys h h' a : hle h h' -> (a < size h)%N -> {subset map fst (hget h a) <= map fst (hget h' a)}.
Proof.
move=> [_ hl] ha k hk; have [q E] : exists q, dget (hget h a) k = Ok q by apply: dmem_get.
have [E'|[_ E']] := hl a k ha; last exact: dget_mem E'.
by rewrite E in E'; exact: dget_mem E'.
Qed.

(** What is recorded in a mapping is right. *)
Definition valid con (M : dict P P) : Prop := forall k q, dget M k = Ok q -> reduces con k q.

Lemma valid_hle con h h' a : hle h h' -> (a < size h)%N -> valid con (hget h a) -> valid con (hget h' a).
Proof.
move=> [_ hl] ha vd k q; have [->|[nv ->]] := hl a k ha; first exact: vd.
by case=> <-; exact: red_scalar.
Qed.

Lemma valid_mono con c M : extends con c -> valid con M -> valid c M.
Proof. by move=> ex vd k q /vd; exact: reduces_mono. Qed.

(** *** The specification of the results. *)
Variable Gd : P -> Prop.
Hypothesis Gd_tail : forall p, Gd p -> Gd (tail p).

Definition signs : seq int := [:: -1; 0; 1].

Definition newkeys con c : Prop := forall k s, dget c k = Ok s -> dget con k = Ok s \/
  [/\ s \in signs, hv k & exists2 p, Gd p & k = LC p].

Record entry_ok h0 con polies m h e : Prop := {
  eo_addr : (e.2 < size h)%N;
  eo_ext : extends con e.1.1;
  eo_new : newkeys con e.1.1;
  eo_uniq : uniq (map fst con) -> uniq (map fst e.1.1);
  eo_map : valid e.1.1 (hget h e.2);
  eo_keys : {subset map fst (hget h0 m) ++ polies <= map fst (hget h e.2)};
  eo_ps : forall q, q \in e.1.2 <-> exists2 k, k \in polies & reduces e.1.1 k q
}.

Lemma entry_hle h0 con polies m h h' e : hle h h' -> entry_ok h0 con polies m h e -> entry_ok h0 con polies m h' e.
Proof.
move=> hl [e1 e2 e3 e4 e5 e6 e7]; split=> //.
- exact: leq_trans e1 (proj1 hl).
- exact: valid_hle hl e1 e5.
- by move=> k /e6; exact: hle_keys.
Qed.

Lemma fold_acc (T : Type) (f : heap P * seq (entry P) -> T -> res (heap P * seq (entry P))) (l : seq T)
    (Pre : heap P -> T -> Prop) (Post : heap P -> entry P -> Prop) (cnt : point -> T -> nat) :
  (forall h h' x, hle h h' -> Pre h x -> Pre h' x) ->
  (forall h h' e, hle h h' -> Post h e -> Post h' e) ->
  (forall h ret x, List.In x l -> Pre h x -> exists h' new, [/\ f (h, ret) x = Ok (h', ret ++ new), hle h h',
     forall e, List.In e new -> Post h' e & forall v, count (fun e => cs v e.1.1) new = cnt v x]) ->
  forall h ret, (forall x, List.In x l -> Pre h x) -> exists h' new,
    [/\ foldM f (h, ret) l = Ok (h', ret ++ new), hle h h', forall e, List.In e new -> Post h' e &
        forall v, count (fun e => cs v e.1.1) new = sumn (map (cnt v) l)].
Proof.
move=> preH postH; elim: l => [|x l IH] st h ret pre /=.
  by exists h, [::]; rewrite cats0; split=> //; exact: hle_refl.
have [h1 [new [-> hl p1 c1]]] := st h ret x (or_introl erefl) (pre x (or_introl erefl)).
rewrite bind_ok; have [|y hy|h2 [new' [-> hl' p2 c2]]] := IH _ h1 (ret ++ new).
- by move=> h' ret' y hy; apply: st; right.
- by apply: preH hl _; apply: pre; right.
exists h2, (new ++ new'); split.
- by rewrite catA.
- exact: hle_trans hl hl'.
- by move=> e /List.in_app_iff[/p1|/p2//]; exact: postH.
- by move=> v; rewrite count_cat c1 c2.
Qed.

Definition exp_ok h con polies m h' es : Prop :=
  [/\ hle h h', forall e, List.In e es -> entry_ok h con polies m h' e &
      forall v, count (fun e => cs v e.1.1) es = cs v con].

(** Dropping the head. *)
Lemma entry_pick h0 con polies m h e k : entry_ok h0 con polies m h e -> k \in polies ->
  exists2 q, dget (hget h e.2) k = Ok q & reduces e.1.1 k q /\ q \in e.1.2.
Proof.
move=> eo hk; have [|q E] := @dmem_get _ _ (hget h e.2) k.
  by apply: (eo_keys eo); rewrite mem_cat hk orbT.
by exists q => //; have r := eo_map eo E; split=> //; apply/(eo_ps eo); exists k.
Qed.

Lemma newkeys_dset con c p s : newkeys con c -> s \in signs -> hv (LC p) -> Gd p ->
  newkeys con (dset c (LC p) s).
Proof.
move=> h hs hp g k s'; rewrite dget_dset; case: eqP => [-> [<-]|_]; last exact: h.
by right; split=> //; exists p.
Qed.

Lemma newkeys_trans con c c' : newkeys con c -> newkeys c c' -> newkeys con c'.
Proof. by move=> h1 h2 k s /h2[/h1|]; [|right]. Qed.

Lemma newkeys_keep con c p s : newkeys con c -> dget c (LC p) = Ok s -> newkeys con (dset c (LC p) s).
Proof. by move=> h E; rewrite dset_same. Qed.

(** The signs that are tried. *)
Definition tried (c : context P) (k : P) (s : int) : Prop :=
  dget c k = Ok s \/ (~~ dmem c k /\ s \in signs).

Lemma tried_ext c k s : tried c k s -> extends c (dset c k s).
Proof.
move=> [E|[nk _]]; first by rewrite dset_same.
by apply: extends_dset => w E; move: nk; rewrite (dget_mem E).
Qed.

Lemma tried_new con c p s : newkeys con c -> tried c (LC p) s -> hv (LC p) -> Gd p -> newkeys con (dset c (LC p) s).
Proof. by move=> h [E|[_ hs]] hp g; [rewrite dset_same|exact: newkeys_dset]. Qed.

Section Head.
Variables (h0 : heap P) (con : context P) (m : nat) (hd : P) (rest : seq P).
Hypothesis hvh : hv (LC hd).
Hypothesis gh : Gd hd.

Lemma entry_nonzero h c ps a s : entry_ok h0 con rest m h (c, ps, a) -> tried c (LC hd) s -> s != 0 ->
  let h' := rcons h (dset (hget h a) hd hd) in
  entry_ok h0 con (hd :: rest) m h' (dset c (LC hd) s, rcons ps hd, size h).
Proof.
move=> eo ts s0 h'; have ex := tried_ext ts.
have rh : reduces (dset c (LC hd) s) hd hd.
  by apply: (red_nonzero hvh _ s0); rewrite dget_dset eqxx.
split=> /=.
- by rewrite /h' size_rcons.
- exact: extends_trans (eo_ext eo) ex.
- exact: tried_new (eo_new eo) ts hvh gh.
- by move=> u; apply/uniq_dset/(eo_uniq eo).
- rewrite /h' hget_alloc => k q; rewrite dget_dset; case: eqP => [-> [<-] //|_ E].
  exact: reduces_mono ex (eo_map eo E).
- rewrite /h' hget_alloc => k; rewrite keys_dset mem_cat !inE => hk.
  case: eqP hk => // _ /=; rewrite -mem_cat; exact: (eo_keys eo).
- move=> q; rewrite mem_rcons inE; split=> [/orP[/eqP->|]|[k]].
  + by exists hd; rewrite ?mem_head.
  + by move/(eo_ps eo) => [k hk r]; exists k; [rewrite inE hk orbT|exact: reduces_mono ex r].
  + rewrite inE => /orP[/eqP->|hk] r; first by rewrite (reduces_fun r rh) eqxx.
    have [q0 _ [r0 hq]] := entry_pick eo hk.
    by rewrite (reduces_fun r (reduces_mono ex r0)) hq orbT.
Qed.

Lemma entry_zero h c ps a h1 h2 c2 ps2 a2 q : entry_ok h0 con rest m h (c, ps, a) -> tried c (LC hd) 0 ->
  entry_ok h (dset c (LC hd) 0) [:: tail hd] a h1 (c2, ps2, a2) -> hle h1 h2 ->
  dget (hget h2 a2) (tail hd) = Ok q ->
  let h' := rcons h2 (dset (hget h2 a2) hd q) in
  entry_ok h0 con (hd :: rest) m h' (c2, ps ++ ps2, size h2).
Proof.
move=> eo ts eo2 hl E h'; have ex := tried_ext ts.
have {}eo2 := entry_hle hl eo2.
have ex2 : extends c c2 := extends_trans ex (eo_ext eo2).
have rq : reduces c2 (tail hd) q := eo_map eo2 E.
have hq : q \in ps2 by apply/(eo_ps eo2); exists (tail hd); rewrite ?mem_head.
have rh : reduces c2 hd q.
  by apply: (red_tail hvh _ rq); apply: (eo_ext eo2); rewrite dget_dset eqxx.
split=> /=.
- by rewrite /h' size_rcons.
- exact: extends_trans (eo_ext eo) ex2.
- exact: newkeys_trans (tried_new (eo_new eo) ts hvh gh) (eo_new eo2).
- by move=> u; apply: (eo_uniq eo2); apply/uniq_dset/(eo_uniq eo).
- rewrite /h' hget_alloc => k q'; rewrite dget_dset; case: eqP => [-> [<-] //|_].
  exact: (eo_map eo2).
- rewrite /h' hget_alloc => k; rewrite keys_dset mem_cat !inE => hk.
  case: eqP hk => // _ /=; rewrite -mem_cat => /(eo_keys eo) hk.
  by apply: (eo_keys eo2); rewrite mem_cat hk.
- move=> q'; rewrite mem_cat; split=> [/orP[|]|[k]].
  + by move/(eo_ps eo) => [k hk r]; exists k; [rewrite inE hk orbT|exact: reduces_mono ex2 r].
  + move/(eo_ps eo2) => [k]; rewrite inE => /eqP-> r; exists hd; rewrite ?mem_head //.
    by rewrite (reduces_fun r rq).
  + rewrite inE => /orP[/eqP->|hk] r; first by rewrite (reduces_fun r rh) hq orbT.
    have [q0 _ [r0 hq0]] := entry_pick eo hk.
    by rewrite (reduces_fun r (reduces_mono ex2 r0)) hq0.
Qed.
End Head.

Lemma count_tried v c k : ~~ dmem c k ->
  sumn [seq (cs v (dset c k s) : nat) | s <- signs] = cs v c.
Proof.
by move=> nk /=; rewrite !cs_dset //; case: (cs v c) => //=; case: (sgzP (cvalue den (pev v) k)).
Qed.

Lemma expand_ok n h con polies m : (size polies < n)%N ->
  (forall p, p \in polies -> size polies + sz p < n)%N -> (forall p, p \in polies -> Gd p) ->
  (m < size h)%N -> valid con (hget h m) ->
  exists h' es, expand_context A n h con polies m = Ok (h', es) /\ exp_ok h con polies m h' es.
Proof.
elim: n h con polies m => // n IH h con [|hd rest] m sn bnd gd hm vm.
  exists h, [:: (con, [::], m)]; split=> //; split; first exact: hle_refl.
    move=> e [<-|//]; split=> //=.
    - by move=> k s; left.
    - by rewrite cats0.
    - by move=> q; split=> // -[].
  by move=> v /=; rewrite addn0.
rewrite [expand_context _ _ _ _ _ _]/=.
have [|||h1 [er [-> [hl1 eo1 ct1]]]] := IH h con rest m _ _ _ hm vm => //.
- by move=> p hp; have := bnd p; rewrite inE hp orbT => /(_ isT) /=; lia.
- by move=> p hp; apply: gd; rewrite inE hp orbT.
have gh : Gd hd by apply: gd; exact: mem_head.
rewrite bind_ok; case hvh: (hv (LC hd)) => /=; last first.
  rewrite LC_eq0 andNb /=; set h2 := foldl _ _ _.
  have main (l : seq (entry P)) g : (forall e, List.In e l -> e.2 < size g)%N ->
    let g' := foldl (fun h e => hset h e.2 hd hd) g l in hle g g' /\
    forall e, List.In e l -> hd \in map fst (hget g' e.2).
    elim: l g => [|e l IHl] g b /=; first by split=> //; exact: hle_refl.
    have be : (e.2 < size g)%N by apply: b; left.
    have hl : hle g (hset g e.2 hd hd) by apply: hle_set; rewrite ?hvh.
    have [|hl' hk] := IHl (hset g e.2 hd hd).
      by move=> x hx; rewrite size_hset //; apply: b; right.
    split; first exact: hle_trans hl hl'.
    move=> x [<-|]; last exact: hk.
    apply: (hle_keys hl'); first by rewrite size_hset.
    by apply: (@dget_mem _ _ _ _ hd); rewrite hget_set // !eqxx.
  have [|hl2 hk2] := main er h1; first by move=> e /eo1 [].
  eexists _, _; split; first by []; split.
  - exact: hle_trans hl1 hl2.
  - move=> e /List.in_map_iff[[[c ps] a] [<- he]] /=; have eo := entry_hle hl2 (eo1 _ he).
    have rh : reduces c hd hd by apply: red_scalar; rewrite hvh.
    split=> /=; [exact: eo_addr eo|exact: eo_ext eo|exact: eo_new eo|exact: eo_uniq eo|exact: eo_map eo| |].
      move=> k; rewrite mem_cat inE => hk; case: (eqVneq k hd) hk => [-> _|_ /=]; first exact: (hk2 _ he).
      by rewrite -mem_cat; exact: (eo_keys eo).
    move=> q; rewrite inE; split=> [/orP[/eqP->|/(eo_ps eo)[k hk r]]|[k]].
    + by exists hd; rewrite ?mem_head.
    + by exists k => //; rewrite inE hk orbT.
    + rewrite inE => /orP[/eqP->|hk] r; first by rewrite (reduces_fun r rh) eqxx.
      by apply/orP; right; apply/(eo_ps eo); exists k.
  - by move=> v; rewrite -ct1 count_map.
have fin (h' : heap P) es : hle h1 h' -> (forall e, List.In e es -> entry_ok h con (hd :: rest) m h' e) ->
  (forall v, count (fun e => cs v e.1.1) es = sumn [seq (cs v e.1.1 : nat) | e : entry P <- er]) ->
  exp_ok h con (hd :: rest) m h' es.
  move=> hl eo ct; split=> //; first exact: hle_trans hl1 hl.
  by move=> v; rewrite ct -ct1 sumn_count.
have tl1 : (sz (tail hd) < sz hd)%N by apply: (sz_tail ok); exact: hv_nonzero.
have n1 : (1 < n)%N by have := bnd hd; rewrite mem_head => /(_ isT) /=; slia.
have n2 : (1 + sz (tail hd) < n)%N by have := bnd hd; rewrite mem_head => /(_ isT) /=; slia.
match goal with |- context [foldM ?f (h1, [::]) er] => set F := f end.
have [|||h' [es [-> hl eo ct]]] := @fold_acc _ F er (entry_ok h con rest m) (entry_ok h con (hd :: rest) m)
  (fun v e => cs v e.1.1) _ _ _ h1 [::] eo1.
- by move=> g g' x; exact: entry_hle.
- by move=> g g' x; exact: entry_hle.
- move=> {fin} g ret [[c ps] a] he eog; rewrite /F.
  have : exists2 ss, (let! possible_signs := (if dmem c (LC hd) then let! s := sign_context_lookup A c (LC hd) in Ok [:: s]
      else Ok [:: -1; 0; 1]) in Ok possible_signs) = Ok ss &
      (forall s, s \in ss -> tried c (LC hd) s) /\
      forall v, sumn [seq (cs v (dset c (LC hd) s) : nat) | s <- ss] = cs v c.
    case hm': (dmem c (LC hd)).
      have [s E] := dmem_get hm'; exists [:: s]; first by rewrite /sign_context_lookup hvh hm' /= E.
      split=> [s'|v]; first by rewrite inE => /eqP->; left.
      by rewrite /= dset_same // addn0.
    exists [:: -1; 0; 1] => //; split=> [s hs|v]; first by right; rewrite hm'.
    by rewrite -(count_tried v (negbT hm')).
  case: (if dmem c (LC hd) then _ else _) => [ss0|e0] [ss] // [->] [hss css]; rewrite bind_ok.
  match goal with |- context [foldM ?f (g, ret) ss] => set F2 := f end.
  have pre0 : forall s, List.In s ss -> hle g g by move=> *; exact: hle_refl.
  have [|||h' [new [E hl eo ct]]] := @fold_acc _ F2 ss (fun g' s => hle g g') (entry_ok h con (hd :: rest) m)
    (fun v s => cs v (dset c (LC hd) s)) _ _ _ g ret pre0.
  + by move=> g1 g2 x hl hp; exact: hle_trans hp hl.
  + by move=> g1 g2 x; exact: entry_hle.
  + move=> g1 ret1 s /InP hs hlg; rewrite /F2; have eog1 := entry_hle hlg eog.
    have ts := hss _ hs; case: (eqVneq s 0) => [s0|s0] /=; last first.
      eexists _, [:: _]; split; first by rewrite cats1.
      - exact: hle_alloc.
      - by move=> e [<-|//]; exact: entry_nonzero.
      - by move=> v /=; rewrite addn0.
    rewrite s0 in ts *.
    have [| | | |g2 [es2 [-> [hl2 eo2 ct2]]]] := IH g1 (dset c (LC hd) 0) [:: tail hd] a n1.
    * by move=> p; rewrite inE => /eqP->.
    * by move=> p; rewrite inE => /eqP->; exact: Gd_tail.
    * exact: eo_addr eog1.
    * exact: valid_mono (tried_ext ts) (eo_map eog1).
    rewrite bind_ok; match goal with |- context [foldM ?f (g2, ret1) es2] => set F3 := f end.
    have pre2 : forall e, List.In e es2 -> hle g2 g2 by move=> *; exact: hle_refl.
    have [|||h' [new [E hl eo ct]]] := @fold_acc _ F3 es2 (fun g' e => hle g2 g') (entry_ok h con (hd :: rest) m)
      (fun v e => cs v e.1.1) _ _ _ g2 ret1 pre2.
    * by move=> g3 g4 x hl hp; exact: hle_trans hp hl.
    * by move=> g3 g4 x; exact: entry_hle.
    * move=> g3 ret3 [[c2 ps2] a2] he2 hl3; rewrite /F3.
      have eo3 := entry_hle hl3 (eo2 _ he2).
      have [q Eq _] := entry_pick eo3 (mem_head _ _); rewrite /= in Eq; rewrite Eq bind_ok.
      eexists _, [:: _]; split; first by rewrite cats1.
      + exact: hle_alloc.
      + move=> e [<-|//]; exact: entry_zero eog1 ts (eo2 _ he2) hl3 Eq.
      + by move=> v /=; rewrite addn0.
    exists h', new; split=> //; first exact: hle_trans hl2 hl.
    by move=> v; rewrite ct -ct2 sumn_count.
  exists h', new; split=> //.
  by move=> v; rewrite ct css.
exists h', es; split=> //; exact: fin.
Qed.

(** More fuel gives the same result. *)
Lemma expand_mono n n' h con polies m r : (n <= n')%N ->
  expand_context A n h con polies m = Ok r -> expand_context A n' h con polies m = Ok r.
Proof.
elim: n n' h con polies m r => // n IH [//|n'] h con [//|hd rest] m r; rewrite ltnS => le /=.
case E: (expand_context A n h con rest m) => [[h1 er]|//]; rewrite (IH _ _ _ _ _ _ le E) !bind_ok.
case: (~~ hv (LC hd)) => //; apply: foldM_mono => -[g ret] [[c ps] a] y.
case: (if dmem c (LC hd) then _ else _) => [ss|//]; rewrite !bind_ok; apply: foldM_mono => -[g1 ret1] s y1.
case: (s != 0) => //; case E2: (expand_context A n _ _ _ _) => [z|//]; by rewrite (IH _ _ _ _ _ _ le E2).
Qed.

(** The leading coefficient of a determined polynomial does not vanish. *)
Hypothesis scal : scalars_exact A den.

Lemma determined_lc v con p : cs v con -> determined A con p -> pev v (lead_coef (den p)) != 0.
Proof.
move=> cv [p0 h]; rewrite -cvalue_LC -sgz_eq0; case: h => [nv|[s E s0]]; last by rewrite -(csP cv E).
rewrite -(pok v (LC_const p) nv); apply/negP => /eqP /(scal.1 _ (LC_const p) nv).2 /eqP.
by rewrite LC_eq0 => /eqP.
Qed.
End Exp.
