(** uni_vts.py 434-451, the sign of a polynomial by direct calculation, and
    608-667, descriptors with the lists that are only printed. *)
From Coq Require Import String Ascii.
From mathcomp Require Import all_ssreflect all_algebra.
From mathcomp.real_closed Require Import polyrcf polyorder.
From mathcomp.zify Require Import zify.
From Verif Require Import Py VtsModel VtsPoly VtsRem VtsTaq VtsCount Thom VtsDiscr VtsSpec VtsMain VtsBridge.

Set Implicit Arguments.
Unset Strict Implicit.
Unset Printing Implicit Defensive.
Import GRing.Theory Num.Theory Order.POrderTheory Order.TotalTheory.
Local Open Scope ring_scope.

Section Model.
Variables (D K : realDomainType) (inj : D -> K).
Variables (H : eqType) (str : D -> H).
Variable MkRoots : seq D -> res (seq K).

(** uni_vts.py 439-444: the inner loop, which ends at the first wrong sign. *)
Fixpoint direct_good (d : DiscDerSigns D K H) (ps : seq (seq D)) (r : K) : res bool :=
  match ps with
  | [::] => Ok true
  | p :: ps' =>
    let p_sign := sign_func (evaluate_poly inj p r) in
    let! s := get_sign str d p in
    if p_sign != s then Ok false else direct_good d ps' r
  end.

(** uni_vts.py 434-451 [get_sign_by_direct_calc]. *)
Definition get_sign_by_direct_calc (polies : seq (seq D)) (d : DiscDerSigns D K H) : res int :=
  let! rs := MkRoots (dds_origin d) in
  let! good_values := foldM (fun good_values r =>
    let! good := direct_good d (pybutlast polies) r in
    if good then
      let! q := pylast polies in
      Ok (rcons good_values (sign_func (evaluate_poly inj q r)))
    else Ok good_values) [::] rs in
  if size good_values != 1%N then Err (Exc "didn't have a good value")
  else pyget good_values 0.

(** uni_vts.py 608-614: all fields; [origin] exists after set_origin_poly. *)
Record Descriptor := MkD3 {
  d3_point : K;
  d3_neg : seq (seq D); d3_zer : seq (seq D); d3_pos : seq (seq D);
  d3_all : seq (seq D);
  d3_lookup : dict [eqType of seq H] int;
  d3_origin : option (seq D)
}.
Definition new3 (point : K) : Descriptor := MkD3 point [::] [::] [::] [::] [::] None.

(** uni_vts.py 639-642. *)
Definition add_all3 (poly : seq D) (d : Descriptor) : res Descriptor :=
  if poly \in d3_all d then Err TypeError
  else Ok (MkD3 (d3_point d) (d3_neg d) (d3_zer d) (d3_pos d) (rcons (d3_all d) poly)
             (d3_lookup d) (d3_origin d)).
Definition set_lookup3 (poly : seq D) (s : int) (d : Descriptor) : Descriptor :=
  MkD3 (d3_point d) (d3_neg d) (d3_zer d) (d3_pos d) (d3_all d)
    (dset (d3_lookup d) (make_poly_hashabel str poly) s) (d3_origin d).
(** uni_vts.py 616-619. *)
Definition add_pos_poly (poly : seq D) (d : Descriptor) : res Descriptor :=
  let! d := add_all3 poly (MkD3 (d3_point d) (d3_neg d) (d3_zer d) (rcons (d3_pos d) poly)
                             (d3_all d) (d3_lookup d) (d3_origin d)) in
  Ok (set_lookup3 poly 1 d).
(** uni_vts.py 621-624. *)
Definition add_neg_poly (poly : seq D) (d : Descriptor) : res Descriptor :=
  let! d := add_all3 poly (MkD3 (d3_point d) (rcons (d3_neg d) poly) (d3_zer d) (d3_pos d)
                             (d3_all d) (d3_lookup d) (d3_origin d)) in
  Ok (set_lookup3 poly (-1) d).
(** uni_vts.py 626-629. *)
Definition add_zer_poly (poly : seq D) (d : Descriptor) : res Descriptor :=
  let! d := add_all3 poly (MkD3 (d3_point d) (d3_neg d) (rcons (d3_zer d) poly) (d3_pos d)
                             (d3_all d) (d3_lookup d) (d3_origin d)) in
  Ok (set_lookup3 poly 0 d).
(** uni_vts.py 634-635. *)
Definition set_origin3 (poly : seq D) (d : Descriptor) : Descriptor :=
  MkD3 (d3_point d) (d3_neg d) (d3_zer d) (d3_pos d) (d3_all d) (d3_lookup d) (Some poly).
(** uni_vts.py 644-645. *)
Definition get_sign3 (d : Descriptor) (poly : seq D) : res int :=
  dget (d3_lookup d) (make_poly_hashabel str poly).

(** uni_vts.py 674-731 with these descriptors. *)
Definition branch3 (rec : seq K -> seq D -> res (seq Descriptor))
    (add : seq D -> Descriptor -> res Descriptor) (some_roots roots : seq K) (der : seq D) :
    res (seq Descriptor) :=
  if size some_roots == 0%N then Ok [::]
  else
    let! discDerSigns := rec some_roots der in
    if size some_roots == size roots then Ok discDerSigns
    else mapM (add der) discDerSigns.
Fixpoint descriptors_rec (n : nat) (roots : seq K) (exact_poly : seq D) : res (seq Descriptor) :=
  match roots with
  | [::] => Ok [::]
  | [:: r] => Ok [:: new3 r]
  | _ =>
    match n with
    | 0 => Err OutOfFuel
    | n'.+1 =>
      let der := derivative exact_poly in
      let der_value root := evaluate_poly inj der root in
      let pos_roots := [seq root <- roots | der_value root > 0] in
      let neg_roots := [seq root <- roots |
                          ~~ (der_value root > 0) && (der_value root < 0)] in
      let zero_roots := [seq root <- roots |
                          ~~ (der_value root > 0) && ~~ (der_value root < 0)] in
      let! z := branch3 (descriptors_rec n') add_zer_poly zero_roots roots der in
      let! p := branch3 (descriptors_rec n') add_pos_poly pos_roots roots der in
      let! m := branch3 (descriptors_rec n') add_neg_poly neg_roots roots der in
      Ok (z ++ p ++ m)
    end
  end.
Definition descriptors roots exact_poly := descriptors_rec (size exact_poly) roots exact_poly.

(** uni_vts.py 647-664, the three keys of [__repr__]: flags for the lengths
    from that of the origin minus one down to the smallest recorded. *)
Definition key (degs : seq nat) (marked : seq nat) : string :=
  foldl (fun k deg => append k (if deg \in marked then "1,"%string else "0,"%string)) ""%string degs.
Definition drop_last (s : string) : string := String.substring 0 (String.length s).-1 s.
Definition repr_keys (d : Descriptor) : res (string * string * string) :=
  let degrees := map size (d3_all d) in
  match d3_origin d with
  | None => Err AttributeError
  | Some o =>
    match degrees with
    | [::] => Err (Exc "min() arg is an empty sequence")
    | a :: l =>
      let m := foldl minn a l in
      let degs := rev (iota m (size o - m)) in
      Ok (key degs (map size (d3_neg d)), key degs (map size (d3_zer d)),
          drop_last (key degs (map size (d3_pos d))))
    end
  end.
End Model.

(** ** Direct calculation *)
Section Direct.
Variables (D : realDomainType) (R : rcfType) (inj : {rmorphism D -> R}).
Hypothesis inj_lt : {mono inj : x y / x < y}.
Variables (H : eqType) (str : D -> H).
Hypothesis str_inj : injective str.
Variable MkRoots : seq D -> res (seq R).
Hypothesis roots_ok : MkRoots_contract inj MkRoots.

Lemma sign_func_sgz (v : R) : sign_func v = sgz v.
Proof. by rewrite /sign_func; case: (ltrgt0P v) => [/gtr0_sgz|/ltr0_sgz|->]; rewrite ?sgz0. Qed.

Lemma direct_goodP (d : DiscDerSigns D R H) (f : seq D -> int) ps r :
  {in ps, forall q, get_sign str d q = Ok (f q)} ->
  direct_good inj str d ps r = Ok (all (fun q => sgz (value inj q r) == f q) ps).
Proof.
elim: ps => [//|q ps IH] h /=; rewrite h ?mem_head // bind_ok sign_func_sgz (evaluate_poly_value inj).
by case: eqP => //= _; apply: IH => q' h'; apply: h; rewrite inE h' orbT.
Qed.

Lemma direct_sign p T ds d g : wf p -> lists_roots inj p T ->
  get_discri_der_signs inj str T p = Ok ds -> List.In d ds ->
  exists2 s, is_sign s (value inj g (dds_point d)) &
    get_sign_by_direct_calc inj str MkRoots (dds_all_polies d ++ [:: g]) (set_origin_poly p d) = Ok s.
Proof.
move=> wp hT hds hd; exists (sgz (value inj g (dds_point d))); first exact: sgz_is_sign.
have [ds' [E' pm h]] := discri_separates inj_lt str_inj wp hT.
move: E'; rewrite hds => -[E']; rewrite -{ds'}E' in pm h.
have [gs un] := h d hd; have [T' ET [uT' rT']] := roots_ok wp.
have xT : dds_point d \in T'.
  apply/rT'; apply/(hT.2); rewrite -(perm_mem pm).
  by elim: (ds) hd => //= d' l IH [->|/IH]; rewrite inE ?eqxx // => ->; rewrite orbT.
rewrite /get_sign_by_direct_calc ET bind_ok.
have -> : pybutlast (dds_all_polies d ++ [:: g]) = dds_all_polies d.
  by rewrite /pybutlast size_cat addn1 /= take_size_cat.
have -> : pylast (dds_all_polies d ++ [:: g]) = Ok g by case: (dds_all_polies d) => [|a l] /=; rewrite /pylast ?last_cat.
pose f q := sgz (value inj q (dds_point d)).
have gf : {in dds_all_polies d, forall q, get_sign str (set_origin_poly p d) q = Ok (f q)}.
  by move=> q /gs[_ [s Es /is_sign_sgz Ef]]; rewrite /f -Ef.
have E l acc : {subset l <= T'} -> foldM (fun good_values r =>
    let! good := direct_good inj str (set_origin_poly p d) (dds_all_polies d) r in
    if good then let! q := Ok g in Ok (rcons good_values (sign_func (evaluate_poly inj q r)))
    else Ok good_values) acc l = Ok (acc ++ [seq sgz (value inj g r) | r <- l & r == dds_point d]).
  elim: l acc => [|r l IH] acc sl /=; first by rewrite cats0.
  rewrite (direct_goodP r gf) bind_ok.
  have -> : all (fun q => sgz (value inj q r) == f q) (dds_all_polies d) = (r == dds_point d).
    apply/allP/eqP => [a|-> q _]; last exact: eqxx.
    apply: un; first by apply/rT'/sl; rewrite mem_head.
    move=> q hq; have [_ [s Es _]] := gs q hq; exists s => //; have /eqP := a q hq.
    have := gf q hq; rewrite -[get_sign _ _ _]/(get_sign str d q) Es => -[->] <-; exact: sgz_is_sign.
  case: eqP => e; rewrite ?bind_ok IH.
  - by rewrite sign_func_sgz (evaluate_poly_value inj) -cats1 -catA.
  - by move=> z hz; apply: sl; rewrite inE hz orbT.
  - by [].
  - by move=> z hz; apply: sl; rewrite inE hz orbT.
by rewrite E // bind_ok (filter_pred1_uniq uT' xT).
Qed.

(** It agrees with the sign computed from the Tarski queries. *)
Lemma direct_agrees (mx_inv : rmatrix -> rmatrix) p T ds d g s : inv_contract mx_inv ->
  wf p -> lists_roots inj p T -> get_discri_der_signs inj str T p = Ok ds -> List.In d ds ->
  wf g || allzero g ->
  evaluate_single_on_sign_assignment str mx_inv (set_origin_poly p d) g = Ok s ->
  get_sign_by_direct_calc inj str MkRoots (dds_all_polies d ++ [:: g]) (set_origin_poly p d) = Ok s.
Proof.
move=> ic wp hT hds hd hg E.
have [s1 h1 E1] := direct_sign g wp hT hds hd.
have [s2 h2 /=] := evaluate_single_sign inj_lt str_inj ic wp hT hds hd hg.
rewrite E => -[[->]|[] //]; by rewrite E1 (is_sign_sgz h1) (is_sign_sgz h2).
Qed.
End Direct.

(** ** Descriptors with all fields *)
Section Fields.
Variables (D : realDomainType) (R : rcfType) (inj : {rmorphism D -> R}).
Hypothesis inj_lt : {mono inj : x y / x < y}.
Variables (H : eqType) (str : D -> H).
Hypothesis str_inj : injective str.
Notation desc := (Descriptor D R H).

Definition core3 (d : desc) : DiscDerSigns D R H :=
  MkDDS (d3_point d) (d3_all d) (d3_lookup d) (odflt [::] (d3_origin d)).
Definition rmap (A B : Type) (f : A -> B) (r : res A) : res B := let! x := r in Ok (f x).

Definition add3 (s : int) : seq D -> desc -> res desc :=
  if s == 1 then add_pos_poly str else if s == -1 then add_neg_poly str else add_zer_poly str.
Definition sgn3 (s : int) : bool := s \in [:: -1; 0; 1].

Lemma add3_core s q d : sgn3 s -> rmap core3 (add3 s q d) = add_poly str s q (core3 d).
Proof.
rewrite /sgn3 !inE => /or3P[] /eqP->; rewrite /add3 /add_poly /=.
all: rewrite /add_pos_poly /add_neg_poly /add_zer_poly /add_all3 /=.
all: by case: (q \in d3_all d).
Qed.

Lemma mapM_core s q ds : sgn3 s ->
  rmap (map core3) (mapM (add3 s q) ds) = mapM (add_poly str s q) (map core3 ds).
Proof.
move=> hs; elim: ds => [//|d ds IH] /=; rewrite -(add3_core q d hs).
case: (add3 s q d) => [d'|//]; rewrite /rmap !bind_ok -IH.
by case: (mapM _ ds).
Qed.

Lemma branch_core rec3 rec s T' T q : sgn3 s ->
  (forall T' q, rmap (map core3) (rec3 T' q) = rec T' q) ->
  rmap (map core3) (branch3 rec3 (add3 s) T' T q) = discri_branch str rec s T' T q.
Proof.
move=> hs h; rewrite /branch3 /discri_branch -h; case: ifP => // _.
case: (rec3 T' q) => [ds|//]; rewrite /rmap !bind_ok; case: ifP => // _.
exact: mapM_core.
Qed.

Lemma rec_core n T p :
  rmap (map core3) (descriptors_rec inj str n T p) = get_discri_der_signs_rec inj str n T p.
Proof.
elim: n T p => [|n IH] [|a [|b T]] p //.
rewrite [descriptors_rec _ _ _ _ _]/descriptors_rec -/(descriptors_rec inj str).
rewrite [get_discri_der_signs_rec _ _ _ _ _]/get_discri_der_signs_rec.
rewrite -/(get_discri_der_signs_rec inj str).
move: [:: a, b & T] => {a b}T.
rewrite -[add_zer_poly str]/(add3 0) -[add_pos_poly str]/(add3 1) -[add_neg_poly str]/(add3 (-1)).
set T1 := filter _ T; set T2 := filter _ T; set T3 := filter _ T; set q := derivative p.
rewrite -(@branch_core (descriptors_rec inj str n) _ 0 T1 T q) //.
rewrite -(@branch_core (descriptors_rec inj str n) _ 1 T2 T q) //.
rewrite -(@branch_core (descriptors_rec inj str n) _ (-1) T3 T q) //.
case: (branch3 _ _ T1 _ _) => [z|//]; case: (branch3 _ _ T2 _ _) => [u|//]; case: (branch3 _ _ T3 _ _) => [v|//].
by rewrite /rmap !bind_ok !map_cat.
Qed.

Lemma descriptors_core T p : rmap (map core3) (descriptors inj str T p) = get_discri_der_signs inj str T p.
Proof. exact: rec_core. Qed.

(** The three lists hold the recorded polynomials by sign. *)
Definition by_sign (d : desc) : Prop := forall r,
  [/\ r \in d3_neg d <-> r \in d3_all d /\ get_sign3 str d r = Ok (-1),
      r \in d3_zer d <-> r \in d3_all d /\ get_sign3 str d r = Ok 0 &
      r \in d3_pos d <-> r \in d3_all d /\ get_sign3 str d r = Ok 1].

Lemma add3_by_sign s q d d' : sgn3 s -> by_sign d -> add3 s q d = Ok d' -> by_sign d'.
Proof.
rewrite /sgn3 !inE => hs bs; have E r : (make_poly_hashabel str r == make_poly_hashabel str q) = (r == q).
  by rewrite (inj_eq (inj_map str_inj)).
case/or3P: hs => /eqP->; rewrite /add3 /=.
all: rewrite /add_pos_poly /add_neg_poly /add_zer_poly /add_all3 /=; case: ifP => // /negbT nq [<-] r.
all: have n1 : (q \in d3_neg d) = false by apply/negP; case: (bs q) => h _ _ /h[]; rewrite (negPf nq).
all: have n2 : (q \in d3_zer d) = false by apply/negP; case: (bs q) => _ h _ /h[]; rewrite (negPf nq).
all: have n3 : (q \in d3_pos d) = false by apply/negP; case: (bs q) => _ _ h /h[]; rewrite (negPf nq).
all: rewrite /get_sign3 /= dget_dset E !mem_rcons !inE; case: eqVneq => [->|_] /=; last exact: bs.
all: by rewrite ?n1 ?n2 ?n3; split; split=> // -[].
Qed.

Lemma branch_by_sign rec s T' T q ds' : sgn3 s ->
  (forall T' q ds, rec T' q = Ok ds -> List.Forall by_sign ds) ->
  branch3 rec (add3 s) T' T q = Ok ds' -> List.Forall by_sign ds'.
Proof.
move=> hs h; rewrite /branch3; case: ifP => [_ [<-] //|_].
case: (rec T' q) (h T' q) => [l|//] /(_ _ erefl) hl; rewrite bind_ok; case: ifP => [_ [<-] //|_].
elim: l hl ds' => [_ _ [<-] //|d l IH] /List.Forall_cons_iff[hd hl] ds' /=.
case Ed: (add3 s q d) => [d'|//]; rewrite bind_ok; case El: (mapM _ l) => [l'|//] [<-].
by constructor; [exact: add3_by_sign Ed|exact: IH].
Qed.

Lemma rec_by_sign n T p ds : descriptors_rec inj str n T p = Ok ds -> List.Forall by_sign ds.
Proof.
have new a : by_sign (new3 D H a) by move=> r; split; split=> // -[].
elim: n T p ds => [|n IH] [|a [|b T]] p ds; try by move=> [<-] //; constructor.
  by [].
rewrite [descriptors_rec _ _ _ _ _]/descriptors_rec -/(descriptors_rec inj str).
move: [:: a, b & T] => {a b}T.
rewrite -[add_zer_poly str]/(add3 0) -[add_pos_poly str]/(add3 1) -[add_neg_poly str]/(add3 (-1)).
set T1 := filter _ T; set T2 := filter _ T; set T3 := filter _ T; set q := derivative p.
case E1: (branch3 _ _ T1 _ _) => [z|//]; case E2: (branch3 _ _ T2 _ _) => [u|//]; case E3: (branch3 _ _ T3 _ _) => [v|//].
rewrite !bind_ok => -[<-]; rewrite !List.Forall_app.
by split; [apply: branch_by_sign E1|split; [apply: branch_by_sign E2|apply: branch_by_sign E3]].
Qed.

(** *** The printed flags *)
Lemma key_cons a degs m : key (a :: degs) m = append (if a \in m then "1,"%string else "0,"%string) (key degs m).
Proof.
rewrite /key /=; move: (if a \in m then _ else _) => acc.
have E (acc' : string) : foldl (fun k deg => append k (if deg \in m then "1,"%string else "0,"%string)) acc' degs =
    append acc' (foldl (fun k deg => append k (if deg \in m then "1,"%string else "0,"%string)) ""%string degs).
  have app0 (x : string) : append x ""%string = x by elim: x => //= c x ->.
  have appA (x y z : string) : append (append x y) z = append x (append y z) by elim: x => //= c x ->.
  elim: degs acc' => [|b l IH] acc' /=; first by rewrite app0.
  by rewrite IH [in RHS]IH appA.
exact: E.
Qed.

Lemma key_get degs m i : (i < size degs)%N ->
  String.get (2 * i) (key degs m) = Some (if nth 0%N degs i \in m then "1"%char else "0"%char).
Proof.
elim: degs i => [//|a l IH] [_|i hi]; rewrite key_cons.
  by rewrite muln0 /=; case: ifP.
have -> : (2 * i.+1 = (2 * i).+2)%N by lia.
by rewrite [nth _ _ _]/= -(IH i hi); case: ifP.
Qed.

Lemma key_length degs m : String.length (key degs m) = (2 * size degs)%N.
Proof. by elim: degs => [//|a l IH]; rewrite key_cons; case: ifP => _ /=; rewrite IH; lia. Qed.

Lemma foldl_minn a l : (foldl minn a l <= a)%N /\ forall b, b \in l -> (foldl minn a l <= b)%N.
Proof.
elim: l a => [|c l IH] a /=; first by rewrite leqnn.
have [h1 h2] := IH (minn a c); split; first by apply: leq_trans h1 _; rewrite geq_minl.
move=> b; rewrite inE => /orP[/eqP->|]; last exact: h2.
by apply: leq_trans h1 _; rewrite geq_minr.
Qed.

Definition flag (b : bool) : option ascii := Some (if b then "1"%char else "0"%char).

Lemma repr_flags p T ds d : wf p -> lists_roots inj p T ->
  descriptors inj str T p = Ok ds -> List.In d ds -> (1 < size T)%N ->
  exists n z q, repr_keys (set_origin3 p d) = Ok (n, z, q) /\
  d3_all d <> [::] /\
  forall r, r \in d3_all d -> exists i s,
    [/\ Poly r = (Poly p)^`(i.+1), get_sign3 str d r = Ok s, is_sign s (value inj r (d3_point d)) &
    [/\ String.get (2 * i) n = flag (s == -1), String.get (2 * i) z = flag (s == 0) &
         String.get (2 * i) q = flag (s == 1)]].
Proof.
move=> wp [uT rT] hds hd sT.
have Ecore := descriptors_core T p; rewrite hds /rmap bind_ok in Ecore.
have rT' x : x \in T -> root (den inj p) x by move/rT; rewrite valueE => /rootP.
have [ds' [E pm Hds]] := get_discri_der_signsP inj_lt str_inj wp uT rT'.
move: E; rewrite -Ecore => -[E]; rewrite -{ds'}E in pm Hds.
have bs := (List.Forall_forall _ _).1 (rec_by_sign hds) d hd.
have [[ua nz _ _ gs] un] := (List.Forall_forall _ _).1 Hds _ (List.in_map core3 _ _ hd).
rewrite /= in ua nz gs un.
have ne : d3_all d <> [::].
  move=> E; rewrite E /signs_at /= in un.
  move: uT sT un; case: (T) => [//|a [//|b l]] /=; rewrite inE negb_or => /andP[/andP[/eqP ab _] _] _ un.
  by apply: ab; apply: etrans (un a _ erefl) (esym (un b _ erefl)); rewrite !inE eqxx ?orbT.
have iso r k : r = iter k.+1 (@derivative D) p -> size r = (size p - k.+1)%N.
  by move=> ->; elim: k.+1 => [|j IH]; rewrite ?subn0 // iterS size_derivative IH; lia.
have Pk j : Poly (iter j (@derivative D) p) = (Poly p)^`(j).
  by elim: j => [//|j IH]; rewrite iterS derivative_Poly IH derivnS.
have same r r' : r \in d3_all d -> r' \in d3_all d -> size r = size r' -> r = r'.
  move=> h h'; have [_ [k Ek]] := gs r h; have [_ [k' Ek']] := gs r' h'.
  have n1 := nonzero_nil (allP nz _ h); have n2 := nonzero_nil (allP nz _ h'); rewrite -!size_eq0 in n1 n2.
  rewrite (iso _ _ Ek) in n1 *; rewrite (iso _ _ Ek') in n2 *; move=> E.
  have Ekk : k = k' by lia.
  by rewrite Ek Ek' Ekk.
case Eall: (d3_all d) ne => [//|a l] _.
rewrite /repr_keys /set_origin3 /= Eall.
set m := foldl minn (size a) (map size l); set degs := rev (iota m (size p - m)).
exists (key degs (map size (d3_neg d))), (key degs (map size (d3_zer d))),
  (drop_last (key degs (map size (d3_pos d)))); split; first by [].
split=> // r; rewrite -Eall => hr; have [Es [k Ek]] := gs r hr.
exists k, (sgz (den inj r).[d3_point d]); split=> //.
- rewrite Ek; exact: (Pk k.+1).
- by rewrite valueE; exact: sgz_is_sign.
have r0 : (0 < size r)%N.
  by rewrite lt0n size_eq0; apply: nonzero_nil; exact: (allP nz _ hr).
have mr : (m <= size r)%N.
  have [h1 h2] := foldl_minn (size a) (map size l); move: hr; rewrite Eall inE => /orP[/eqP->//|hr].
  by apply: h2; apply: map_f.
have Er := iso _ _ Ek.
have hk : (k < size degs)%N by rewrite size_rev size_iota; lia.
have Edeg : nth 0%N degs k = size r.
  rewrite nth_rev size_iota; last by rewrite size_rev size_iota in hk.
  by rewrite nth_iota; lia.
have fl (li : seq (seq D)) s : (forall r, r \in li <-> r \in d3_all d /\ get_sign3 str d r = Ok s) ->
    (size r \in map size li) = (sgz (den inj r).[d3_point d] == s).
  move=> h; apply/mapP/eqP => [[r' /h[ha hs] Esz]|E]; last by exists r => //; apply/h; rewrite -E.
  by move: hs; rewrite -(same _ _ hr ha Esz) /get_sign3; move: Es; rewrite /get_sign /= => -> [].
split.
- by rewrite key_get // Edeg (@fl _ (-1)) // => r'; case: (bs r').
- by rewrite key_get // Edeg (@fl _ 0) // => r'; case: (bs r').
- rewrite /drop_last substring_correct1; last by rewrite key_length; apply/ssrnat.ltP; lia.
  by rewrite -plus_n_O key_get // Edeg (@fl _ 1) // => r'; case: (bs r').
Qed.

Lemma repr_one p T ds d : descriptors inj str T p = Ok ds -> List.In d ds -> size T = 1%N ->
  repr_keys (set_origin3 p d) = Err (Exc "min() arg is an empty sequence").
Proof.
case: T => [//|x [|//]] E hd _; move: E; rewrite /descriptors.
by case: (size p) => [|n] [E]; move: hd; rewrite -E /= => -[<-|].
Qed.

Lemma lists_by_sign p T ds d : descriptors inj str T p = Ok ds -> List.In d ds -> forall r,
  [/\ r \in d3_neg d <-> r \in d3_all d /\ get_sign3 str d r = Ok (-1),
      r \in d3_zer d <-> r \in d3_all d /\ get_sign3 str d r = Ok 0 &
      r \in d3_pos d <-> r \in d3_all d /\ get_sign3 str d r = Ok 1].
Proof. by move=> E; exact: (List.Forall_forall _ _).1 (rec_by_sign E) d. Qed.
End Fields.
