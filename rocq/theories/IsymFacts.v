(** Proofs about the model of vts/isym.py. *)
From Coq Require Import String.
From mathcomp Require Import all_ssreflect all_algebra.
From mathcomp.zify Require Import zify.
From Verif Require Import Py VtsModel VtsPoly VtsSpec VtsBridge IsymModel IsymSpec.

Set Implicit Arguments.
Unset Strict Implicit.
Unset Printing Implicit Defensive.
Import GRing.Theory Num.Theory Order.POrderTheory Order.TotalTheory.
Local Open Scope ring_scope.

Definition numval (c : num) : rat :=
  match c with NInt z => z%:~R | NRat q => q | NOther => 0 end.
Definition rational (c : num) : bool := if c is NOther then false else true.

Lemma denq0 : denq 0 = 1. Proof. by []. Qed.
Lemma den_lcm_step x l :
  foldl (fun x c => if c is NRat q then lcmn x `|denq q| else x) x l =
  lcmn x (den_lcm l).
Proof.
rewrite /den_lcm; elim: l x => [|c l IH] x /=; first by rewrite lcmn1.
case: c => [z|q|]; [exact: IH| |exact: IH].
by rewrite (IH (lcmn x _)) (IH (lcmn 1 _)) lcm1n lcmnA.
Qed.

Lemma den_lcm_gt0 l : (0 < den_lcm l)%N.
Proof.
elim: l => [|c l IH] //; rewrite /den_lcm [foldl _ _ _]/= den_lcm_step.
by case: c => [z|q|]; rewrite ?lcm1n // lcmn_gt0 absz_gt0 denq_neq0.
Qed.

Lemma den_lcm_cons c l :
  den_lcm (c :: l) = lcmn (if c is NRat q then `|denq q|%N else 1%N) (den_lcm l).
Proof. by rewrite {1}/den_lcm [LHS]/= den_lcm_step; case: c => *; rewrite ?lcm1n. Qed.

Lemma scale_ok k c : rational c ->
  (if c is NRat q then `|denq q| %| k else true)%N ->
  exists2 z, scale k c = NInt z & z%:~R = numval c * k%:R.
Proof.
case: c => [z|q|] //= _.
  by move=> _; exists (z * k%:Z) => //; rewrite intrM.
move=> /dvdnP[m ->]; set v := q * _.
have ev : v = (numq q * m%:Z)%:~R.
  rewrite /v -{1}[q]divq_num_den natrM intrM.
  rewrite -[X in _ * (_ * X)]/((`|denq q|%N%:Z)%:~R) absz_denq.
  rewrite mulrCA mulrC; congr (_ * _).
  by rewrite mulfVK // intr_eq0 denq_neq0.
by rewrite ev denq_int eqxx numq_int; exists (numq q * m%:Z).
Qed.

Lemma den_lcm_filter l : den_lcm [seq c <- l | is_rat c] = den_lcm l.
Proof.
elim: l => [|[z|q|] l IH] //=; rewrite !den_lcm_cons IH ?lcm1n //.
Qed.

Lemma map_scale k l : all rational l -> (den_lcm l %| k)%N ->
  exists2 zs, [seq scale k c | c <- l] = map NInt zs &
    [seq z%:~R | z <- zs] = [seq numval c * k%:R | c <- l].
Proof.
elim: l => [|c l IH] /=; first by exists [::].
move=> /andP[rc /IH{}IH]; rewrite den_lcm_cons => dv.
have [zs -> e] := IH (dvdn_trans (dvdn_lcmr _ _) dv).
have [|z -> ez] := @scale_ok k c rc.
  by case: c dv {rc} => // q /(dvdn_trans (dvdn_lcml _ _)).
by exists (z :: zs); rewrite //= e ez.
Qed.

Lemma rational_count l : all rational l ->
  (size [seq c <- l | is_rat c] + size [seq c <- l | is_int c])%N = size l.
Proof. by elim: l => [|[z|q|] l IH] //= /IH; lia. Qed.

Lemma irrational_count l : ~~ all rational l ->
  (size [seq c <- l | is_rat c] + size [seq c <- l | is_int c] < size l)%N.
Proof.
have le m : (size [seq c <- m | is_rat c] + size [seq c <- m | is_int c] <= size m)%N.
  by elim: m => [|[z|q|] m IH] //=; lia.
elim: l => [|[z|q|] l IH] //=; last by have := le l; lia.
by move=> /IH; lia.
Qed.

Lemma convert_rationals_ok l : all rational l ->
  exists2 zs, convert_rationals_to_ints l = Ok (map NInt zs) &
    [seq z%:~R | z <- zs] = [seq numval c * (den_lcm l)%:R | c <- l].
Proof.
move=> rl; have e := rational_count rl.
have [zs e1 e2] := map_scale rl (dvdnn _).
exists zs => //; rewrite /convert_rationals_to_ints ltnNge addnC e leqnn /= eqxx /=.
by rewrite den_lcm_filter e1.
Qed.

Lemma convert_rationals_err l : ~~ all rational l ->
  convert_rationals_to_ints l = Err (Exc "not rational").
Proof.
move=> /irrational_count h; rewrite /convert_rationals_to_ints.
by rewrite ltnNge addnC (ltnW h) /= (ltn_eqF h).
Qed.

Lemma pow_lookupE (f : nat -> num) s i :
  dget (pow_lookup [seq (f j, j) | j <- s]) i = if i \in s then Ok (f i) else Err KeyError.
Proof.
have gs (V : Type) (d : dict nat_eqType V) k v j :
    dget (dset d k v) j = if j == k then Ok v else dget d j.
  elim: d => [|[k' v'] d IH] /=; first by case: eqP.
  case: (k =P k') => [->|nk] /=; first by case: eqP.
  by rewrite IH; case: (j =P k') => // ->; case: eqP => // /esym.
rewrite /pow_lookup; elim/last_ind: s => [|s j IH] //.
rewrite map_rcons foldl_rcons gs IH mem_rcons inE.
by case: eqP => [->|].
Qed.

Lemma first_term (P : {poly rat}) : P != 0 ->
  exists c ts, ordered_terms P = (c, (size P).-1) :: ts.
Proof.
move=> P0; rewrite /ordered_terms (negPf P0).
have : (0 < size P)%N by rewrite size_poly_gt0.
case e: (size P) => [//|n] _.
rewrite -[n.+1]addn1 iotaD rev_cat /= add0n.
have -> : P`_n != 0 by move: P0; rewrite -lead_coef_eq0 lead_coefE e.
by rewrite addn1 /=; eexists; eexists.
Qed.

(** The coefficient list that [convert] builds from the terms. *)
Lemma coef_listE (P : {poly rat}) i : P != 0 ->
  (if dget (pow_lookup (ordered_terms P)) i is Ok c then c else NInt 0) =
  if P`_i != 0 then NRat P`_i else NInt 0.
Proof.
move=> P0; rewrite /ordered_terms (negPf P0) (pow_lookupE (fun i => NRat P`_i)).
rewrite mem_filter mem_rev mem_iota add0n /=.
case: (P`_i =P 0) => //= h; case: ltnP => //= le.
by rewrite nth_default in h.
Qed.

Lemma dvd_den_lcm l d : all (fun c => if c is NRat q then `|denq q| %| d else true)%N l ->
  (den_lcm l %| d)%N.
Proof.
elim: l => [|c l IH]; first by rewrite dvd1n.
rewrite [all _ _]/=;
by rewrite den_lcm_cons dvdn_lcm => /andP[h /IH->]; case: c h => * //=; rewrite ?andbT ?dvd1n.
Qed.

Definition clist (P : {poly rat}) : seq num :=
  [seq if P`_i != 0 then NRat P`_i else NInt 0 | i <- iota 0 (size P)].

Lemma clist_lcm P : lcm_dens P (den_lcm (clist P)).
Proof.
split=> [i|d h]; last first.
  by apply: dvd_den_lcm; rewrite all_map; apply/allP => i _ /=; case: ifP => // _.
case: (P`_i =P 0) => [->|/eqP n0]; first by rewrite denq0 dvd1n.
have im : i \in iota 0 (size P).
  by rewrite mem_iota add0n leq0n /= ltnNge; apply: contra n0 => /(nth_default 0)->.
rewrite /clist; elim: (iota _ _) im => [|j s IH] //.
rewrite inE [map _ _]/= den_lcm_cons => /orP[/eqP<-|/IH h].
  by rewrite n0 dvdn_lcml.
exact: dvdn_trans h (dvdn_lcmr _ _).
Qed.

Lemma clist_rational P : all rational (clist P).
Proof. by rewrite all_map; apply/allP => i _ /=; case: ifP. Qed.

Lemma clist_numval P : map numval (clist P) = P.
Proof.
rewrite /clist -map_comp -[RHS](mkseq_nth 0) /mkseq; apply: eq_map => i /=.
by case: (P`_i =P 0) => [->|].
Qed.

Lemma int_poly_coef l i : (int_poly l)`_i = (l`_i)%:~R.
Proof. by rewrite coef_poly; case: ltnP => // /(nth_default 0)->. Qed.

Lemma int_polyP l k (P : {poly rat}) :
  [seq z%:~R | z <- l] = [seq c * k%:R | c <- P] -> int_poly l = k%:R *: P /\ size l = size P.
Proof.
move=> e; have s : size l = size P by have := congr1 size e; rewrite !size_map.
split=> //; apply/polyP => i; rewrite int_poly_coef coefZ.
case: (ltnP i (size P)) => h; last by rewrite !nth_default ?s // mulr0.
have := congr1 (fun l => l`_i) e.
by rewrite (nth_map 0) ?s // (nth_map 0) // mulrC.
Qed.

Lemma int_poly_size l (P : {poly rat}) k : (0 < k)%N -> P != 0 ->
  int_poly l = k%:R *: P -> size l = size P -> last 0 l != 0.
Proof.
move=> k0 P0 e s; rewrite -nth_last s -(intr_eq0 [numDomainType of rat]).
rewrite -int_poly_coef e coefZ mulf_neq0 //; first by rewrite pnatr_eq0 -lt0n.
by rewrite -lead_coefE lead_coef_eq0.
Qed.

(** [convert] on a representation of a non-zero polynomial. *)
Lemma convert_spec s (P : {poly rat}) : represents s P -> P != 0 ->
  exists zs k, [/\ convert s = Ok (map NInt zs), (0 < k)%N,
     int_poly zs = k%:R *: P, size zs = size P & last 0 zs != 0 /\ lcm_dens P k].
Proof.
move=> rp P0.
suff [zs [k [h1 h2 h3 h4]]] : exists zs k, [/\ convert s = Ok (map NInt zs), (0 < k)%N,
    [seq z%:~R | z <- zs] = [seq c * k%:R | c <- P] & lcm_dens P k].
  have [e sz] := int_polyP h3.
  by exists zs, k; split=> //; split=> //; exact: int_poly_size h2 P0 e sz.
have lcmC q : q%:P = P -> lcm_dens P `|denq q|.
  move=> <-; split=> [i|d /(_ 0%N)]; last by rewrite coefC.
  by rewrite coefC; case: ifP => // _; rewrite denq0 dvd1n.
case: rp => [[z -> e]|[q -> e]|->].
- have z0 : z != 0 by apply: contra P0 => /eqP z0; rewrite e z0.
  exists [:: z], 1%N; rewrite /convert (negPf z0); split=> //.
    by rewrite e polyseqC intr_eq0 z0 /= mulr1.
  by have := lcmC z%:~R (esym e); rewrite denq_int.
- have q0 : q != 0 by apply: contra P0 => /eqP q0; rewrite e q0.
  have [zs e1 e2] := @convert_rationals_ok [:: NRat q] isT.
  exists zs, `|denq q|%N; split=> //; first by rewrite absz_gt0 denq_neq0.
    by rewrite e polyseqC q0 e2 /= den_lcm_cons lcmn1.
  exact: lcmC.
- have [c [ts e]] := first_term P0.
  have [zs e1 e2] := convert_rationals_ok (clist_rational P).
  exists zs, (den_lcm (clist P)); split; last exact: clist_lcm.
  + have -> : convert (SymExpr 0 (ordered_terms P)) = convert_rationals_to_ints
        [seq (if dget (pow_lookup (ordered_terms P)) i is Ok c then c else NInt 0)
           | i <- iota 0 (size P).-1.+1].
      rewrite /convert ltnn.
      by have -> : pyget (ordered_terms P) 0 = Ok (c, (size P).-1) by rewrite e.
    rewrite -e1 prednK ?size_poly_gt0 //.
    by congr convert_rationals_to_ints; apply: eq_map => i; rewrite coef_listE.
  + exact: den_lcm_gt0.
  + rewrite e2; transitivity [seq c * (den_lcm (clist P))%:R | c <- map numval (clist P)].
      exact: (map_comp (fun c => c * (den_lcm (clist P))%:R) numval (clist P)).
    by rewrite clist_numval.
Qed.

(** The error cases. *)
Lemma convert_many n ts : (0 < n)%N -> convert (SymExpr n ts) = Err (Exc "more than one symbol").
Proof. by rewrite /convert => ->. Qed.

Lemma convert_zero s : represents s 0 ->
  convert s = if s is PyNum _ then Ok [::] else Ok [:: NInt 0].
Proof.
case=> [[z -> e]|[q -> e]|->].
- have -> : z = 0 by apply/eqP; rewrite -(intr_eq0 [numDomainType of rat]) -polyC_eq0 -e.
  by [].
- have -> : q = 0 by apply/eqP; rewrite -polyC_eq0 -e.
  by vm_compute.
- by rewrite /ordered_terms eqxx; vm_compute.
Qed.

Lemma convert_backE l : convert_back l = int_poly l.
Proof.
rewrite /convert_back; apply/polyP => i; rewrite int_poly_coef.
elim/last_ind: l i => [|l c IH] i; first by rewrite /= coef0 nth_nil.
rewrite size_rcons -addn1 iotaD /= add0n cats1 zip_rcons ?size_iota //.
rewrite foldl_rcons coefD IH coefZ coefXn /= nth_rcons.
case: (ltngtP i (size l)) => h; rewrite ?mulr0 ?addr0 ?mulr1 //.
  by rewrite nth_default // ltnW.
by rewrite h nth_default // add0r.
Qed.

Section Points.
Variable R : rcfType.
Let inj : {rmorphism int -> R} := [rmorphism of intr].

Lemma value_int_poly (l : seq int) (x : R) : value intr l x = rvalue (int_poly l) x.
Proof.
rewrite /value /rvalue /int_poly map_polyE; under eq_bigr do rewrite -ratr_int.
have := @horner_coef_wide _ (size l) (map_poly (@ratr R) (int_poly l)) x.
rewrite -map_polyE => ->; last by rewrite size_map_poly size_poly.
by apply: eq_bigr => i _; rewrite coef_map coef_poly ltn_ord /=.
Qed.

Lemma rvalueZ k (P : {poly rat}) (x : R) : rvalue (k%:R *: P) x = k%:R * rvalue P x.
Proof. by rewrite /rvalue linearZ /= hornerZ ratr_nat. Qed.
End Points.

Definition scaled (zs : seq int) (P : {poly rat}) : Prop :=
  [/\ wf zs, size zs = size P & exists2 k, (0 < k)%N & int_poly zs = k%:R *: P].

Lemma mapM_as_int zs : mapM as_int (map NInt zs) = Ok zs.
Proof. by elim: zs => [|z zs IH] //=; rewrite IH. Qed.

Lemma convert_ints_scaled s (P : {poly rat}) : represents s P -> P != 0 ->
  exists2 zs, convert_ints s = Ok zs & scaled zs P.
Proof.
move=> rp P0; have [zs [k [e k0 e1 e2 [e3 _]]]] := convert_spec rp P0.
exists zs; first by rewrite /convert_ints e bind_ok mapM_as_int.
by split=> //; exists k.
Qed.

Lemma mapM_convert ss (Ps : seq {poly rat}) : List.Forall2 represents ss Ps ->
  all (fun P : {poly rat} => P != 0) Ps ->
  exists2 zss, mapM convert_ints ss = Ok zss & List.Forall2 scaled zss Ps.
Proof.
elim=> {ss Ps} [|s P ss Ps rp _ IH] /=; first by exists [::].
case/andP=> P0 /IH[zss -> h]; have [zs -> sc] := convert_ints_scaled rp P0.
by exists (zs :: zss); last exact: List.Forall2_cons.
Qed.

Lemma scaled_wf zss Ps : List.Forall2 scaled zss Ps -> all (@wf _) zss.
Proof. by elim=> {zss Ps} //= zs P zss Ps [-> _ _] _. Qed.

Lemma scaled_in1 zss Ps zs : List.Forall2 scaled zss Ps -> zs \in zss ->
  exists2 P, P \in Ps & scaled zs P.
Proof.
elim=> {zss Ps} //= z P zss Ps h _ IH; rewrite inE => /orP[/eqP->|/IH[Q Qi sQ]].
  by exists P => //; rewrite inE eqxx.
by exists Q => //; rewrite inE Qi orbT.
Qed.

Lemma scaled_in2 zss Ps P : List.Forall2 scaled zss Ps -> P \in Ps ->
  exists2 zs, zs \in zss & scaled zs P.
Proof.
elim=> {zss Ps} //= z Q zss Ps h _ IH; rewrite inE => /orP[/eqP->|/IH[zs zi sz]].
  by exists z => //; rewrite inE eqxx.
by exists zs => //; rewrite inE zi orbT.
Qed.

Section Decide.
Variable R : rcfType.

Lemma scaled_value zs P (x : R) : scaled zs P ->
  exists2 k : R, 0 < k & value intr zs x = k * rvalue P x.
Proof.
case=> _ _ [k k0 e]; exists k%:R; first by rewrite ltr0n.
by rewrite value_int_poly e rvalueZ.
Qed.

Lemma scaled_satisfies zle zlt zeq zne le lt eq ne (x : R) :
  List.Forall2 scaled zle le -> List.Forall2 scaled zlt lt ->
  List.Forall2 scaled zeq eq -> List.Forall2 scaled zne ne ->
  satisfies intr zle zlt zeq zne x <-> rsatisfies le lt eq ne x.
Proof.
move=> h1 h2 h3 h4; split=> -[s1 s2 s3 s4]; split=> p pi.
- have [zs /s1 + sc] := scaled_in2 h1 pi; have [k k0 ->] := scaled_value x sc.
  by rewrite pmulr_rle0.
- have [zs /s2 + sc] := scaled_in2 h2 pi; have [k k0 ->] := scaled_value x sc.
  by rewrite pmulr_rlt0.
- have [zs /s3 + sc] := scaled_in2 h3 pi; have [k k0 ->] := scaled_value x sc.
  by move=> /eqP; rewrite mulf_eq0 gt_eqF // => /eqP.
- have [zs /s4 + sc] := scaled_in2 h4 pi; have [k k0 ->] := scaled_value x sc.
  by move=> + e; rewrite e mulr0.
- have [P /s1 + sc] := scaled_in1 h1 pi; have [k k0 ->] := scaled_value x sc.
  by rewrite pmulr_rle0.
- have [P /s2 + sc] := scaled_in1 h2 pi; have [k k0 ->] := scaled_value x sc.
  by rewrite pmulr_rlt0.
- have [P /s3 + sc] := scaled_in1 h3 pi; have [k k0 ->] := scaled_value x sc.
  by move=> ->; rewrite mulr0.
- have [P /s4 + sc] := scaled_in1 h4 pi; have [k k0 ->] := scaled_value x sc.
  by move=> n /eqP; rewrite mulf_eq0 gt_eqF // => /eqP.
Qed.

Variables (H : eqType) (str : int -> H).
Variable MkRoots : seq int -> res (seq R).
Variable mx_inv : rmatrix -> rmatrix.
Hypothesis str_inj : injective str.
Hypothesis inv_ok : inv_contract mx_inv.
Hypothesis roots_ok : MkRoots_contract (intr : int -> R) MkRoots.

Lemma isym_vts_result sle slt seq_ sne le lt eq ne :
  List.Forall2 represents sle le -> List.Forall2 represents slt lt ->
  List.Forall2 represents seq_ eq -> List.Forall2 represents sne ne ->
  all (fun P : {poly rat} => P != 0) (le ++ lt ++ eq ++ ne) ->
  exists b, (b = true <-> exists x : R, rsatisfies le lt eq ne x) /\
  (isym_vts intr str MkRoots mx_inv sle slt seq_ sne = Ok b \/
   isym_vts intr str MkRoots mx_inv sle slt seq_ sne = Err (Exc "more than 5 polies") /\
   exists2 P, P \in le ++ lt ++ eq ++ ne & (6 < size P)%N).
Proof.
move=> r1 r2 r3 r4; rewrite !all_cat => /and4P[n1 n2 n3 n4].
have [zle e1 h1] := mapM_convert r1 n1; have [zlt e2 h2] := mapM_convert r2 n2.
have [zeq e3 h3] := mapM_convert r3 n3; have [zne e4 h4] := mapM_convert r4 n4.
rewrite /isym_vts e1 e2 e3 e4 !bind_ok.
have W : all (@wf _) (zle ++ zlt ++ zeq ++ zne).
  by rewrite !all_cat (scaled_wf h1) (scaled_wf h2) (scaled_wf h3) (scaled_wf h4).
have mono : {mono [rmorphism of (intr : int -> R)] : x y / x < y} by exact: ltr_int.
have [b hb res] := internal_vts_result mono str_inj inv_ok roots_ok W.
exists b; split.
  by split=> [/hb|h]; [|apply/hb; move: h]; case=> x /(scaled_satisfies _ h1 h2 h3 h4) hx; exists x.
case: res => [|[? [p pi sp]]]; [by left | right; split=> //].
move: pi; rewrite !mem_cat => /or4P[] pi.
- by have [P Pi [_ sz _]] := scaled_in1 h1 pi; exists P; [rewrite !mem_cat Pi|rewrite -sz].
- by have [P Pi [_ sz _]] := scaled_in1 h2 pi; exists P; [rewrite !mem_cat Pi orbT|rewrite -sz].
- by have [P Pi [_ sz _]] := scaled_in1 h3 pi; exists P; [rewrite !mem_cat Pi !orbT|rewrite -sz].
- by have [P Pi [_ sz _]] := scaled_in1 h4 pi; exists P; [rewrite !mem_cat Pi !orbT|rewrite -sz].
Qed.
End Decide.

Lemma convert_sign (R : rcfType) s (P : {poly rat}) zs (x : R) :
  represents s P -> convert s = Ok (map NInt zs) ->
  Num.sg (value intr zs x) = Num.sg (rvalue P x).
Proof.
have [-> rp|P0 rp] := eqVneq P 0.
  rewrite (convert_zero rp) /rvalue map_poly0 horner0 sgr0.
  have v0 : value intr [:: 0] x = 0 :> R by rewrite /value big_ord1 mul0r.
  have inj : injective NInt by move=> a b [].
  case: s {rp} => [z|z|c|n ts]; case: zs => [|y [|y' zs]] //= e; try (case: e => <-);
    by rewrite ?v0 /value ?big_ord0 ?sgr0.
have [l [k [-> k0 e1 e2 _]]] := convert_spec rp P0.
have inj : injective NInt by move=> a b [].
case=> /(inj_map inj) <-.
by rewrite value_int_poly e1 rvalueZ sgrM gtr0_sg ?mul1r // ltr0n.
Qed.

Lemma convert_not_rational ts t0 : pyget ts 0 = Ok t0 ->
  (exists2 i, (i <= t0.2)%N & dget (pow_lookup ts) i = Ok NOther) ->
  convert (SymExpr 0 ts) = Err (Exc "not rational").
Proof.
move=> e [i le h]; rewrite /convert ltnn e bind_ok; apply: convert_rationals_err.
rewrite all_map; apply/allPn; exists i; first by rewrite mem_iota.
by rewrite /preim /= h.
Qed.

Lemma convert_round_trip s (P : {poly rat}) : represents s P ->
  exists zs k, [/\ convert s = Ok (map NInt zs), (0 < k)%N, convert_back zs = k%:R *: P &
    ((forall i, denq P`_i = 1) -> convert_back zs = P)].
Proof.
move=> rp; have [P0|P0] := eqVneq P 0.
  rewrite P0 in rp *; rewrite (convert_zero rp).
  have z1 : convert_back [::] = 0 by [].
  have z2 : convert_back [:: 0] = 0 by rewrite /convert_back /= scale0r addr0.
  by case: s {rp} => [z|z|c|n ts]; [exists [::]|exists [:: 0]..]; exists 1%N;
     split=> //; rewrite ?z1 ?z2 ?scaler0.
have [zs [k [e k0 e1 e2 [_ [_ lm]]]]] := convert_spec rp P0.
exists zs, k; rewrite convert_backE; split=> // h.
have : (k %| 1)%N by apply: lm => i; rewrite h.
by rewrite dvdn1 e1 => /eqP->; rewrite scale1r.
Qed.

Lemma ordered_terms_Poly (l : seq rat) : last 1 l != 0 -> l != [::] ->
  ordered_terms (Poly l) = [seq (NRat l`_i, i) | i <- rev (iota 0 (size l)) & l`_i != 0].
Proof.
move=> l0 n0; rewrite /ordered_terms -size_poly_eq0 (PolyK l0).
by case: l l0 n0.
Qed.
