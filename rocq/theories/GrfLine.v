(** The sample points of one level (iso_root_intvls and sector_sps). *)
From mathcomp Require Import all_ssreflect all_algebra.
From mathcomp.zify Require Import zify.
From mathcomp.real_closed Require Import polyrcf.
From Coq Require Import String.
From Verif Require Import Py GrfModel GrfCad GrfSpec GrfCheck.

Set Implicit Arguments.
Unset Strict Implicit.
Unset Printing Implicit Defensive.
Import GRing.Theory Num.Theory Order.Theory.
Local Open Scope ring_scope.

(** ** Specification *)
Section LineSpec.
Variables (R : realDomainType) (L : lib R) (O : oracle L) (K : rcfType) (inj : R -> K).
Variable uval : U L -> {poly K}.

(** A point of [K] inside an interval. *)
Definition within (i : R * R) (z : K) : bool := (inj i.1 <= z) && (z <= inj i.2).
Definition root_of (us : seq (U L)) (z : K) : Prop := exists2 u, List.In u us & root (uval u) z.

(** What is assumed of rational roots, rounding and random.uniform. *)
Record line_ok : Prop := LineOk {
  inj_mono : {mono inj : x y / x <= y};
  roots_root : forall u a m, (a, m) \in roots u -> root (uval u) (inj a);
  floor_le : forall x, floor L x <= x;
  ceil_ge : forall x, x <= ceil L x;
  uniform_in : forall w l u, l < u -> l < uniform O w l u < u
}.

(** The intervals computed for a list of polynomials isolate their roots. *)
Record isolated (us : seq (U L)) : Prop := Isolated {
  ri_root : forall i m, (i, m) \in root_intervals us ->
    exists2 z, within i z & root_of us z;
  ri_unique : forall i m z z', (i, m) \in root_intervals us ->
    root_of us z -> root_of us z' -> within i z -> within i z' -> z = z';
  ri_all : forall z, root_of us z -> exists i m, (i, m) \in root_intervals us /\ within i z
}.

(** The polynomials without rational roots. *)
Definition no_rational (us : seq (U L)) : seq (U L) :=
  [seq u <- us | if roots u is [::] then true else false].

(** The polynomial has only rational roots, or none. *)
Definition unmixed (u : U L) : Prop :=
  roots u <> [::] -> forall z, root (uval u) z -> exists a m, (a, m) \in roots u /\ z = inj a.
(** ... only rational roots. *)
Definition rational_roots (u : U L) : Prop :=
  forall z, root (uval u) z -> exists a m, (a, m) \in roots u /\ z = inj a.

(** Consecutive intervals are apart, or the same point. *)
Definition apart (i j : R * R) : bool := (i.2 < j.1) || ((i == j) && (i.1 == i.2)).
Definition separated (ris : seq ((R * R) * nat)) : bool :=
  sorted apart (sort (@pair_le R) [seq r.1 | r <- ris]).

(** Two points where all polynomials have the same signs. *)
Definition same_signs (us : seq (U L)) (x y : K) : Prop :=
  forall u, List.In u us -> Num.sg (uval u).[x] = Num.sg (uval u).[y].
End LineSpec.

Section Line.
Variables (R : realDomainType) (L : lib R) (O : oracle L) (K : rcfType) (inj : R -> K).
Variable uval : U L -> {poly K}.
Local Notation intvl := ((R * R) * nat)%type.
Hypothesis LO : line_ok O inj uval.
Implicit Types (x y z : K) (i j : R * R).

Lemma sg_between (p : {poly K}) x y : (forall z, x <= z <= y -> ~~ root p z) -> x <= y ->
  Num.sg p.[x] = Num.sg p.[y].
Proof.
move=> N xy; apply/eqP; apply: contraT => D.
have nx : p.[x] != 0 by apply: (N x); rewrite lexx xy.
have ny : p.[y] != 0 by apply: (N y); rewrite lexx xy.
have E : Num.sg p.[x] * Num.sg p.[y] = -1.
  move: D nx ny; rewrite !neq_lt => D /orP[a0|a0] /orP[b0|b0]; move: D.
  - by rewrite (ltr0_sg a0) (ltr0_sg b0) ltxx.
  - by rewrite (ltr0_sg a0) (gtr0_sg b0) mulr1.
  - by rewrite (gtr0_sg a0) (ltr0_sg b0) mul1r.
  - by rewrite (gtr0_sg a0) (gtr0_sg b0) ltxx.
have [z + rz] := ivt_sign xy E; rewrite in_itv /= => /andP[/ltW zx /ltW zy].
by move: (N z); rewrite rz zx zy => /(_ isT).
Qed.

Lemma sg_side (p : {poly K}) x y : ~~ root p x ->
  (forall z, root p z -> (z < x -> z < y) /\ (x < z -> y < z)) -> Num.sg p.[x] = Num.sg p.[y].
Proof.
move=> nx H; have nz z : root p z -> z != x by move=> rz; apply: contraNneq nx => <-.
have ny : ~~ root p y.
  apply/negP => ry; have [H1 H2] := H y ry; have := nz y ry; rewrite neq_lt => /orP[/H1|/H2]; by rewrite ltxx.
case: (leP x y) => [xy|/ltW xy]; [|apply: esym]; apply: sg_between => // z /andP[za zb]; apply/negP => rz;
  have [H1 H2] := H z rz; have := nz z rz; rewrite neq_lt => /orP[].
- by rewrite ltNge za.
- by move/H2; rewrite ltNge zb.
- by move/H1; rewrite ltNge za.
- by rewrite ltNge zb.
Qed.

Let monoW : {mono inj : x y / x <= y} := inj_mono LO.
Let monoS : {mono inj : x y / x < y} := leW_mono monoW.

Lemma apart_le i j : apart i j -> inj i.2 <= inj j.1.
Proof. by move=> A; rewrite monoW; case/orP: A => [/ltW //|/andP[/eqP-> /eqP ->]]. Qed.

Lemma roots_sorted i ivs r rs : sorted (@apart R) (i :: ivs) -> all2 (within inj) (i :: ivs) (r :: rs) ->
  all (fun z => r <= z) rs.
Proof.
elim: ivs i r rs => [|j ivs IH] i r [|r' rs] //=; first by rewrite andbF.
move=> /andP[A So] /andP[/andP[r1 r2] W]; have /andP[/andP[r'1 _] _] := W.
have rr' : r <= r' by exact: le_trans r2 (le_trans (apart_le A) r'1).
by rewrite rr'; apply: sub_all (IH j r' rs So W) => z; apply: le_trans.
Qed.

(** A point between the intervals on the same side of all the chosen roots. *)
Lemma inner_side w n num i ivs r rs x : (0 < num)%N -> sorted (@apart R) (i :: ivs) ->
  all2 (within inj) (i :: ivs) (r :: rs) -> r < x -> x \notin rs ->
  exists2 s, s \in ceil L ((last i ivs).2 + 1) :: inner_sps O w n num (i :: ivs) &
    inj i.2 < inj s /\ forall z, z \in r :: rs -> (z < x -> z < inj s) /\ (x < z -> inj s < z).
Proof.
move=> num0; elim: ivs i r rs n => [|j ivs IH] i r rs n.
  move=> _ /andP[/andP[r1 r2]]; case: rs => // _ rx _.
  have lt : inj i.2 < inj (ceil L (i.2 + 1)).
    by rewrite monoS; apply: lt_le_trans (ceil_ge LO _); rewrite ltr_addl ltr01.
  exists (ceil L (i.2 + 1)); first by rewrite inE eqxx.
  split=> // z; rewrite inE => /eqP ->; split=> [_|/lt_trans/(_ rx)]; last by rewrite ltxx.
  exact: le_lt_trans lt.
case: rs => [|r' rs]; first by move=> /= _; rewrite andbF.
move=> /= /andP[A So] /andP[/andP[r1 r2] W] rx; rewrite inE negb_or => /andP[xr xrs].
have W' := W; have /andP[/andP[r'1 r'2] Wrs] := W.
have ij : inj i.2 <= inj j.1.
  by rewrite monoW; case/orP: A => [/ltW //|/andP[/eqP-> /eqP ->]].
have rr' : r <= r' by apply: le_trans r2 (le_trans ij r'1).
case: (ltgtP r' x) => [r'x|xr'|E]; last by rewrite E eqxx in xr.
  have [s Is [ls Hs]] := IH j r' rs n.+1 So W' r'x xrs.
  exists s.
    move: Is; rewrite !inE => /orP[->//|Is]; rewrite orbC mem_cat.
    by rewrite Is orbT.
  split=> [|z].
    by apply: le_lt_trans ls; apply: le_trans ij (le_trans r'1 r'2).
  rewrite inE => /predU1P[->|/Hs //]; split=> [_|/lt_trans/(_ rx)]; last by rewrite ltxx.
  by apply: le_lt_trans rr' _; have [->] := Hs r' (mem_head _ _).
have rltr' : r < r' := lt_trans rx xr'.
have Ap : i.2 < j.1.
  case/orP: A => [//|/andP[/eqP Eij /eqP E]]; move: rltr'; rewrite ltNge.
  by rewrite (le_trans r'2) // -Eij -E.
case: num num0 {IH} => // num _; have /andP[s1 s2] := uniform_in LO [:: 0, n & w]%N Ap.
exists (uniform O (0%N :: n :: w) i.2 j.1).
  by rewrite inE /k_random_sps (lt_eqF Ap) /= mem_head orbT.
split; first by rewrite monoS.
have later : all (fun z => r' <= z) (r' :: rs) by rewrite /= lexx; apply: roots_sorted W.
have sr' : inj (uniform O (0%N :: n :: w) i.2 j.1) < r' by apply: lt_le_trans r'1; rewrite monoS.
move=> z; rewrite inE => /predU1P[->|/(allP later) jz]; split.
- by move=> _; apply: le_lt_trans r2 _; rewrite monoS.
- by move/(lt_trans rx); rewrite ltxx.
- by move/(le_lt_trans jz)/(lt_trans xr'); rewrite ltxx.
- by move=> _; apply: lt_le_trans jz.
Qed.

(** ... or left of all of them. *)
Lemma sector_side w num ris ambient v rs x : (0 < num)%N -> ris <> [::] -> separated ris ->
  all2 (within inj) (sort (@pair_le R) [seq r.1 | r <- ris]) rs -> x \notin rs ->
  exists2 s, s \in sector_sps O w ris num ambient v &
    forall z, z \in rs -> (z < x -> z < inj s) /\ (x < z -> inj s < z).
Proof.
move=> num0 ne; rewrite /separated /sector_sps; case: ris ne => // r0 ris _.
set ivs := sort _ _; have : ivs != [::] by rewrite -size_eq0 size_sort.
case: ivs => // i ivs _ So; case: rs => // r rs W; rewrite inE negb_or => /andP[xr xrs].
have lt : inj (floor L (i.1 - 1)) < inj i.1.
  by rewrite monoS; apply: le_lt_trans (floor_le LO _) _; rewrite ltr_subl_addr ltr_addl ltr01.
case: (ltgtP r x) => [rx|xr'|E]; last by rewrite E eqxx in xr.
  have [s Is [_ Hs]] := inner_side (0%N :: w) 0 num0 So W rx xrs; exists s => //.
  by rewrite mem_sort !inE mem_cat; move: Is; rewrite inE => /orP[->|->]; rewrite ?orbT.
exists (floor L (i.1 - 1)); first by rewrite mem_sort /= inE eqxx.
have /allP later : all (fun z => r <= z) (r :: rs) by rewrite /= lexx; apply: roots_sorted W.
have sr : inj (floor L (i.1 - 1)) < r by apply: lt_le_trans lt _; case/andP: W => /andP[].
move=> z /later rz; split=> [/(le_lt_trans rz)/(lt_trans xr')|_]; first by rewrite ltxx.
exact: lt_le_trans rz.
Qed.

(** The roots chosen for the intervals. *)
Lemma choose_all2 (Q : R * R -> K -> Prop) (l : seq (R * R)) :
  (forall i, i \in l -> exists2 z, within inj i z & Q i z) ->
  exists2 rs, all2 (within inj) l rs &
    (forall i, i \in l -> exists2 z, z \in rs & within inj i z /\ Q i z) /\
    (forall z, z \in rs -> exists2 i, i \in l & within inj i z /\ Q i z).
Proof.
elim: l => [|i l IH] H; first by exists [::].
have [z Wz Qz] := H i (mem_head _ _).
have [|rs W [H1 H2]] := IH; first by move=> j jl; apply: H; rewrite inE jl orbT.
exists (z :: rs); rewrite /= ?Wz //; split=> [j|z']; rewrite inE => /predU1P[->|].
- by exists z => //; rewrite mem_head.
- by case/H1=> z' z'rs X; exists z' => //; rewrite inE z'rs orbT.
- by exists i => //; rewrite mem_head.
- by case/H2=> j jl X; exists j => //; rewrite inE jl orbT.
Qed.

Lemma In_filter (T : Type) (p : pred T) (l : seq T) u : List.In u l -> p u -> List.In u (filter p l).
Proof. by elim: l => //= y l IH [->|/IH H] pu; [rewrite pu; left|case: ifP => _; [right|]; exact: H]. Qed.
Lemma In_filterP (T : Type) (p : pred T) (l : seq T) u : List.In u (filter p l) -> List.In u l /\ p u.
Proof.
by elim: l => //= y l IH; case: ifP => [py [<-|/IH[]]|_ /IH[]]; [split=> //; left|split=> //; right|split=> //; right].
Qed.

Lemma easy_mem (us : seq (U L)) i m :
  (i, m) \in flatten [seq [seq ((a.1, a.1), a.2) | a <- roots u] | u <- us] <->
  i.1 = i.2 /\ exists2 u, List.In u us & (i.1, m) \in roots u.
Proof.
elim: us => [|u us IH] /=; first by split=> // -[_ []].
rewrite mem_cat; split=> [/orP[/mapP[[a n] ar [-> ->]]|/IH[E [u' I' M]]]|[E [u' [<-|I'] M]]].
- by split=> //; exists u; [left|].
- by split=> //; exists u'; [right|].
- by apply/orP; left; apply/mapP; exists (i.1, m) => //=; rewrite {2}E -surjective_pairing.
- by apply/orP; right; apply/IH; split=> //; exists u'.
Qed.

(** Which polynomials have their roots isolated by the intervals. *)
Lemma iso_line us (ps : seq (P L)) ris : mapM (@univariate R L) ps = Ok us ->
  iso_root_intvls ps = Ok ris -> isolated inj uval (no_rational us) ->
  (forall u, List.In u us -> unmixed inj uval u) ->
  exists2 Q : R * R -> K -> Prop,
    (forall i, i \in [seq r.1 | r <- ris] -> exists2 z, within inj i z & Q i z) &
    (forall i z, i \in [seq r.1 | r <- ris] -> within inj i z -> Q i z -> root_of uval us z) /\
    (forall z, root_of uval us z -> exists2 i, i \in [seq r.1 | r <- ris] &
       forall z', within inj i z' -> Q i z' -> z' = z).
Proof.
move=> Eu; rewrite /iso_root_intvls Eu /= => -[<-] Is Un.
set easy := flatten _; set hard := [seq u <- us | _]; rewrite /no_rational -/hard in Is.
set H := (if hard is [::] then [::] else root_intervals hard).
have HH i m : (i, m) \in H -> (i, m) \in root_intervals hard by rewrite /H; case: (hard).
have HH' z : root_of uval hard z -> exists i m, (i, m) \in H /\ within inj i z.
  by move=> rz; have := ri_all Is rz; rewrite /H; case: (hard) rz => // -[].
have sub z : root_of uval hard z -> root_of uval us z.
  by case=> u Fu ru; have [Iu _] := In_filterP Fu; exists u.
exists (fun i z => (exists2 m, (i, m) \in H & root_of uval hard z) \/
                   ((forall m, (i, m) \notin H) /\ (exists2 m, (i, m) \in easy & root_of uval us z))).
  move=> i /mapP[[j m]]; rewrite mem_cat /= => I ->{i}.
  have [[m' jm']|N] : (exists m, (j, m) \in H) \/ (forall m, (j, m) \notin H).
  - elim: H {HH HH' I} => [|[j' m'] H IH]; first by right.
    have [->|D] := eqVneq j j'; first by left; exists m'; rewrite mem_head.
    case: IH => [[n I]|N]; first by left; exists n; rewrite inE I orbT.
    by right=> n; rewrite inE negb_or N andbT xpair_eqE negb_and D.
  - by have [z W rz] := ri_root Is (HH _ _ jm'); exists z => //; left; exists m'.
  move: I; rewrite (negbTE (N m)) => /= I; have [E [u Iu M]] := (easy_mem us j m).1 I.
  exists (inj j.1); first by rewrite /within -E !lexx.
  by right; split=> //; exists m => //; exists u => //; exact: (roots_root LO M).
split=> [i z _ _ [[m _ /sub]|[_ [m _]]]|] // z [u Iu ru].
case Er : (roots u) => [|a0 rs0].
  have rz : root_of uval hard z by exists u => //; apply: In_filter; rewrite ?Er.
  have [i [m [im Wi]]] := HH' z rz.
  exists i; first by apply/mapP; exists (i, m) => //; rewrite mem_cat im.
  move=> z' Wz' [[m' im' rz']|[/(_ m)]]; last by rewrite im.
  exact: (ri_unique Is (HH _ _ im)).
have [|a [m [am ->]]] := Un u Iu _ _ ru; first by rewrite Er.
exists (a, a).
  apply/mapP; exists ((a, a), m) => //; rewrite mem_cat; apply/orP; right; apply/easy_mem; split=> //.
  by exists u.
by move=> z' /andP[/= l1 l2] _; apply/eqP; rewrite eq_le l1 l2.
Qed.

(** C45: every sector has a sample point. *)
Lemma sectors w num ps us ris ambient v x : (0 < num)%N ->
  mapM (@univariate R L) ps = Ok us -> iso_root_intvls ps = Ok ris ->
  isolated inj uval (no_rational us) -> (forall u, List.In u us -> unmixed inj uval u) -> separated ris -> ~ root_of uval us x ->
  exists2 s, s \in sector_sps O w ris num ambient v & same_signs uval us x (inj s).
Proof.
move=> num0 Eu Er Iso Un So nx; have [Q H1 [H2 H3]] := iso_line Eu Er Iso Un.
case: (eqVneq ris [::]) => [E|ne].
  have no u z : List.In u us -> ~~ root (uval u) z.
    by move=> Iu; apply/negP => rz; have [|i] := H3 z; [exists u|rewrite E].
  have [s Is] : exists s, s \in sector_sps O w ris num ambient v.
    rewrite E /=; case: [seq h <- _ | _] => [|h _]; first by exists 0; rewrite mem_head.
    by case: (aop h); eexists; exact: mem_head.
  exists s => // u Iu; apply: sg_side => [|z]; first exact: no.
  by rewrite (negbTE (no u z Iu)).
have [|rs W [C1 C2]] := @choose_all2 Q (sort (@pair_le R) [seq r.1 | r <- ris]).
  by move=> i; rewrite mem_sort; exact: H1.
have xrs : x \notin rs.
  by apply/negP => /C2[i]; rewrite mem_sort => iI [Wi Qi]; apply: nx; exact: (H2 i).
have [|s Is Hs] := @sector_side w num ris ambient v rs x num0 _ So W xrs; first exact/eqP.
exists s => // u Iu; apply: sg_side => [|z rz].
  by apply/negP => rx; apply: nx; exists u.
apply: Hs; have [|i iI Hi] := H3 z; first by exists u.
have [|z' z'rs [Wz' Qz']] := C1 i; first by rewrite mem_sort.
by rewrite -(Hi _ Wz' Qz').
Qed.

(** ... and so has every rational root. *)
Lemma root_sps_mem w n ivs i : i \in ivs -> i.1 = i.2 -> i.1 \in root_sps O w n ivs.
Proof.
elim: ivs n => //= j ivs IH n; rewrite inE mem_cat => /predU1P[<- E|/IH H E].
  by rewrite /k_random_sps E eqxx mem_head.
by rewrite H ?orbT.
Qed.

Lemma sections w num ps us ris ambient v u a m : 
  mapM (@univariate R L) ps = Ok us -> iso_root_intvls ps = Ok ris ->
  List.In u us -> (a, m) \in roots u -> a \in sector_sps O w ris num ambient v.
Proof.
move=> Eu; rewrite /iso_root_intvls Eu /= => -[<-] Iu am; set ris' := _ ++ _.
have I : ((a, a), m) \in ris'.
  by rewrite mem_cat; apply/orP; right; apply/easy_mem; split=> //; exists u.
rewrite /sector_sps; case: ris' I => // r0 ris' I.
rewrite mem_sort !mem_cat; apply/orP; right; apply/orP; right.
apply: (@root_sps_mem _ _ _ (a, a)) => //; rewrite mem_sort; apply/mapP; by exists ((a, a), m).
Qed.

(** With rational roots only, the intervals are separated ... *)
Lemma rational_separated ps us ris : mapM (@univariate R L) ps = Ok us -> iso_root_intvls ps = Ok ris ->
  isolated inj uval (no_rational us) -> (forall u, List.In u us -> rational_roots inj uval u) -> separated ris.
Proof.
move=> Eu; rewrite /iso_root_intvls Eu /= => -[<-] Is Ra; set hard := [seq u <- us | _]; rewrite /no_rational -/hard in Is.
have -> : (if hard is [::] then [::] else root_intervals hard) = [::].
  case E : (root_intervals hard) => [|[i m] l]; first by case: (hard).
  have im : (i, m) \in root_intervals hard by rewrite E mem_head.
  have [z _ [u Fu]] := ri_root Is im.
  have [Iu] := In_filterP Fu; by case Er : (roots u) => // _ /(Ra u Iu)[a [n []]]; rewrite Er.
rewrite cat0s /separated; set l := [seq r.1 | r <- _].
have deg : {in sort (@pair_le R) l, forall i, i.1 = i.2}.
  by move=> i; rewrite mem_sort => /mapP[[j m] /easy_mem[E _] ->].
have tot : total (@pair_le R).
  move=> [a b] [c d]; rewrite /pair_le /=; case: (ltgtP a c) => //= _; exact: le_total.
have := sort_sorted tot l; elim: (sort _ _) deg => // i l' IH deg.
have {}IH : sorted (@pair_le R) l' -> sorted (@apart R) l'.
  by apply: IH => j jl; apply: deg; rewrite inE jl orbT.
case: l' IH deg => // j l' IH deg /= /andP[ij /IH /= ->]; rewrite andbT.
have Ei := deg i (mem_head _ _); have Ej := deg j; move: Ej; rewrite !inE eqxx orbT => /(_ isT) Ej.
rewrite /apart; move: ij; rewrite /pair_le => /orP[lt|/andP[/eqP e1 _]]; first by rewrite -Ei lt.
have -> : i = j by rewrite (surjective_pairing i) (surjective_pairing j) -Ei -Ej e1.
by rewrite eqxx Ej eqxx orbT.
Qed.

(** ... and every point of the line has a sample point with the same signs;
    roots are sample points themselves. *)
Lemma line_complete_root w num ps us ris ambient v x : (0 < num)%N ->
  mapM (@univariate R L) ps = Ok us -> iso_root_intvls ps = Ok ris ->
  isolated inj uval (no_rational us) -> (forall u, List.In u us -> rational_roots inj uval u) ->
  exists2 s, s \in sector_sps O w ris num ambient v &
    same_signs uval us x (inj s) /\ (root_of uval us x -> x = inj s).
Proof.
move=> num0 Eu Er Iso Ra; have So := rational_separated Eu Er Iso Ra.
have [[u Iu rx]|no] : root_of uval us x \/ ~ root_of uval us x.
- elim: us {Eu Ra Iso} => [|u us IH]; first by right; case.
  case: (boolP (root (uval u) x)) => r; first by left; exists u => //; left.
  case: IH => [[u' Iu' ru']|N]; first by left; exists u' => //; right.
  by right=> -[u' [<-|Iu'] ru']; [rewrite ru' in r|apply: N; exists u'].
- by have [a [m [am ->]]] := Ra u Iu x rx; exists a => //; exact: (sections w num ambient v Eu Er Iu am).
have [|s Is Ss] := sectors w ambient v num0 Eu Er Iso _ So no; last by exists s.
by move=> u Iu _; exact: Ra.
Qed.

Lemma line_complete w num ps us ris ambient v x : (0 < num)%N ->
  mapM (@univariate R L) ps = Ok us -> iso_root_intvls ps = Ok ris ->
  isolated inj uval (no_rational us) -> (forall u, List.In u us -> rational_roots inj uval u) ->
  exists2 s, s \in sector_sps O w ris num ambient v & same_signs uval us x (inj s).
Proof. by move=> n0 Eu Er Is Ra; have [s Is' []] := line_complete_root w ambient v x n0 Eu Er Is Ra; exists s. Qed.
End Line.
