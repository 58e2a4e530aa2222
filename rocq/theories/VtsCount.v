(** The matrix of signs and the counts recovered by inverting it
    (matrix_of_signs.py, uni_vts.py 393-549). *)
From mathcomp Require Import all_ssreflect all_algebra.
From mathcomp.real_closed Require Import polyrcf polyorder qe_rcf_th.
From mathcomp.zify Require Import zify.
From Coq Require Import String.
From Verif Require Import Py VtsModel VtsPoly VtsRem VtsTaq.

Set Implicit Arguments.
Unset Strict Implicit.
Unset Printing Implicit Defensive.
Import GRing.Theory Num.Theory Order.POrderTheory Order.TotalTheory.
Local Open Scope ring_scope.

(** All words of length [n] over the alphabet [L], most significant letter
    first. *)
Fixpoint words (T : Type) (L : seq T) (n : nat) : seq (seq T) :=
  if n is n'.+1 then [seq a :: w | a <- L, w <- words L n'] else [:: [::]].

Section Words.
Variable T : eqType.
Implicit Types (L : seq T) (w : seq T).

Lemma words_rcons L n :
  words L n.+1 = [seq rcons w a | w <- words L n, a <- L].
Proof.
elim: n => [|n IH]; first by rewrite /= cats0; elim: L => //= a L ->.
have -> : words L n.+2 = [seq a :: w | a <- L, w <- [seq rcons v b | v <- words L n, b <- L]].
  by rewrite -IH.
rewrite -[words L n.+1]/[seq a :: w | a <- L, w <- words L n].
move: (words L n) => V; suff H L0 :
    [seq a :: w | a <- L0, w <- [seq rcons v b | v <- V, b <- L]] =
    [seq rcons w b | w <- [seq a :: w | a <- L0, w <- V], b <- L] by exact: H.
elim: L0 => // a L0 IH0; rewrite !allpairs_cons allpairs_cat IH0; congr (_ ++ _).
by rewrite allpairs_mapl map_allpairs.
Qed.

Lemma size_words L n w : w \in words L n -> size w = n.
Proof.
elim: n w => [|n IH] w; first by rewrite inE => /eqP->.
by case/allpairsP=> -[a v] /= [_ /IH <- ->].
Qed.

Lemma words_size L n : size (words L n) = (size L ^ n)%N.
Proof. by elim: n => //= n IH; rewrite size_allpairs IH expnS. Qed.

Lemma mem_words L n w : (w \in words L n) = (size w == n) && all (mem L) w.
Proof.
elim: n w => [|n IH] w; first by case: w.
case: w => [|a w].
  by apply/negbTE/negP => /allpairsP[[b v] [_ _]].
rewrite eqSS [all _ _]/= andbCA -IH; apply/allpairsP/andP => [[[b v] [/= hb hv [-> ->]]]|[]] //.
by move=> ha hw; exists (a, w).
Qed.

Lemma uniq_words L n : uniq L -> uniq (words L n).
Proof.
move=> uL; elim: n => //= n IH; apply: allpairs_uniq => //.
by move=> [a v] [b w] _ _ [-> ->].
Qed.
End Words.

Lemma big_words (A : comRingType) (T : Type) (L : seq T) n (f : seq T -> A) :
  \sum_(w <- words L n.+1) f w = \sum_(a <- L) \sum_(w <- words L n) f (a :: w).
Proof. by rewrite /= big_allpairs_dep. Qed.

(** ** The matrix as a function of words *)

Definition sgs : seq int := [:: 0; 1; -1].
Definition pows : seq nat := [:: 0%N; 1%N; 2%N].

(** [\prod_k s_k ^ e_k]. *)
Fixpoint entry (A : comRingType) (e : seq nat) (s : seq A) : A :=
  match e, s with
  | k :: e', a :: s' => a ^+ k * entry e' s'
  | _, _ => 1
  end.

Lemma entry_rcons (A : comRingType) e k (s : seq A) a : size e = size s ->
  entry (rcons e k) (rcons s a) = entry e s * a ^+ k.
Proof.
elim: e s => [|j e IH] [|b s] //=; first by rewrite mulr1 mul1r.
by case=> /IH ->; rewrite mulrA.
Qed.

Definition centry (e : seq nat) (s : seq int) : rat := (entry e s)%:~R.

Lemma sign_matrix1E : sign_matrix1 = [seq [seq centry [:: k] [:: a] | a <- sgs] | k <- pows].
Proof. by vm_compute. Qed.

Lemma tensor_step n :
  tensor_product [seq [seq centry e s | s <- words sgs n] | e <- words pows n] sign_matrix1
  = [seq [seq centry e s | s <- words sgs n.+1] | e <- words pows n.+1].
Proof.
rewrite /tensor_product sign_matrix1E !words_rcons !map_allpairs.
rewrite allpairs_mapl allpairs_mapr.
apply/eq_in_allpairs => e k he hk.
rewrite allpairs_mapl allpairs_mapr map_allpairs.
apply/eq_in_allpairs => s a hs ha.
rewrite /centry entry_rcons ?(size_words he) ?(size_words hs) // -rmorphM.
by rewrite /= mulr1.
Qed.

Lemma sign_matrixE n : (0 < n)%N ->
  sign_matrix n = [seq [seq centry e s | s <- words sgs n] | e <- words pows n].
Proof.
elim: n => // -[|n] IH _; first by rewrite [LHS]sign_matrix1E; vm_compute.
by rewrite -tensor_step -IH.
Qed.

(** ** The contract of [sympy.Matrix.inv] *)

Definition square (n : nat) (M : rmatrix) : bool :=
  (size M == n) && all (fun r : seq rat => size r == n) M.
Definition mulmm (N M : rmatrix) : rmatrix :=
  [seq [seq dot r [seq r'`_j | r' <- M] | j <- iota 0 (size M)] | r <- N].
Definition idm (n : nat) : rmatrix :=
  [seq [seq (i == j)%:R | j <- iota 0 n] | i <- iota 0 n].
(** [M.inv()] returns the inverse of a square matrix that has one. *)
Definition inv_spec (mx_inv : rmatrix -> rmatrix) : Prop :=
  forall n M N, square n M -> square n N -> mulmm N M = idm n -> mx_inv M = N.

Lemma dotE (T : Type) (l : seq T) (f g : T -> rat) :
  dot (map f l) (map g l) = \sum_(x <- l) f x * g x.
Proof.
rewrite /dot; elim: l => [|x l IH] /=; first by rewrite big_nil.
by rewrite big_cons IH.
Qed.

(** ** The inverse of the matrix of signs *)
Definition inv1 (s : int) (k : nat) : rat :=
  (if s == 0 then [:: 1; 0; -1] else
   if s == 1 then [:: 0; 1 / 2%:R; 1 / 2%:R] else [:: 0; - (1 / 2%:R); 1 / 2%:R])`_k.
Fixpoint ientry (s : seq int) (e : seq nat) : rat :=
  match s, e with
  | a :: s', k :: e' => inv1 a k * ientry s' e'
  | _, _ => 1
  end.
Definition sign_matrix_inv n : rmatrix :=
  [seq [seq ientry s e | e <- words pows n] | s <- words sgs n].

Lemma inv1P a b : a \in sgs -> b \in sgs ->
  \sum_(k <- pows) inv1 a k * (b ^+ k)%:~R = (a == b)%:R.
Proof.
rewrite !inE /pows !big_cons big_nil => /or3P[]/eqP-> /or3P[]/eqP->; by vm_compute.
Qed.

Lemma ientryP n s t : s \in words sgs n -> t \in words sgs n ->
  \sum_(e <- words pows n) ientry s e * centry e t = (s == t)%:R.
Proof.
elim: n s t => [|n IH] s t.
  rewrite !inE => /eqP-> /eqP->; rewrite eqxx big_cons big_nil /centry /=.
  by rewrite mul1r addr0.
move=> /allpairsP[[a v] [ha hv ->]] /allpairsP[[b w] [hb hw ->]].
simpl in ha, hv, hb, hw; rewrite ![(_, _).1]/= ![(_, _).2]/=.
rewrite big_words eqseq_cons -mulnb natrM -(inv1P ha hb) -(IH _ _ hv hw) mulr_suml.
apply: eq_bigr => k _; rewrite mulr_sumr; apply: eq_bigr => e _.
by rewrite /centry /= rmorphM mulrACA.
Qed.

Lemma size_iota_words n : size (words sgs n) = (3 ^ n)%N /\ size (words pows n) = (3 ^ n)%N.
Proof. by rewrite !words_size. Qed.

Lemma sign_matrix_left_inverse n : (0 < n)%N ->
  [/\ square (3 ^ n) (sign_matrix n), square (3 ^ n) (sign_matrix_inv n) &
      mulmm (sign_matrix_inv n) (sign_matrix n) = idm (3 ^ n)].
Proof.
move=> n0; have [Ss Sp] := size_iota_words n.
rewrite sign_matrixE //; split.
- by rewrite /square size_map Sp eqxx; apply/allP => r /mapP[e _ ->]; rewrite size_map Ss.
- by rewrite /square size_map Ss eqxx; apply/allP => r /mapP[e _ ->]; rewrite size_map Sp.
rewrite /mulmm /sign_matrix_inv size_map Sp /idm.
set S := words sgs n; set P := words pows n.
have ES : S = [seq nth [::] S i | i <- iota 0 (3 ^ n)].
  by rewrite -[LHS](mkseq_nth [::]) /mkseq Ss.
have uS : uniq S by exact: uniq_words.
rewrite {2}ES -!map_comp; apply/eq_in_map => i; rewrite mem_iota /= add0n => hi.
apply/eq_in_map => j; rewrite mem_iota /= add0n => hj.
have Sin k : (k < 3 ^ n)%N -> nth [::] S k \in S by move=> hk; rewrite mem_nth ?Ss.
have -> : [seq r'`_j | r' <- [seq [seq centry e s | s <- S] | e <- P]] =
    [seq centry e (nth [::] S j) | e <- P].
  by rewrite -map_comp; apply: eq_map => e /=; rewrite (nth_map [::]) ?Ss.
by rewrite dotE ientryP ?Sin // nth_uniq ?Ss.
Qed.

Lemma sign_matrix_inverse mx_inv n : inv_spec mx_inv -> (0 < n)%N ->
  mx_inv (sign_matrix n) = sign_matrix_inv n.
Proof. by move=> inv /sign_matrix_left_inverse[h1 h2 h3]; exact: (inv (3 ^ n)%N). Qed.

(** ** Counting the roots with given signs *)
Section Counts.
Variables (D : realDomainType) (R : rcfType) (inj : {rmorphism D -> R}).
Hypothesis inj_lt : {mono inj : x y / x < y}.
Local Notation den := (den inj).
Local Notation okp := (okp inj).

Definition signs_at (polies : seq (seq D)) (x : R) : seq int :=
  [seq sgz (den p).[x] | p <- polies].

Fixpoint wprod (e : seq nat) (polies : seq (seq D)) : seq D :=
  match e, polies with
  | k :: e', h :: ps =>
      match k with
      | 0 => wprod e' ps
      | 1 => multiply (wprod e' ps) h
      | _ => multiply (wprod e' ps) (multiply h h)
      end
  | _, _ => [:: 1]
  end.

Lemma make_product_listE polies :
  make_product_list polies = [seq wprod e polies | e <- words pows (size polies)].
Proof.
elim: polies => //= h ps ->.
by rewrite !cats0 !map_cat -!map_comp.
Qed.

Lemma wprodP e polies : e \in words pows (size polies) -> all okp polies ->
  okp (wprod e polies) /\
  forall x, sgz (den (wprod e polies)).[x] = entry e (signs_at polies x).
Proof.
elim: polies e => [|h ps IH] e.
  rewrite inE => /eqP-> _; split; first by rewrite okp_nonzero // /nonzero /= oner_neq0.
  by move=> x; rewrite denE /= rmorph1 horner_cons horner0 mul0r add0r sgz1.
case/allpairsP=> -[k v] [hk /IH{IH} H ->] /andP[nh /H[nw E]].
simpl in hk, nw, E; rewrite ![(_, _).1]/= ![(_, _).2]/=.
move: hk; rewrite !inE => /or3P[]/eqP-> /=; split=> //.
- by move=> x; rewrite expr0 mul1r.
- exact: okp_multiply.
- by move=> x; rewrite den_multiply hornerM sgzM E expr1 mulrC.
- by rewrite !okp_multiply.
- by move=> x; rewrite !den_multiply !hornerM !sgzM E expr2 mulrC.
Qed.

Lemma taq_column p polies : nonzero p -> all okp polies ->
  mapM (tarski_query p) (make_product_list polies) =
  Ok [seq \sum_(x <- rootsR (den p)) entry e (signs_at polies x)
       | e <- words pows (size polies)].
Proof.
move=> np nps; rewrite make_product_listE.
suff H l : all (mem (words pows (size polies))) l ->
    mapM (tarski_query p) [seq wprod e polies | e <- l] =
    Ok [seq \sum_(x <- rootsR (den p)) entry e (signs_at polies x) | e <- l].
  by apply: H; exact/allP.
elim: l => //= e l IH /andP[he /IH ->].
have [nw E] := wprodP he nps.
rewrite (tarski_queryP inj_lt) //=; congr (Ok (_ :: _)).
by apply: eq_bigr => x _; rewrite E.
Qed.

Lemma counts p polies : nonzero p -> all okp polies ->
  mulmv (sign_matrix_inv (size polies))
    [seq t%:~R | t <- [seq \sum_(x <- rootsR (den p)) entry e (signs_at polies x)
       | e <- words pows (size polies)]] =
  [seq (count (fun x => signs_at polies x == s) (rootsR (den p)))%:R
    | s <- words sgs (size polies)].
Proof.
move=> np nps; rewrite /mulmv /sign_matrix_inv -map_comp.
apply/eq_in_map => s hs /=; rewrite -map_comp dotE.
under eq_bigr do rewrite /= rmorph_sum mulr_sumr.
rewrite exchange_big -sum1_count natr_sum [RHS]big_mkcond /=.
apply: eq_bigr => x _; rewrite -/(centry _ _) ientryP //; first by rewrite eq_sym; case: eqP.
rewrite mem_words size_map eqxx; apply/allP => _ /mapP[q _ ->].
by rewrite !inE /sgz; case: ifP => // _; case: ifP.
Qed.

End Counts.
