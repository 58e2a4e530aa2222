(** C01-C14: the properties of vts/uni_vts.py.  [D] is the ordered domain of
    coefficients, [R] any real closed field, [inj] the embedding; [MkRoots]
    and [mx_inv] are the external root finder and matrix inverse. *)
From Coq Require Import String ZArith.
From mathcomp Require Import all_ssreflect all_algebra.
From mathcomp.real_closed Require Import polyrcf polyorder realalg.
From Verif Require Import Py VtsModel VtsPoly VtsRem VtsSpec VtsBridge VtsInst.

Set Implicit Arguments.
Unset Strict Implicit.
Unset Printing Implicit Defensive.
Import GRing.Theory Num.Theory Order.POrderTheory Order.TotalTheory.
Local Open Scope ring_scope.

(** * C01 *)
Theorem C01_internal_vts_decides
    (D : realDomainType) (R : rcfType) (inj : {rmorphism D -> R})
    (H : eqType) (str : D -> H)
    (mx_inv : rmatrix -> rmatrix) (MkRoots : seq D -> res (seq R)) :
  {mono inj : x y / x < y} -> injective str ->
  inv_contract mx_inv -> MkRoots_contract inj MkRoots ->
  forall (le lt eq ne : seq (seq D)) (b : bool),
  all (@wf D) (le ++ lt ++ eq ++ ne) ->
  internal_vts inj str MkRoots mx_inv le lt eq ne = Ok b ->
  (b = true <-> exists x, satisfies inj le lt eq ne x).
Proof. by move=> h1 h2 h3 h4 *; exact: (internal_vts_decides h1 h2 h3 h4). Qed.
Print Assumptions C01_internal_vts_decides.

(** * C02 *)
Theorem C02_internal_vts_only_limit
    (D : realDomainType) (R : rcfType) (inj : {rmorphism D -> R})
    (H : eqType) (str : D -> H)
    (mx_inv : rmatrix -> rmatrix) (MkRoots : seq D -> res (seq R)) :
  {mono inj : x y / x < y} -> injective str ->
  inv_contract mx_inv -> MkRoots_contract inj MkRoots ->
  forall le lt eq ne : seq (seq D),
  all (@wf D) (le ++ lt ++ eq ++ ne) ->
  (exists b, internal_vts inj str MkRoots mx_inv le lt eq ne = Ok b) \/
  (internal_vts inj str MkRoots mx_inv le lt eq ne = Err (Exc "more than 5 polies") /\
   exists2 p, p \in le ++ lt ++ eq ++ ne & (6 < size p)%N).
Proof. by move=> h1 h2 h3 h4 *; exact: (internal_vts_only_limit h1 h2 h3 h4). Qed.
Print Assumptions C02_internal_vts_only_limit.

(** x^2 - 2 <= 0 and x < 0 has a solution, x^2 + 1 <= 0 has none.  Both
    verdicts are reached by the model with real algebraic roots. *)
Example C01_ex_sat : vtsZ [:: [:: -2; 0; 1]] [:: [:: 0; 1]] [::] [::] = Ok true.
Proof.
apply: (@vtsZ_true _ _ _ _ (-1)%:~R) => //; split=> p; rewrite ?inE // => /eqP->.
- by rewrite valueZ_le0.
- by rewrite valueZ_lt0.
Qed.
Example C01_ex_unsat : vtsZ [:: [:: 1; 0; 1]] [::] [::] [::] = Ok false.
Proof.
apply: vtsZ_false => // x [/(_ _ (mem_head _ _)) + _ _ _].
rewrite !value_cons value_nil !rmorph1 rmorph0 mul0r addr0 mul1r add0r leNgt.
by rewrite ltr_spaddl ?ltr01 // -expr2 sqr_ge0.
Qed.
Example C01_ex_run :
  vts_run [:: [:: 0; 2; -3; 1]] [:: [:: -1; 2]; [:: 0; -1]] [::] [::] = Ok false /\
  vts_run [:: [:: 0; 2; -3; 1]] [:: [:: -3; 2]; [:: 1; -2]] [::] [::] = Ok true /\
  vts_run [::] [:: [:: -1; 0; 1]] [::] [:: [:: 0; 1]] = Ok true.
Proof. by vm_compute. Qed.

(** * C03 *)
Theorem C03_tarski_query
    (D : realDomainType) (R : rcfType) (inj : {rmorphism D -> R}) :
  {mono inj : x y / x < y} ->
  forall (p q : seq D) (T : seq R),
  wf p -> wf q || allzero q -> lists_roots inj p T ->
  tarski_query p q = Ok ((count (fun x => 0 < value inj q x) T)%:Z
                       - (count (fun x => value inj q x < 0) T)%:Z).
Proof. exact: tarski_query_counts. Qed.
Print Assumptions C03_tarski_query.
(** p = x^3 - x, q = x: one root with q > 0, one with q < 0, one with q = 0;
    q = x + 1/2 scaled: two positive, one negative. *)
Example C03_ex : (wf [:: 0; -1; 0; 1 : ZD]) && wf [:: 1; 2 : ZD] /\
  tarski_query [:: 0; -1; 0; 1 : ZD] [:: 0; 1] = Ok 0 /\
  tarski_query [:: 0; -1; 0; 1 : ZD] [:: 1; 2] = Ok 1 /\
  tarski_query [:: 0; 0; 1; 2; 1 : ZD] [:: -1] = Ok (-2).
Proof. by vm_compute. Qed.

(** With a trailing zero in a non-zero [q] the count is wrong: x^2 - 1 and
    the list [1, 0] of the constant 1. *)
Theorem C03_trailing_zero_refuted :
  exists p q : seq int, wf p /\ ~~ allzero q /\
  tarski_query p q = Ok 1 /\
  forall (R : rcfType) (inj : {rmorphism int -> R}) (T : seq R),
    {mono inj : x y / x < y} -> lists_roots inj p T ->
    (count (fun x => 0 < value inj q x) T)%:Z
    - (count (fun x => value inj q x < 0) T)%:Z = 2.
Proof. exact: tarski_trailing_zero. Qed.
Print Assumptions C03_trailing_zero_refuted.

(** * C04 *)
Theorem C04_cauchy_index
    (D : realDomainType) (R : rcfType) (inj : {rmorphism D -> R}) :
  {mono inj : x y / x < y} ->
  forall (p q : seq D) (T : seq R) (J : R -> int),
  wf p -> wf q || allzero q -> lists_roots inj p T ->
  (forall x, x \in T -> is_jump (poly_of inj q) (poly_of inj p) x (J x)) ->
  signed_remainder_cauchy_index p q = Ok (\sum_(x <- T) J x).
Proof. exact: cauchy_index_sum. Qed.
Print Assumptions C04_cauchy_index.
(** 1/x jumps up, -1/x down, 1/x^2 does not jump, x/x has no pole. *)
Example C04_ex :
  signed_remainder_cauchy_index [:: 0; 1 : ZD] [:: 1] = Ok 1 /\
  signed_remainder_cauchy_index [:: 0; 1 : ZD] [:: -1] = Ok (-1) /\
  signed_remainder_cauchy_index [:: 0; 0; 1 : ZD] [:: 1] = Ok 0 /\
  signed_remainder_cauchy_index [:: 0; 1 : ZD] [:: 0; 1] = Ok 0 /\
  signed_remainder_cauchy_index [:: 0; -1; 0; 1 : ZD] [:: -1; 0; 3] = Ok 3.
Proof. by vm_compute. Qed.
(** The jump function exists: the hypotheses can be met for every p and q. *)
Theorem C04_jumps_exist
    (D : realDomainType) (R : rcfType) (inj : {rmorphism D -> R}) :
  {mono inj : x y / x < y} ->
  forall p q : seq D, wf p ->
  exists (T : seq R) (J : R -> int), lists_roots inj p T /\
    forall x, is_jump (poly_of inj q) (poly_of inj p) x (J x).
Proof. exact: jumps_exist. Qed.
Print Assumptions C04_jumps_exist.

(** * C05 *)
Theorem C05_signed_pseudo_remainder (D : realDomainType) (f g : seq D) : wf g ->
  exists r, [/\ signed_pseudo_remainder f g = Ok r, last 1 r != 0,
    (size r < size g)%N &
    exists m s, 0 < m /\ m *: Poly f = s * Poly g + Poly r].
Proof. exact: signed_pseudo_remainderP. Qed.
Print Assumptions C05_signed_pseudo_remainder.
Example C05_ex :
  signed_pseudo_remainder [:: 1; 2; 0; 3; 0 : ZD] [:: 1; -2] = Ok [:: 19] /\
  signed_pseudo_remainder [:: 0; 0; 1 : ZD] [:: 0; 1] = Ok [::] /\
  signed_pseudo_remainder [:: 1; 1 : ZD] [:: 0; 0; 1] = Ok [:: 1; 1].
Proof. by vm_compute. Qed.

(** * C06 *)
Theorem C06_signed_remainder_sequence
    (D : realDomainType) (R : rcfType) (inj : {rmorphism D -> R}) :
  {mono inj : x y / x < y} ->
  forall p q : seq D, wf q ->
  exists l, [/\ signed_remainder_sequence p q = Ok [:: p, q & l],
    signed_chain [:: p, q & l] &
    forall d : {poly R}, (d %| poly_of inj (last q l)) =
                         (d %| poly_of inj p) && (d %| poly_of inj q)].
Proof. exact: sequence_chain. Qed.
Print Assumptions C06_signed_remainder_sequence.
Example C06_ex : signed_remainder_sequence [:: -2; 0; 1 : ZD] [:: 0; 2]
  = Ok [:: [:: -2; 0; 1]; [:: 0; 2]; [:: 4]].
Proof. by vm_compute. Qed.

(** * C07 *)
Theorem C07_arithmetic
    (D : realDomainType) (R : rcfType) (inj : {rmorphism D -> R})
    (p q : seq D) (x : R) :
  [/\ Poly (multiply p q) = Poly p * Poly q,
      Poly (derivative p) = (Poly p)^`(),
      value inj (multiply p q) x = value inj p x * value inj q x &
      evaluate_poly inj p x = value inj p x].
Proof. exact: arithmetic. Qed.
Print Assumptions C07_arithmetic.
Example C07_ex :
  multiply [:: 1; 2; 0 : ZD] [:: 3; -1] = [:: 3; 5; -2; 0] /\
  multiply [::] [:: 3; -1 : ZD] = [:: 0] /\
  derivative [:: 5; 1; 0; 2 : ZD] = [:: 1; 0; 6] /\
  evaluate_poly id [:: 5; 1; 0; 2 : ZD] 2 = 23.
Proof. by vm_compute. Qed.

(** * C08 *)
Theorem C08_make_product_list
    (D : realDomainType) (R : rcfType) (inj : {rmorphism D -> R})
    (polies : seq (seq D)) :
  size (make_product_list polies) = (3 ^ size polies)%N /\
  forall (x : R) (i : nat), (i < 3 ^ size polies)%N ->
  value inj (nth [::] (make_product_list polies) i) x =
  \prod_(k < size polies) value inj (nth [::] polies k) x ^+ digit (size polies) i k.
Proof. exact: (conj (size_product_list polies) (@product_list_value D R inj polies)). Qed.
Print Assumptions C08_make_product_list.
(** Entry 5 = 12 in base 3 is p1 * p2^2. *)
Example C08_ex : nth [::] (make_product_list [:: [:: 0; 1 : ZD]; [:: 2; 1]]) 5
  = [:: 0; 4; 4; 1].
Proof. by vm_compute. Qed.

(** * C09 *)
Theorem C09_matrix_counts
    (D : realDomainType) (R : rcfType) (inj : {rmorphism D -> R}) :
  {mono inj : x y / x < y} ->
  forall (mx_inv : rmatrix -> rmatrix) (p : seq D) (polies : seq (seq D))
    (T : seq R) (i : nat),
  inv_contract mx_inv -> wf p -> all (fun q => wf q || allzero q) polies ->
  lists_roots inj p T -> (0 < size polies)%N -> (i < 3 ^ size polies)%N ->
  exists2 taqs, mapM (tarski_query p) (make_product_list polies) = Ok taqs &
  (mulmv (mx_inv (sign_matrix (size polies))) [seq t%:~R | t <- taqs])`_i =
  (count (fun x => [forall k : 'I_(size polies),
      sgz (value inj (nth [::] polies k) x) ==
      digit_sign (digit (size polies) i k)]) T)%:R.
Proof. exact: matrix_counts. Qed.
Print Assumptions C09_matrix_counts.
Theorem C09_sign_matrix_entries (n i j : nat) :
  (0 < n)%N -> (i < 3 ^ n)%N -> (j < 3 ^ n)%N ->
  (nth [::] (sign_matrix n) i)`_j =
  \prod_(k < n) (digit_sign (digit n j k))%:~R ^+ digit n i k.
Proof. exact: sign_matrix_entry. Qed.
Print Assumptions C09_sign_matrix_entries.
(** p = x^3 - x, polynomials x and x + 1: the roots -1, 0, 1 have signs
    (-,0), (0,+), (+,+). *)
Example C09_ex :
  (let! taqs := mapM (tarski_query [:: 0; -1; 0; 1 : ZD])
                  (make_product_list [:: [:: 0; 1]; [:: 1; 1]]) in
   Ok (mulmv (inv_run (sign_matrix 2)) [seq t%:~R | t <- taqs]))
  = Ok [:: 0; 1; 0; 0; 1; 0; 1; 0; 0].
Proof. by vm_compute. Qed.

(** * C10 *)
Theorem C10_descriptors_separate
    (D : realDomainType) (R : rcfType) (inj : {rmorphism D -> R})
    (H : eqType) (str : D -> H) :
  {mono inj : x y / x < y} -> injective str ->
  forall (p : seq D) (T : seq R), wf p -> lists_roots inj p T ->
  exists ds, [/\ get_discri_der_signs inj str T p = Ok ds,
    perm_eq (map (@dds_point D R H) ds) T &
    forall d, List.In d ds ->
      [/\ forall r, r \in dds_all_polies d ->
            (exists k, Poly r = (Poly p)^`(k.+1)) /\
            (exists2 s, get_sign str d r = Ok s & is_sign s (value inj r (dds_point d))) &
          forall y, value inj p y = 0 ->
            (forall r, r \in dds_all_polies d ->
               exists2 s, get_sign str d r = Ok s & is_sign s (value inj r y)) ->
            y = dds_point d]].
Proof. by move=> h1 h2 *; exact: (discri_separates h1 h2). Qed.
Print Assumptions C10_descriptors_separate.
Example C10_ex :
  (let! ds := get_discri_der_signs injR strR [:: -1; 0; 1]
                [:: 0; -1; 0; 1] in
   Ok [seq (dds_point d, dds_lookup d) | d <- ds])
  = Ok [:: (1, [:: ([:: 0; 6], 1 : int); ([:: -1; 0; 3], 1)]);
           (-1, [:: ([:: 0; 6], -1); ([:: -1; 0; 3], 1)]);
           (0, [:: ([:: -1; 0; 3], -1)])].
Proof. by vm_compute. Qed.

(** * C11 *)
Theorem C11_evaluate_single
    (D : realDomainType) (R : rcfType) (inj : {rmorphism D -> R})
    (H : eqType) (str : D -> H) (mx_inv : rmatrix -> rmatrix) :
  {mono inj : x y / x < y} -> injective str -> inv_contract mx_inv ->
  forall p T ds d g, wf p -> lists_roots inj p T ->
  get_discri_der_signs inj str T p = Ok ds -> List.In d ds ->
  wf g || allzero g ->
  exists2 s, is_sign s (value inj g (dds_point d)) &
  let r := evaluate_single_on_sign_assignment str mx_inv (set_origin_poly p d) g in
  r = Ok s \/ r = Err (Exc "more than 5 polies") /\ (6 < size p)%N.
Proof. move=> h1 h2 h3 p T ds d g a b c e f; exact: (evaluate_single_sign h1 h2 h3 a b c e f). Qed.
Print Assumptions C11_evaluate_single.

(** * C12 *)
Theorem C12_e_close
    (D : realDomainType) (R : rcfType) (inj : {rmorphism D -> R})
    (H : eqType) (str : D -> H) (mx_inv : rmatrix -> rmatrix) :
  {mono inj : x y / x < y} -> injective str -> inv_contract mx_inv ->
  forall p T ds d g, wf p -> lists_roots inj p T ->
  get_discri_der_signs inj str T p = Ok ds -> List.In d ds ->
  wf g || allzero g ->
  exists2 s, is_right_sign inj s g (dds_point d) &
  let r := e_close_evaluate_single_on_sign_assignment str mx_inv (set_origin_poly p d) g in
  r = Ok s \/ r = Err (Exc "more than 5 polies") /\ (6 < size p)%N.
Proof. move=> h1 h2 h3 p T ds d g a b c e f; exact: (e_close_sign h1 h2 h3 a b c e f). Qed.
Print Assumptions C12_e_close.
(** Signs of x at the roots of x^3 - x, and of x^2 just right of them. *)
Example C11_C12_ex :
  let p : seq ZD := [:: 0; -1; 0; 1] in
  let run g := (let! ds := get_discri_der_signs injR strR [:: -1; 0; 1] p in
    mapM (fun d => let d := set_origin_poly p d in
      let! a := evaluate_single_on_sign_assignment strR inv_run d g in
      let! b := e_close_evaluate_single_on_sign_assignment strR inv_run d g in
      Ok (a, b)) ds) in
  run [:: 0; 1] = Ok [:: (1, 1); (-1, -1); (0, 1)] /\
  run [:: 0; 0; 1] = Ok [:: (1, 1); (1, 1); (0, 1)].
Proof. by vm_compute. Qed.

(** * C13 *)
Theorem C13_sign_conditions_lookup
    (D : realDomainType) (H : eqType) (str : D -> H) : injective str ->
  forall le lt eq ne : seq (seq D),
  exists2 lk, sign_conditions_lookup str le lt eq ne = Ok lk &
  forall p, p \in le ++ lt ++ eq ++ ne ->
  exists2 S, dget lk (make_poly_hashabel str p) = Ok S &
  forall s, s \in S <-> [/\ s = -1 \/ s = 0 \/ s = 1,
     p \in le -> s <= 0, p \in lt -> s < 0, p \in eq -> s = 0 & p \in ne -> s <> 0].
Proof. exact: lookup_conditions. Qed.
Print Assumptions C13_sign_conditions_lookup.
Example C13_ex : let x := [:: 0; 1 : ZD] in
  sign_conditions_lookup id [:: x] [::] [::] [:: x; [:: 1]] =
  Ok [:: (x, [:: -1]); ([:: 1], [:: -1; 1])].
Proof. by vm_compute. Qed.

(** * C14 *)
Theorem C14_internal_ts_behaviour
    (D : realDomainType) (R : rcfType) (inj : {rmorphism D -> R})
    (MkRoots : seq D -> res (seq R)) (eps neg_inv_eps : R) (le lt eq ne : seq (seq D)) :
  MkRoots_contract inj MkRoots -> all (@wf D) (le ++ lt ++ eq ++ ne) ->
  internal_ts inj MkRoots eps neg_inv_eps le lt eq ne = Ok [&& nilp le, nilp lt & nilp eq].
Proof. exact: internal_ts_behaviour. Qed.
Print Assumptions C14_internal_ts_behaviour.
(** x = 0 has a solution and internal_ts says it has none. *)
Theorem C14_internal_ts_refuted :
  exists le lt eq ne : seq (seq int),
  all (@wf _) (le ++ lt ++ eq ++ ne) /\
  (exists x, satisfies injZ le lt eq ne x) /\
  forall eps neg_inv_eps,
  internal_ts injZ rootsZ eps neg_inv_eps le lt eq ne = Ok false.
Proof. exact: internal_ts_wrong. Qed.
Print Assumptions C14_internal_ts_refuted.
