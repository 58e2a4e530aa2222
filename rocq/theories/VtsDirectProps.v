(** C91, C92: the direct calculation of signs and the printed descriptors of
    vts/uni_vts.py. *)
From Coq Require Import String Ascii ZArith.
From mathcomp Require Import all_ssreflect all_algebra.
From mathcomp.real_closed Require Import polyrcf polyorder.
From Verif Require Import Py VtsModel VtsSpec VtsInst VtsDirect.

Set Implicit Arguments.
Unset Strict Implicit.
Unset Printing Implicit Defensive.
Import GRing.Theory Num.Theory Order.POrderTheory Order.TotalTheory.
Local Open Scope ring_scope.

(** * C91 *)
Theorem C91_direct_calc
    (D : realDomainType) (R : rcfType) (inj : {rmorphism D -> R})
    (H : eqType) (str : D -> H) (MkRoots : seq D -> res (seq R)) :
  {mono inj : x y / x < y} -> injective str -> MkRoots_contract inj MkRoots ->
  forall p T ds d g, wf p -> lists_roots inj p T ->
  get_discri_der_signs inj str T p = Ok ds -> List.In d ds ->
  exists2 s, is_sign s (value inj g (dds_point d)) &
    get_sign_by_direct_calc inj str MkRoots (dds_all_polies d ++ [:: g]) (set_origin_poly p d) = Ok s.
Proof. move=> h1 h2 h3 p T ds d g; exact: (direct_sign h1 h2 h3). Qed.
Print Assumptions C91_direct_calc.

Theorem C91_agrees
    (D : realDomainType) (R : rcfType) (inj : {rmorphism D -> R})
    (H : eqType) (str : D -> H) (MkRoots : seq D -> res (seq R)) (mx_inv : rmatrix -> rmatrix) :
  {mono inj : x y / x < y} -> injective str -> MkRoots_contract inj MkRoots -> inv_contract mx_inv ->
  forall p T ds d g s, wf p -> lists_roots inj p T ->
  get_discri_der_signs inj str T p = Ok ds -> List.In d ds -> wf g || allzero g ->
  evaluate_single_on_sign_assignment str mx_inv (set_origin_poly p d) g = Ok s ->
  get_sign_by_direct_calc inj str MkRoots (dds_all_polies d ++ [:: g]) (set_origin_poly p d) = Ok s.
Proof. move=> h1 h2 h3 h4 p T ds d g s; exact: (direct_agrees h1 h2 h3 h4). Qed.
Print Assumptions C91_agrees.

(** Signs of x at the roots of x^3 - x. *)
Example C91_ex :
  let p : seq ZD := [:: 0; -1; 0; 1] in
  (let! ds := get_discri_der_signs injR strR [:: -1; 0; 1] p in
    mapM (fun d => get_sign_by_direct_calc injR strR roots_run (dds_all_polies d ++ [:: [:: 0; 1]])
      (set_origin_poly p d)) ds) = Ok [:: 1; -1; 0].
Proof. by vm_compute. Qed.
(** Without the sign of a derivative the root is not determined. *)
Example C91_ex_open :
  get_sign_by_direct_calc injR strR roots_run [:: [:: 0; 1]]
    (set_origin_poly [:: 0; -1; 0; 1] (new_dds ZD ZD (0 : ZD))) = Err (Exc "didn't have a good value").
Proof. by vm_compute. Qed.

(** * C92 *)
Theorem C92_lists
    (D : realDomainType) (R : rcfType) (inj : {rmorphism D -> R}) (H : eqType) (str : D -> H) :
  injective str ->
  forall p T ds d, descriptors inj str T p = Ok ds -> List.In d ds ->
  forall r, [/\ r \in d3_neg d <-> r \in d3_all d /\ get_sign3 str d r = Ok (-1),
    r \in d3_zer d <-> r \in d3_all d /\ get_sign3 str d r = Ok 0 &
    r \in d3_pos d <-> r \in d3_all d /\ get_sign3 str d r = Ok 1].
Proof. move=> h p T ds d; exact: (lists_by_sign h). Qed.
Print Assumptions C92_lists.

Theorem C92_flags
    (D : realDomainType) (R : rcfType) (inj : {rmorphism D -> R}) (H : eqType) (str : D -> H) :
  {mono inj : x y / x < y} -> injective str ->
  forall p T ds d, wf p -> lists_roots inj p T ->
  descriptors inj str T p = Ok ds -> List.In d ds -> (1 < size T)%N ->
  exists n z q, repr_keys (set_origin3 p d) = Ok (n, z, q) /\
  d3_all d <> [::] /\
  forall r, r \in d3_all d -> exists i s,
    [/\ Poly r = (Poly p)^`(i.+1), get_sign3 str d r = Ok s, is_sign s (value inj r (d3_point d)) &
    [/\ String.get (2 * i) n = flag (s == -1), String.get (2 * i) z = flag (s == 0) &
         String.get (2 * i) q = flag (s == 1)]].
Proof. move=> h1 h2 p T ds d; exact: (repr_flags h1 h2). Qed.
Print Assumptions C92_flags.

(** With one root there is nothing to print. *)
Theorem C92_single_root_refuted
    (D : realDomainType) (R : rcfType) (inj : {rmorphism D -> R}) (H : eqType) (str : D -> H) :
  forall p T ds d, descriptors inj str T p = Ok ds -> List.In d ds -> size T = 1%N ->
  repr_keys (set_origin3 p d) = Err (Exc "min() arg is an empty sequence").
Proof. exact: repr_one. Qed.
Print Assumptions C92_single_root_refuted.

Theorem C92_descriptors
    (D : realDomainType) (R : rcfType) (inj : {rmorphism D -> R}) (H : eqType) (str : D -> H) :
  forall T p, (let! ds := descriptors inj str T p in Ok [seq core3 d | d <- ds]) =
    get_discri_der_signs inj str T p.
Proof. exact: descriptors_core. Qed.
Print Assumptions C92_descriptors.

Example C92_ex :
  let p : seq ZD := [:: 0; -1; 0; 1] in
  (let! ds := descriptors injR strR [:: -1; 0; 1] p in
    mapM (fun d => repr_keys (set_origin3 p d)) ds) =
  Ok [:: ("0,0,", "0,0,", "1,1"); ("0,1,", "0,0,", "1,0"); ("1,", "0,", "0")]%string.
Proof. by vm_compute. Qed.
Example C92_ex_one :
  (let! ds := descriptors injR strR [:: 1] [:: -1; 1 : ZD] in
    mapM (fun d => repr_keys (set_origin3 [:: -1; 1 : ZD] d)) ds) =
  Err (Exc "min() arg is an empty sequence").
Proof. by vm_compute. Qed.
