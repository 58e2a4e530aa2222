(** Model of /repo/vts/uni_vts.py (the live definitions; the first
    [internal_ts], lines 21-50, and the first [evaluate], lines 743-754, are
    shadowed by later definitions of the same name and never run).

    A polynomial is a Python list of coefficients in ascending order.  The code
    is duck-typed: coefficients are Python ints (as produced by isym.convert)
    or z3rcf numbers; here they are elements of an arbitrary ordered domain
    [D].  Points (the roots) live in an ordered domain [K], [inj] is the
    implicit coercion of coefficients. *)
From mathcomp Require Import all_ssreflect all_algebra.
From Coq Require Import String.
From Verif Require Import Py.

Set Implicit Arguments.
Unset Strict Implicit.
Unset Printing Implicit Defensive.
Import GRing.Theory Num.Theory.
Local Open Scope ring_scope.

Section CoefLists.
Variable D : realDomainType.
Implicit Types p q f g : seq D.

(** uni_vts.py 157-166, the innermost loop of [multiply]: [js] is what is left
    of [range(len(poly2))], [s] the accumulator [sum]. *)
Fixpoint multiply_inner p1 p2 (power i : nat) (js : seq nat) (s : D) : D :=
  match js with
  | [::] => s
  | j :: js' =>
      if (power < i + j)%N then s                                  (* break *)
      else if (i + j)%N != power then multiply_inner p1 p2 power i js' s
      else multiply_inner p1 p2 power i js' (s + p1`_i * p2`_j)
  end.

(** uni_vts.py 149-166, the middle loop; [ixs] is what is left of
    [range(len(poly1))]. *)
Fixpoint multiply_outer p1 p2 (power : nat) (ixs : seq nat) (s : D) : D :=
  match ixs with
  | [::] => s
  | i :: ixs' =>
      if (i + size p2 <= power)%N then multiply_outer p1 p2 power ixs' s (* continue *)
      else if (power < i)%N then s                                     (* break *)
      else multiply_outer p1 p2 power ixs'
             (multiply_inner p1 p2 power i (iota 0 (size p2)) s)
  end.

(** uni_vts.py 142-168 [multiply].  [range(len1 + len2 - 1)] is empty when
    both lists are empty ([range(-1)]), as is [iota 0 (0 - 1)]. *)
Definition multiply p1 p2 : seq D :=
  [seq multiply_outer p1 p2 power (iota 0 (size p1)) 0
     | power <- iota 0 (size p1 + size p2 - 1)].

(** uni_vts.py 170-201 [make_product_list]. *)
Fixpoint make_product_list (polies : seq (seq D)) : seq (seq D) :=
  match polies with
  | [::] => [:: [:: 1]]
  | head :: rest =>
      let square := multiply head head in
      let rest_list := make_product_list rest in
      [seq product | product <- rest_list] ++
      [seq multiply product head | product <- rest_list] ++
      [seq multiply product square | product <- rest_list]
  end.

(** uni_vts.py 670-672 [derivative]. *)
Definition derivative p : seq D :=
  [seq cp.1 *+ cp.2 | cp <- behead (zip p (iota 0 (size p)))].

(** uni_vts.py 203-253 [signed_pseudo_remainder].  Every recursive call is on a
    list one shorter, so [n := size f] is enough fuel. *)
Fixpoint signed_pseudo_remainder_rec (n : nat) f g : res (seq D) :=
  match f with
  | [::] => Ok [::]                                               (* 204-205 *)
  | _ :: _ =>
    match g with
    | [::] => Err (Exc "Division by zero polynomial")             (* 207-208 *)
    | _ :: _ =>
      match n with
      | 0 => Err OutOfFuel
      | n'.+1 =>
        let lc_f := last 0 f in                                   (* 210 *)
        let lc_g := last 0 g in                                   (* 211 *)
        if lc_f == 0 then
          signed_pseudo_remainder_rec n' (pybutlast f) g          (* 213-214 *)
        else
          let: (lc_g, lc_f) :=
            if lc_g < 0 then (- lc_g, - lc_f) else (lc_g, lc_f) in (* 217-219 *)
          if (size f < size g)%N then Ok f                        (* 227-232 *)
          else
            let padding := nseq (size f - size g) 0 in            (* 235 *)
            let q_first_term_by_g := padding ++ g in              (* 243 *)
            let subtracted :=
              [seq c.1 * lc_g - c.2 * lc_f
                 | c <- zip f q_first_term_by_g] in               (* 252 *)
            signed_pseudo_remainder_rec n' (pybutlast subtracted) g
      end
    end
  end.
Definition signed_pseudo_remainder f g :=
  signed_pseudo_remainder_rec (size f) f g.

(** uni_vts.py 266-288 [signed_remainder_sequence].  The second argument gets
    strictly shorter, so [size q] recursive calls suffice. *)
Fixpoint signed_remainder_sequence_rec (n : nat) p q : res (seq (seq D)) :=
  match n with
  | 0 => Err OutOfFuel
  | n'.+1 =>
      let! rem := signed_pseudo_remainder p q in
      if rem is [::] then Ok [:: p; q]
      else
        let neg_rem := [seq - c | c <- rem] in
        let! sequence := signed_remainder_sequence_rec n' q neg_rem in
        Ok (p :: sequence)
  end.
Definition signed_remainder_sequence p q :=
  signed_remainder_sequence_rec (size q).+1 p q.

(** uni_vts.py 305: [p[-1] * (-1)**((len(p) - 1)%2)]. *)
Definition neg_inf_value p : res D :=
  let! lc := pylast p in Ok (lc * (- 1) ^+ ((size p - 1) %% 2)).

(** uni_vts.py 314-321: drop zeros, multiply neighbours, count the negative
    products. *)
Definition sign_changes (l : seq D) : nat :=
  let f := [seq c <- l | c != 0] in
  let jumps := [seq c.1 * c.2 | c <- zip (pybutlast f) (behead f)] in
  size [seq c <- jumps | c < 0].

(** uni_vts.py 290-323 [signed_remainder_cauchy_index]. *)
Definition signed_remainder_cauchy_index p q : res int :=
  if q is [::] then Ok 0
  else
    let! sequence := signed_remainder_sequence p q in
    let! neg_inf := mapM neg_inf_value sequence in
    let! pos_inf := mapM (@pylast D) sequence in
    Ok ((sign_changes neg_inf)%:Z - (sign_changes pos_inf)%:Z).

(** uni_vts.py 327-391 [tarski_query] (the global flag [log] only controls
    printing). *)
Definition tarski_query p q : res int :=
  signed_remainder_cauchy_index p (multiply (derivative p) q).

(** uni_vts.py 431-432 [sign_func]. *)
Definition sign_func (v : D) : int :=
  if v < 0 then -1 else if v > 0 then 1 else 0.

End CoefLists.

(** Matrices of sympy numbers as lists of rows. *)
Definition rmatrix := seq (seq rat).

(** sympy.physics.quantum.TensorProduct of two matrices (Kronecker product),
    used in matrix_of_signs.py 89. *)
Definition tensor_product (A B : rmatrix) : rmatrix :=
  [seq [seq a * b | a <- rA, b <- rB] | rA <- A, rB <- B].

(** matrix_of_signs.py 49: the matrix for one polynomial; row = power 0,1,2,
    column = sign 0,1,-1. *)
Definition sign_matrix1 : rmatrix :=
  [:: [:: 1; 1; 1]; [:: 0; 1; -1]; [:: 0; 1; 1]].

(** matrix_of_signs.py 54-93 [new_get_matrix] without its caches (the caches
    are modelled in CacheModel.v and shown transparent there):
    [TensorProduct(get_matrix(n-1), get_matrix(1))]. *)
Fixpoint sign_matrix (n : nat) : rmatrix :=
  match n with
  | 0 => [::]
  | 1 => sign_matrix1
  | n'.+1 => tensor_product (sign_matrix n') sign_matrix1
  end.

Definition exc_more_than_5 : exn := Exc "more than 5 polies".

(** [M * v] of sympy for a matrix and a column. *)
Definition dot (r v : seq rat) : rat :=
  foldr (fun c s => c.1 * c.2 + s) 0 (zip r v).
Definition mulmv (M : rmatrix) (v : seq rat) : seq rat :=
  [seq dot r v | r <- M].

Section Vts.
Variables (D K : realDomainType) (inj : D -> K).
(** [str] of uni_vts.py 553; only its injectivity matters. *)
Variables (H : eqType) (str : D -> H).
(** [z3rcf.MkRoots], external. *)
Variable MkRoots : seq D -> res (seq K).
(** [sympy.Matrix.inv], external. *)
Variable mx_inv : rmatrix -> rmatrix.

Implicit Types p q poly goal : seq D.

(** uni_vts.py 552-553 [make_poly_hashabel]. *)
Definition make_poly_hashabel p : seq H := map str p.

(** matrix_of_signs.py 95-138 [new_get_matrix_inverse] without its caches
    ([n] is a length, hence never negative). *)
Definition get_matrix_inverse (n : nat) : res rmatrix :=
  if (n < 1)%N then Err (Exc "%d is < 1")
  else if (5 < n)%N then Err exc_more_than_5
  else Ok (mx_inv (sign_matrix n)).

(** uni_vts.py 756-758 [evaluate_poly]. *)
Definition evaluate_poly p (x : K) : K :=
  foldl (fun s cp => s + inj cp.1 * x ^+ cp.2) 0 (zip p (iota 0 (size p))).

(** uni_vts.py 608-645 [DiscDerSigns].  [point], the list [all_polies], the
    private dictionary [__lookup] and [origin].  The lists neg_polies,
    zer_polies and pos_polies are only read by [__repr__] and left out. *)
Record DiscDerSigns := MkDDS {
  dds_point : K;
  dds_all_polies : seq (seq D);
  dds_lookup : dict [eqType of seq H] int;
  dds_origin : seq D
}.

(** uni_vts.py 610-614 [__init__]; [origin] does not exist until
    set_origin_poly is called, modelled by the empty list. *)
Definition new_dds (point : K) : DiscDerSigns := MkDDS point [::] [::] [::].

(** uni_vts.py 616-629 and 639-642: [add_pos_poly], [add_neg_poly],
    [add_zer_poly] with sign 1, -1, 0.  [raise "poly already there"] is a
    TypeError in Python 2.6+. *)
Definition add_poly (sign : int) (poly : seq D) (d : DiscDerSigns) :
    res DiscDerSigns :=
  if poly \in dds_all_polies d then Err TypeError
  else Ok (MkDDS (dds_point d) (rcons (dds_all_polies d) poly)
             (dset (dds_lookup d) (make_poly_hashabel poly) sign)
             (dds_origin d)).

(** uni_vts.py 634-635 [set_origin_poly]. *)
Definition set_origin_poly (poly : seq D) (d : DiscDerSigns) : DiscDerSigns :=
  MkDDS (dds_point d) (dds_all_polies d) (dds_lookup d) poly.

(** uni_vts.py 644-645 [get_sign]. *)
Definition get_sign (d : DiscDerSigns) poly : res int :=
  dget (dds_lookup d) (make_poly_hashabel poly).

(** uni_vts.py 697-701, 706-715, 720-724: one of the three branches. *)
Definition discri_branch (rec : seq K -> seq D -> res (seq DiscDerSigns))
    (sign : int) (some_roots roots : seq K) (der : seq D) :
    res (seq DiscDerSigns) :=
  if size some_roots == 0%N then Ok [::]
  else
    let! discDerSigns := rec some_roots der in
    if size some_roots == size roots then Ok discDerSigns
    else mapM (add_poly sign der) discDerSigns.

(** uni_vts.py 674-731 [get_discri_der_signs].  The recursion is on the
    derivative, fuel is the number of coefficients. *)
Fixpoint get_discri_der_signs_rec (n : nat) (roots : seq K)
    (exact_poly : seq D) : res (seq DiscDerSigns) :=
  match roots with
  | [::] => Ok [::]
  | [:: r] => Ok [:: new_dds r]
  | _ =>
    match n with
    | 0 => Err OutOfFuel
    | n'.+1 =>
      let der := derivative exact_poly in
      let der_value root := evaluate_poly der root in
      let pos_roots := [seq root <- roots | der_value root > 0] in
      let neg_roots := [seq root <- roots |
                          ~~ (der_value root > 0) && (der_value root < 0)] in
      let zero_roots := [seq root <- roots |
                          ~~ (der_value root > 0) && ~~ (der_value root < 0)] in
      let! z := discri_branch (get_discri_der_signs_rec n') 0 zero_roots roots der in
      let! p := discri_branch (get_discri_der_signs_rec n') 1 pos_roots roots der in
      let! m := discri_branch (get_discri_der_signs_rec n') (-1) neg_roots roots der in
      Ok (z ++ p ++ m)
    end
  end.
Definition get_discri_der_signs roots exact_poly :=
  get_discri_der_signs_rec (size exact_poly) roots exact_poly.

(** uni_vts.py 396 [off_values]. *)
Definition off_values : seq (int * nat) := [:: (0, 0%N); (1, 1%N); (-1, 2%N)].

(** uni_vts.py 403-410: the loop computing [total_shift]. *)
Definition shift_step (polies : seq (seq D)) (d : DiscDerSigns)
    (total_shift : nat) (poly : seq D) : res nat :=
  let step := (3 ^ size polies %/ 3 ^ (seq.index poly polies + 1))%N in
  let! sign := get_sign d poly in
  let! off := dget off_values sign in
  Ok (total_shift + step * off)%N.

(** uni_vts.py 417-424: the loop body inspecting one candidate sign. *)
Definition pick_step (c_matrix : seq rat) (total_shift : nat)
    (goal_sign : option int) (so : int * nat) : res (option int) :=
  let! count := pyget c_matrix (total_shift + so.2) in
  let! goal_sign' :=
    (if count == 1 then
       if goal_sign is Some _ then Err (Exc "multiple possible signs in matrix")
       else Ok (Some so.1)
     else Ok goal_sign) in
  if (count == 0) || (count == 1) then Ok goal_sign'
  else Err (Exc "table had a count that was neither 0 or 1").

(** uni_vts.py 393-429 [pick_sign_of_goal]. *)
Definition pick_sign_of_goal (polies : seq (seq D)) (d : DiscDerSigns)
    (c_matrix : seq rat) : res int :=
  let! total_shift := foldM (shift_step polies d) 0%N (pybutlast polies) in
  let! goal_sign := foldM (pick_step c_matrix total_shift) None off_values in
  if goal_sign is Some s then Ok s
  else Err (Exc "no entry in the table was with count 1").

(** uni_vts.py 470-549 [evaluate_single_on_sign_assignment]. *)
Definition evaluate_single_on_sign_assignment (d : DiscDerSigns) goal : res int :=
  if goal == dds_origin d then Ok 0
  else
    let polies := dds_all_polies d ++ [:: goal] in
    let! M_inv := get_matrix_inverse (size polies) in
    let product_list := make_product_list polies in
    let! taq_column := mapM (tarski_query (dds_origin d)) product_list in
    let c_matrix := mulmv M_inv [seq t%:~R | t <- taq_column] in
    pick_sign_of_goal polies d c_matrix.

(** uni_vts.py 574-583 [e_close_evaluate_single_on_sign_assignment]; fuel is
    the length of the polynomial. *)
Fixpoint e_close_rec (n : nat) (d : DiscDerSigns) poly : res int :=
  match poly with
  | [::] => Ok 0
  | _ :: _ =>
    match n with
    | 0 => Err OutOfFuel
    | n'.+1 =>
      let! current := evaluate_single_on_sign_assignment d poly in
      if current != 0 then Ok current
      else e_close_rec n' d (derivative poly)
    end
  end.
Definition e_close_evaluate_single_on_sign_assignment d poly :=
  e_close_rec (size poly) d poly.

(** uni_vts.py 555-572 [sign_conditions_lookup].  Sets of signs are lists of
    signs. *)
Definition sign_dict := dict [eqType of seq H] (seq int).
Definition lookup_intersect (allowed : seq int) (lk : sign_dict) p : res sign_dict :=
  let! s := dget lk (make_poly_hashabel p) in
  Ok (dset lk (make_poly_hashabel p) [seq x <- s | x \in allowed]).
Definition sign_conditions_lookup (le lt eq ne : seq (seq D)) : res sign_dict :=
  let l0 := foldl (fun lk p => dset lk (make_poly_hashabel p) [:: -1; 0; 1])
              [::] (le ++ lt ++ eq ++ ne) in
  let! l1 := foldM (lookup_intersect [:: -1; 0]) l0 le in
  let! l2 := foldM (lookup_intersect [:: -1]) l1 lt in
  let! l3 := foldM (lookup_intersect [:: 0]) l2 eq in
  foldM (lookup_intersect [:: -1; 1]) l3 ne.

(** uni_vts.py 598-606 [evaluate_on_sign_assignment] and 585-596
    [e_close_evaluate_on_sign_assignment]: the same loop over a different
    single-polynomial evaluator. *)
Fixpoint all_signs_allowed (ev : seq D -> res int) (lk : sign_dict)
    (all_polies : seq (seq D)) : res bool :=
  match all_polies with
  | [::] => Ok true
  | poly :: rest =>
      let! sign := ev poly in
      let! allowed := dget lk (make_poly_hashabel poly) in
      if sign \in allowed then all_signs_allowed ev lk rest else Ok false
  end.
Definition evaluate_on_sign_assignment d all_polies lk :=
  all_signs_allowed (evaluate_single_on_sign_assignment d) lk all_polies.
Definition e_close_evaluate_on_sign_assignment d all_polies lk :=
  all_signs_allowed (e_close_evaluate_single_on_sign_assignment d) lk all_polies.

(** uni_vts.py 110-116 / 123-129: try the descriptors in turn, stop at the
    first that evaluates to True. *)
Fixpoint some_droot (ev : DiscDerSigns -> res bool) (droots : seq DiscDerSigns) :
    res bool :=
  match droots with
  | [::] => Ok false
  | droot :: rest =>
      let! formula_value := ev droot in
      if formula_value then Ok true else some_droot ev rest
  end.

(** uni_vts.py 104-116 / 118-129: the loop over the polynomials whose roots are
    tried. *)
Fixpoint some_poly (ev : DiscDerSigns -> res bool) (polies : seq (seq D)) :
    res bool :=
  match polies with
  | [::] => Ok false
  | poly :: rest =>
      let! roots := MkRoots poly in
      let! droots := get_discri_der_signs roots poly in
      let! found := some_droot ev [seq set_origin_poly poly d | d <- droots] in
      if found then Ok true else some_poly ev rest
  end.

(** uni_vts.py 131-139: the check at minus infinity. *)
Definition neg_inf_sign poly : res int :=
  let! v := neg_inf_value poly in Ok (sign_func v).

(** uni_vts.py 99-139 [internal_vts]. *)
Definition internal_vts (le lt eq ne : seq (seq D)) : res bool :=
  let! sign_lookup := sign_conditions_lookup le lt eq ne in
  let all_polies := le ++ lt ++ eq ++ ne in
  let! exact := some_poly
    (fun d => evaluate_on_sign_assignment d all_polies sign_lookup) (le ++ eq) in
  if exact then Ok true
  else
    let! close := some_poly
      (fun d => e_close_evaluate_on_sign_assignment d all_polies sign_lookup)
      (lt ++ ne) in
    if close then Ok true
    else all_signs_allowed neg_inf_sign sign_lookup all_polies.

(** ** [internal_ts] *)

(** The four [EvalStr] strategies, uni_vts.py 738-741. *)
Inductive strategy := SLe | SLt | SEq | SNe.

(** What [strategy.condition] is applied to.  In [evaluate] (line 783) it is
    the name [sum], which is not assigned in that function and is therefore
    the builtin function. *)
Inductive cond_arg := Builtin_sum | Number of K.

(** uni_vts.py 738-741.  In Python 2 a builtin function compares greater than
    every number and different from it. *)
Definition condition (s : strategy) (v : cond_arg) : bool :=
  match v with
  | Number k => match s with
                | SLe => k <= 0 | SLt => k < 0 | SEq => k == 0 | SNe => k != 0 end
  | Builtin_sum => match s with SLe | SLt | SEq => false | SNe => true end
  end.

(** uni_vts.py 760-784 [evaluate]: true when it returns, false when it raises
    ConditionExc. *)
Fixpoint evaluate_strs (point : K) (l : seq (seq D * strategy)) : bool :=
  match l with
  | [::] => true
  | (poly, st) :: l' =>
      let _ := evaluate_poly poly point in                  (* 780, discarded *)
      if condition st Builtin_sum then evaluate_strs point l' else false
  end.
Definition evaluate (point : K) (le lt eq ne : seq (seq D)) : bool :=
  evaluate_strs point ([seq (e, SLe) | e <- le] ++ [seq (e, SLt) | e <- lt] ++
                       [seq (e, SEq) | e <- eq] ++ [seq (e, SNe) | e <- ne]).

(** uni_vts.py 66-74 and 79-87: try [shift root] for all roots of all the
    polynomials. *)
Fixpoint try_roots (shift : K -> K) (ok : K -> bool) (polies : seq (seq D)) :
    res bool :=
  match polies with
  | [::] => Ok false
  | p :: rest =>
      let! roots := MkRoots p in
      if has (fun r => ok (shift r)) roots then Ok true
      else try_roots shift ok rest
  end.

(** uni_vts.py 52-96 [internal_ts]; [eps] and [neg_inv_eps] are the
    infinitesimal [eps] and [-1/eps] of z3rcf. *)
Definition internal_ts (eps neg_inv_eps : K) (le lt eq ne : seq (seq D)) :
    res bool :=
  let ok x := evaluate x le lt eq ne in
  let! a := try_roots id ok (eq ++ le) in
  if a then Ok true
  else
    let! b := try_roots (fun r => r + eps) ok (lt ++ ne) in
    if b then Ok true else Ok (ok neg_inv_eps).

End Vts.
