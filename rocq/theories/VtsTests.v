(** The repository's own tests of vts/ (test_vts.py, test_isym.py, examples.py)
    run on the model: the tables of inputs and expected outputs are copied from
    the test files.  A check that the model computes what the authors expect
    of the code; one expectation fails, see test_convert_types.  In four tests
    only some of the rows are kept, to keep the build short; the other rows
    were run once and agree. *)
From Coq Require Import ZArith String.
From mathcomp Require Import all_ssreflect all_algebra.
From mathcomp.zify Require Import ssrZ.
From Verif Require Import Py VtsModel VtsInst IsymModel.

Set Implicit Arguments.
Unset Strict Implicit.
Unset Printing Implicit Defensive.
Import GRing.Theory Num.Theory.
Local Open Scope ring_scope.
Delimit Scope Z_scope with cZ.

Definition zpoly := seq ZD.

(** test_vts.py 21-61 test_remainder. *)
Definition remainder_data : seq (zpoly * zpoly * zpoly) :=
  [:: ([:: 1; 1], [:: 1], [::]);
   ([:: 1; 2], [:: 1], [::]);
   ([:: 1; 1], [:: -1], [::]);
   ([:: -2; 1], [:: -1], [::]);
   ([:: 1; 1], [:: -2], [::]);
   ([:: 2; 2], [:: -2], [::]);
   ([:: 1; 1], [:: 0; 1], [:: 1]);
   ([:: -1; 2], [:: 0; 1], [:: -1]);
   ([:: -2; 1], [:: 0; 1], [:: -2]);
   ([:: 1; 1], [:: 0; -1], [:: 1]);
   ([:: -1; 2], [:: 0; -1], [:: -1]);
   ([:: -2; 1], [:: 0; -1], [:: -2]);
   ([:: 1; 1], [:: 0; -2], [:: 2]);
   ([:: -1; 2], [:: 0; -2], [:: -2]);
   ([:: -2; 1], [:: 0; -2], [:: -4]);
   ([:: 1; 1], [:: 1; 1], [::]);
   ([:: -1; 2], [:: -1; 1], [:: 1]);
   ([:: -2; 1], [:: -4; 1], [:: 2]);
   ([:: 1; 1], [:: 1; -1], [:: 2]);
   ([:: -1; 2], [:: -1; -1], [:: -3]);
   ([:: -2; 1], [:: -4; -1], [:: -6]);
   ([:: 1; 1], [:: 1; -2], [:: 3]);
   ([:: -1; 2], [:: -1; -2], [:: -4]);
   ([:: -2; 1], [:: -4; -2], [:: -8]);
   ([:: 1; 4; 6], [:: 0; -2], [:: 4]);
   ([:: 1; 1], [:: 2; 2; 2], [:: 1; 1])].
Example test_remainder :
  [seq signed_pseudo_remainder x.1.1 x.1.2 | x <- remainder_data] = [seq Ok x.2 | x <- remainder_data].
Proof. by vm_compute. Qed.

(** 63-74 test_signed_remainder_sequence. *)
Example test_signed_remainder_sequence :
  signed_remainder_sequence ([:: 24; -50; 35; -10; 1]%cZ : zpoly) ([:: -50; 170; -220; 134; -38; 4]%cZ : zpoly) =
  Ok ([:: [:: 24; -50; 35; -10; 1]; [:: -50; 170; -220; 134; -38; 4]; [:: -24; 50; -35; 10; -1];
       [:: 98; -174; 90; -14]; [:: -196; 272; -76]; [:: 28224; -28224]]%cZ : seq zpoly).
Proof. by vm_compute. Qed.

(** 76-98 test_signed_remainder_cauchy_index. *)
Definition cauchy_data : seq (zpoly * zpoly * int) :=
  [:: ([:: 0; 1], [::], 0);
   ([:: 1], [:: 1], 0);
   ([:: 0; 1], [:: 1], 1);
   ([:: 0; -1], [:: 1], -1);
   ([:: 0; 1], [:: -1], -1);
   ([:: 0; -1], [:: -1], 1);
   ([:: 1; 1], [:: 1; 1], 0);
   ([:: 1; 1], [:: 1; 2], -1);
   ([:: 1; 2], [:: 1; 1], 1);
   ([:: 1; 0; 1], [:: 1], 0);
   ([:: 1; 0; 1], [:: 0; 1], 0);
   ([:: -1; 0; 1], [:: 1], 0);
   ([:: -1; 0; 1], [:: 0; 1], 2);
   ([:: -1; 0; 1], [:: -1; 1], 1)].
Example test_signed_remainder_cauchy_index :
  [seq signed_remainder_cauchy_index x.1.1 x.1.2 | x <- cauchy_data] = [seq Ok x.2 | x <- cauchy_data].
Proof. by vm_compute. Qed.

(** 100-121 test_tarski_query. *)
Definition tarski_data : seq (zpoly * zpoly * int) :=
  [:: ([:: 1], [:: 1], 0);
   ([:: 1], [:: 0; 1], 0);
   ([:: 0; 1], [:: 1], 1);
   ([:: 0; 1], [:: 1; 1], 1);
   ([:: 0; 1], [:: -1; 1], -1);
   ([:: 0; 1], [:: 0; -1; 1], 0);
   ([:: -1; 0; 1], [:: 1], 2);
   ([:: -1; 0; 1], [:: -1], -2);
   ([:: -1; 0; 1], [:: 0; 1], 0);
   ([:: -1; 0; 1], [:: -1; 1], -1);
   ([:: -1; 0; 1], [:: 1; 1], 1);
   ([:: -1; 0; 1], [:: -2; 1], -2);
   ([:: -1; 0; 1], [:: 2; 1], 2)].
Example test_tarski_query :
  [seq tarski_query x.1.1 x.1.2 | x <- tarski_data] = [seq Ok x.2 | x <- tarski_data].
Proof. by vm_compute. Qed.

(** 123-137 test_make_product_list, with the symbols a0, a1 any numbers. *)
Example test_make_product_list (D : realDomainType) (a0 a1 : D) :
  make_product_list ([::] : seq (seq D)) = [:: [:: 1]] /\
  make_product_list [:: [:: a0; a1]] = [:: [:: 1]; [:: a0; a1]; [:: a0 ^+ 2; a0 * a1 *+ 2; a1 ^+ 2]].
Proof.
split=> //.
rewrite /make_product_list /multiply /= !add0r ?addr0 ?mul1r ?mul0r -!expr2 [a1 * a0]mulrC -mulr2n.
by [].
Qed.

(** 175-226 test_get_discri_der_signs: the polynomial
    (x - 1)^2 x (x + 1) (x + 2); the polynomials recorded for each root with
    their signs, roots in the order of the descriptors. *)
Definition dds_poly : zpoly := [:: 0; 2; -1; -3; 1; 1]%cZ.
Definition dds_d1 : zpoly := [:: 2; -2; -9; 4; 5]%cZ.
Definition dds_d3 : zpoly := [:: -18; 24; 60]%cZ.
Definition polies_of (d : DiscDerSigns ZD ZD ZD) : zpoly * seq (seq ZD * int) :=
  ([:: dds_point d], dds_lookup d).
Example test_get_discri_der_signs :
  (let! r := roots_run dds_poly in
   let! ds := get_discri_der_signs injR strR r dds_poly in
   Ok [seq polies_of d | d <- ds]) =
  Ok [:: ([:: 1]%cZ, [:: (dds_d1, 0)]);
         ([:: -2]%cZ, [:: (dds_d3, 1); (dds_d1, 1)]);
         ([:: 0]%cZ, [:: (dds_d3, -1); (dds_d1, 1)]);
         ([:: -1]%cZ, [:: (dds_d1, -1)])].
Proof. by vm_compute. Qed.

(** 228-284 test_pick_sign_of_goal: the polynomials are three different
    constants, [at_ l] is the matrix of zeros with the entries of [l] set. *)
Definition at_ (l : seq (nat * rat)) : seq rat :=
  [seq foldl (fun c e => if e.1 == i then e.2 else c) 0 l | i <- iota 0 27].
Definition pick (s1 s2 : int) (l : seq (nat * rat)) : res int :=
  let p1 : zpoly := [:: 5]%cZ in let p2 : zpoly := [:: 7]%cZ in
  let! d := add_poly strR s1 p1 (new_dds ZD ZD (0 : ZD)) in
  let! d := add_poly strR s2 p2 d in
  pick_sign_of_goal strR [:: p1; p2; [:: 11]%cZ] d (at_ l).
Example test_pick_sign_of_goal :
  [:: pick 0 0 [:: ((9*0 + 3*0 + 1)%N, 1)]; pick 0 0 [:: ((9*0 + 3*0 + 2)%N, 1)];
      pick (-1) 1 [:: ((9*2 + 3*1 + 0)%N, 1)]] = [:: Ok 1; Ok (-1); Ok 0] /\
  [:: pick (-1) 1 [:: (21%N, 1); (22%N, 1)]; pick (-1) 1 [::]; pick (-1) 1 [:: (21%N, 2%:R)]] =
  [:: Err (Exc "multiple possible signs in matrix"); Err (Exc "no entry in the table was with count 1");
      Err (Exc "table had a count that was neither 0 or 1")].
Proof. by vm_compute. Qed.

(** The descriptors of all roots of [p] in ascending order (setUp, 12-18;
    here they are picked by their point). *)
Definition sign_at (ev : DiscDerSigns ZD ZD ZD -> zpoly -> res int) (p : zpoly) (pt : ZD) (g : zpoly) : res int :=
  let! r := roots_run p in
  let! ds := get_discri_der_signs injR strR r p in
  let! d := pyget [seq set_origin_poly p d | d <- ds & dds_point d == pt] 0 in
  ev d g.
Definition single := evaluate_single_on_sign_assignment (K := ZD) strR inv_run.
Definition e_close := e_close_evaluate_single_on_sign_assignment (K := ZD) strR inv_run.

(** 286-350 test_evaluate_single_on_sign_assignment; goals with decimal
    coefficients are multiplied by ten. *)
Definition x2_1 : zpoly := [:: -1; 0; 1]%cZ.
Example test_evaluate_single_on_sign_assignment_1 :
  [seq sign_at single x2_1 (-1)%cZ g | g <- [:: [:: 11; 10]; [:: 1; 1]; [:: 9; 10]]%cZ] =
    [:: Ok 1; Ok 0; Ok (-1)].
Proof. by vm_compute. Qed.
Example test_evaluate_single_on_sign_assignment_2 :
  sign_at single dds_poly 0%cZ [:: -1; 10]%cZ = Ok (-1).
Proof. by vm_compute. Qed.

(** 352-370 test_e_close_evaluate_single_on_sign_assignment. *)
Example test_e_close_evaluate_single_on_sign_assignment :
  [seq sign_at e_close x2_1 1%cZ g | g <- [:: [:: 1; -1]; [:: -2; 1]]%cZ] = [:: Ok (-1); Ok (-1)].
Proof. by vm_compute. Qed.

(** 372-396 test_sign_conditions_lookup; p1, ..., p4 are four different
    constants. *)
Definition allowed (le lt eq ne : seq zpoly) (ps : seq zpoly) : res (seq (seq int)) :=
  let! lk := sign_conditions_lookup strR le lt eq ne in mapM (dget lk) ps.
Example test_sign_conditions_lookup :
  let p1 : zpoly := [:: 5]%cZ in let p2 : zpoly := [:: 7]%cZ in
  let p3 : zpoly := [:: 11]%cZ in let p4 : zpoly := [:: 13]%cZ in
  [:: allowed [:: p1] [:: p2] [:: p3] [:: p4] [:: p1; p2; p3; p4];
      allowed [::] [:: p1; p2] [::] [::] [:: p1; p2];
      allowed [::] [::] [:: p1; p2] [::] [:: p1; p2];
      allowed [::] [::] [::] [:: p1; p2] [:: p1; p2];
      allowed [:: p1; p2] [::] [::] [::] [:: p1; p2]] =
  [:: Ok [:: [:: -1; 0]; [:: -1]; [:: 0]; [:: -1; 1]];
      Ok [:: [:: -1]; [:: -1]]; Ok [:: [:: 0]; [:: 0]];
      Ok [:: [:: -1; 1]; [:: -1; 1]]; Ok [:: [:: -1; 0]; [:: -1; 0]]].
Proof. by vm_compute. Qed.

(** 398-430 test_vts. *)
Definition lin_1 : zpoly := [:: -1; 1]%cZ.
Definition lin_2 : zpoly := [:: -2; 1]%cZ.
Definition cub_1 : zpoly := [:: -1; 3; -3; 1]%cZ.
Definition qua_ : zpoly := [:: 1; 0; 1]%cZ.
Example test_vts :
  [:: vts_run [:: lin_1] [:: lin_1] [::] [::]; vts_run [::] [::] [:: lin_1] [:: lin_1];
      vts_run [::] [::] [:: lin_1; lin_2] [::]; vts_run [::] [::] [:: cub_1; lin_1] [::];
      vts_run [:: qua_] [::] [::] [::]; vts_run [::] [:: qua_] [::] [::];
      vts_run [::] [::] [:: qua_] [::]; vts_run [::] [::] [::] [:: qua_]] =
  [seq Ok b | b <- [:: true; false; false; true; false; false; false; true]].
Proof. by vm_compute. Qed.

(** examples.py 4-6 (the answer is not in the file). *)
Example examples_py : vts_run [::] [:: [:: -2; 1]%cZ] [:: [:: 2; -3; 1]%cZ] [::] = Ok true.
Proof. by vm_compute. Qed.

(** test_isym.py 12-22 test_convert; a symbolic polynomial is given by the
    ordered terms of its expansion. *)
Example test_convert :
  [:: convert (PyNum 0); convert (PyNum 1); convert (PyNum (-2));
      convert (SymExpr 0 [:: (NInt 1, 1%N)]);
      convert (SymExpr 0 [:: (NInt 1, 1%N); (NRat (- 7%:R), 0%N)]);
      convert (SymExpr 0 [:: (NRat 3%:R, 2%N)]);
      convert (SymExpr 0 [:: (NRat (- (1 / 5%:R)), 2%N); (NRat (1 / 3%:R), 1%N); (NRat 1, 0%N)])] =
  [:: Ok [::]; Ok [:: NInt 1]; Ok [:: NInt (-2)]; Ok [:: NInt 0; NInt 1];
      Ok [:: NInt (-7); NInt 1]; Ok [:: NInt 0; NInt 0; NInt 3];
      Ok [:: NInt 15; NInt 5; NInt (-3)]].
Proof. by vm_compute. Qed.

(** test_isym.py 25-37 test_convert_rationals_to_ints.  The first expectation
    holds.  The second, that (1, Float 2.2) keeps its Float, does not: the
    function raises. *)
Example test_convert_types :
  convert_rationals_to_ints [:: NRat 1; NRat 2%:R] = Ok [:: NInt 1; NInt 2] /\
  convert_rationals_to_ints [:: NInt 1; NOther] = Err (Exc "not rational").
Proof. by vm_compute. Qed.

(** test_isym.py 40-46 test_convert_back. *)
Example test_convert_back :
  [/\ convert_back [::] = 0, convert_back [:: 1%:Z] = 1, convert_back [:: - 2%:Z] = - 2%:R,
      convert_back [:: 0; 1%:Z] = 'X & convert_back [:: - 7%:Z; 1%:Z] = 'X - 7%:R] /\
  convert_back [:: 0; 0; 3%:Z] = 3%:R *: 'X^2.
Proof.
rewrite /convert_back /=; split; [split|].
- by [].
- by rewrite add0r expr0 scale1r.
- by rewrite add0r expr0 scaler_int mulrNz.
- by rewrite add0r expr0 expr1 !scale0r add0r scale1r.
- by rewrite add0r expr0 expr1 scale1r scaler_int mulrNz addrC.
by rewrite add0r !scale0r !add0r.
Qed.
