(** C17-C20: the properties of vts/isym.py. *)
From Coq Require Import String.
From mathcomp Require Import all_ssreflect all_algebra.
From mathcomp.real_closed Require Import polyrcf realalg.
From Verif Require Import Py VtsModel VtsSpec VtsInst IsymModel IsymSpec IsymFacts.

Set Implicit Arguments.
Unset Strict Implicit.
Unset Printing Implicit Defensive.
Import GRing.Theory Num.Theory Order.POrderTheory Order.TotalTheory.
Local Open Scope ring_scope.

(** * C17 *)
Theorem C17_convert_scales (s : sym) (P : {poly rat}) :
  represents s P -> P != 0 ->
  exists zs k, [/\ convert s = Ok (map NInt zs), (0 < k)%N,
     int_poly zs = k%:R *: P, size zs = size P & last 0 zs != 0 /\ lcm_dens P k].
Proof. exact: convert_spec. Qed.
Print Assumptions C17_convert_scales.

Theorem C17_convert_keeps_signs (R : rcfType) (s : sym) (P : {poly rat}) (zs : seq int) (x : R) :
  represents s P -> convert s = Ok (map NInt zs) ->
  Num.sg (value intr zs x) = Num.sg (rvalue P x).
Proof. exact: convert_sign. Qed.
Print Assumptions C17_convert_keeps_signs.

Theorem C17_more_symbols_raise (n : nat) (ts : seq (num * nat)) :
  (0 < n)%N -> convert (SymExpr n ts) = Err (Exc "more than one symbol").
Proof. exact: convert_many. Qed.
Print Assumptions C17_more_symbols_raise.

Theorem C17_not_rational_raises (ts : seq (num * nat)) (t0 : num * nat) :
  pyget ts 0 = Ok t0 ->
  (exists2 i, (i <= t0.2)%N & dget (pow_lookup ts) i = Ok NOther) ->
  convert (SymExpr 0 ts) = Err (Exc "not rational").
Proof. exact: convert_not_rational. Qed.
Print Assumptions C17_not_rational_raises.

(** x^2/2 - 2/3 becomes 3x^2 - 4. *)
Definition coefs : seq rat := [:: - (2%:R / 3%:R); 0; 1 / 2%:R].
Example C17_example :
  [/\ represents (SymExpr 0 (ordered_terms (Poly coefs))) (Poly coefs),
      Poly coefs != 0 &
      convert (SymExpr 0 (ordered_terms (Poly coefs))) = Ok [:: NInt (- 4%:Z); NInt 0; NInt 3]].
Proof.
split; first exact: Or33.
  by rewrite -size_poly_eq0 (@PolyK _ 1).
by rewrite ordered_terms_Poly //; vm_compute.
Qed.
Example C17_example_sqrt :
  convert (SymExpr 0 [:: (NOther, 1%N); (NRat 1, 0%N)]) = Err (Exc "not rational").
Proof. by apply: (@C17_not_rational_raises _ (NOther, 1%N)) => //; exists 1%N. Qed.

(** * C18: holds for the Python int 0, fails for every symbolic zero *)
Theorem C18_zero (s : sym) :
  represents s 0 -> convert s = if s is PyNum _ then Ok [::] else Ok [:: NInt 0].
Proof. exact: convert_zero. Qed.
Print Assumptions C18_zero.

Theorem C18_symbolic_zero_refuted :
  exists s, represents s 0 /\ convert s <> Ok [::].
Proof.
by exists (SymConst (NRat 0)); split; [apply: Or32; exists 0 | vm_compute].
Qed.
Print Assumptions C18_symbolic_zero_refuted.

Example C18_example :
  represents (PyNum 0) 0 /\ represents (SymExpr 0 [:: (NRat 0, 0%N)]) 0.
Proof.
split; first by apply: Or31; exists 0.
by apply: Or33; rewrite /ordered_terms eqxx.
Qed.

(** * C19 *)
Theorem C19_round_trip (s : sym) (P : {poly rat}) :
  represents s P ->
  exists zs k, [/\ convert s = Ok (map NInt zs), (0 < k)%N, convert_back zs = k%:R *: P &
    ((forall i, denq P`_i = 1) -> convert_back zs = P)].
Proof. exact: convert_round_trip. Qed.
Print Assumptions C19_round_trip.

Example C19_example : convert_back [:: - 2%:Z; 0; 3%:Z] = 3%:R *: 'X^2 - 2%:R%:P.
Proof. by rewrite convert_backE; apply/polyP => i; rewrite int_poly_coef coefB coefZ coefXn coefC; case: i => [|[|[|i]]]; rewrite /= ?nth_nil; vm_compute. Qed.

(** * C20 *)
Theorem C20_isym_vts_decides
    (R : rcfType) (H : eqType) (str : int -> H)
    (MkRoots : seq int -> res (seq R)) (mx_inv : rmatrix -> rmatrix) :
  injective str -> inv_contract mx_inv -> MkRoots_contract (intr : int -> R) MkRoots ->
  forall (sle slt seq_ sne : seq sym) (le lt eq ne : seq {poly rat}),
  List.Forall2 represents sle le -> List.Forall2 represents slt lt ->
  List.Forall2 represents seq_ eq -> List.Forall2 represents sne ne ->
  all (fun P : {poly rat} => P != 0) (le ++ lt ++ eq ++ ne) ->
  exists b, (b = true <-> exists x : R, rsatisfies le lt eq ne x) /\
  (isym_vts intr str MkRoots mx_inv sle slt seq_ sne = Ok b \/
   isym_vts intr str MkRoots mx_inv sle slt seq_ sne = Err (Exc "more than 5 polies") /\
   exists2 P, P \in le ++ lt ++ eq ++ ne & (6 < size P)%N).
Proof. by move=> h1 h2 h3 *; exact: (isym_vts_result h1 h2 h3). Qed.
Print Assumptions C20_isym_vts_decides.

(** x^2/2 < 2/3 together with x <> 0. *)
Example C20_example :
  isym_vts injZ strZ rootsZ invQ
    [::] [:: SymExpr 0 (ordered_terms (Poly coefs))] [::] [:: SymExpr 0 [:: (NRat 1, 1%N)]] = Ok true.
Proof.
rewrite /isym_vts.
have -> : mapM convert_ints [:: SymExpr 0 (ordered_terms (Poly coefs))] = Ok [:: [:: - 4%:Z; 0; 3%:Z]].
  by rewrite ordered_terms_Poly //; vm_compute.
have -> : mapM convert_ints [:: SymExpr 0 [:: (NRat 1, 1%N)]] = Ok [:: [:: 0; 1]] by vm_compute.
rewrite [mapM _ [::]]/= !bind_ok -/(vtsZ _ _ _ _); apply: (@vtsZ_true _ _ _ _ 1%:~R) => //.
split=> // p; rewrite inE => /eqP->; first by rewrite valueZ_lt0.
by rewrite valueZ => /eqP; rewrite intr_eq0.
Qed.
