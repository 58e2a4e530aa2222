(** The real procedures of highschool_qe/muchnik.py with the columns that the
    code has: Python floats.  MuchModel takes exact rationals; here the type
    of the columns and the arithmetic on them are parameters, [exact_full]
    shows that MuchModel is the instance with exact rationals, and [float_full]
    is the instance with binary64 numbers (the specification of IEEE 754 in
    Coq's standard library, rounding to nearest even). *)
From Coq Require Import ZArith SpecFloat String.
From mathcomp Require Import all_ssreflect all_algebra.
From Verif Require Import Py MuchModel.

Set Implicit Arguments.
Unset Strict Implicit.
Unset Printing Implicit Defensive.
Import GRing.Theory Num.Theory Order.TTheory.
Local Open Scope ring_scope.

(** Numbers used as columns: 0, 0.5 and 1.0, [(a + b) / 2] and [a <= b]. *)
Record columns := Columns {
  col :> eqType;
  col0 : col;
  col_half : col;
  col1 : col;
  mid : col -> col -> col;
  col_le : rel col
}.

Section Real.
Variable C : columns.
Variables (P : eqType) (K : realDomainType) (A : algebra P K).
Variable setiter : seq P -> seq P.
Let zero := a_zero A.
Let degree := a_degree A.
Local Notation diag := (diagram P C).

(** muchnik.py 148-160: r_assignment_all_zero. *)
Definition fr_assignment_all_zero (const_frag : seq P) : diag :=
  foldl (fun D c =>
    let c_sign := if a_has_variable A c then 0 else a_sign A c in
    put (put (put D c (col0 C) c_sign) c (col_half C) c_sign) c (col1 C) c_sign) [::] const_frag.

(** muchnik.py 190-210: _r_full_assignment. *)
Definition fassign3 (D : diag) (c : P) (v : int) : diag :=
  foldl (fun D point => put D c point v) (diagram_copy D) [:: col0 C; col_half C; col1 C].
Fixpoint fr_full_assignment (diagrams : seq diag) (vf : seq P) : seq diag :=
  if vf is c :: rest then
    fr_full_assignment
      (flatten [seq [:: fassign3 D c (-1); fassign3 D c 0; fassign3 D c 1] | D <- diagrams]) rest
  else diagrams.

(** muchnik.py 539: the sortedset of columns. *)
Definition fzero_columns (D : diag) : seq C := sort (@col_le C) (undup (cols D zero)).

(** muchnik.py 546-576. *)
Definition froot_column (p : P) (rest_polies : seq P) (D : diag) (x : C) : res diag :=
  let! zeros := zeros_of A setiter D (col0 C) x rest_polies in
  if zeros is z :: _ then
    let rem := (a_pseudo_div A p z).2 in
    let ps_coef := a_times A (a_LC A z) (fac (degree z)) in
    let! cv := cell D ps_coef x in
    let ps_neg := cv < 0 in
    let ps_odd_deg := odd (degree p + degree z + 1) in
    let! value := cell D rem x in
    Ok (put D p x (if ps_neg && ps_odd_deg then - value else value))
  else Ok D.

(** muchnik.py 580-626. *)
Definition fbetween_column (p : P) (rest_polies : seq P) (zc : seq C)
    (D : diag) (x : C * nat) : res diag :=
  let: (c, ind) := x in
  let! zeros := zeros_of A setiter D (col0 C) c rest_polies in
  if zeros is _ :: _ then Ok D
  else
    let! left_col := pyget zc ind.-1 in
    let! right_col := pyget zc ind.+1 in
    let! left_val := cell D p left_col in
    let! right_val := cell D p right_col in
    if (left_val == 0) && (right_val == 0) then Err DiagramExc
    else if (left_val == right_val) || (left_val * right_val == 0) then
      Ok (put D p c (Num.sg (left_val + right_val)))
    else
      let left_new := mid c left_col in
      let right_new := mid c right_col in
      let D := put D p left_new left_val in
      let D := put D p c 0 in
      let D := put D p right_new right_val in
      foldM (fun D q =>
        let! v := cell D q c in
        let D := put D q left_new v in
        let! v := cell D q c in
        Ok (put D q right_new v)) D (setiter rest_polies).

(** muchnik.py 518-626: real_extend, one polynomial. *)
Definition freal_step (D : diag) (p : P) : res diag :=
  let deg_p := degree p in
  let rest_polies := rows D in
  let lc_row := a_times A (a_LC A p) (fac (degree p)) in
  let! v := cell D lc_row (col0 C) in
  if v == 0 then copy_tail A D p
  else
    let D := put D p (col0 C) (v * (-1) ^+ deg_p) in
    let! v1 := cell D lc_row (col1 C) in
    let D := put D p (col1 C) v1 in
    let zc := fzero_columns D in
    let D := touch D zero in
    let zipped := zip zc (iota 0 (size zc)) in
    let! D := foldM (fun D x => froot_column p rest_polies D x.1) D (interior zipped) in
    foldM (fbetween_column p rest_polies zc) D (interior zipped).

Definition freal_extend (D : diag) (nonconst : seq P) := foldM freal_step D nonconst.

(** muchnik.py 710-725. *)
Fixpoint fextend_all (ds : seq diag) (nonconst : seq P) : res (seq diag) :=
  if ds is D :: ds' then
    match freal_extend D nonconst with
    | Ok D' => let! r := fextend_all ds' nonconst in Ok (D' :: r)
    | Err e =>
        if is_DiagramExc e then fextend_all ds' nonconst else Err e
    end
  else Ok [::].

(** muchnik.py 731-758. *)
Definition fgood_real (lesser equalities greater : seq P) (D : diag) : res bool :=
  let! cs := foldM (keep_columns D 0) (cols D zero) equalities in
  let! cs := foldM (keep_columns D (-1)) cs lesser in
  let! cs := foldM (keep_columns D 1) cs greater in
  Ok (size cs > 0)%N.

(** muchnik.py 766-781. *)
Definition freal_clause (vf : seq P) (D : diag) : res (option (seq P * seq P * seq P)) :=
  let! xs := mapM (fun p => let! v := cell D p (col0 C) in Ok (v, p)) vf in
  let zeros := [seq x.2 | x <- xs & x.1 == 0] in
  let less := [seq x.2 | x <- xs & x.1 == -1] in
  let more := [seq x.2 | x <- xs & (x.1 != 0) && (x.1 != -1)] in
  Ok (if (size (zeros ++ less ++ more) == 0)%N then None else Some (less, zeros, more)).

(** muchnik.py 661-790. *)
Definition freal_full (n : nat) (lesser equalities greater : seq P) :
    res (seq (seq P * seq P * seq P) * bool) :=
  let ps := lesser ++ equalities ++ greater in
  let! s := muchnik_sequence A n (sortedset (key_lt A) [:: zero]) ps in
  let root_diagram := fr_assignment_all_zero (sca_frag A s) in
  let diagrams := fr_full_assignment [:: root_diagram] (var_frag A s) in
  let! ext := fextend_all diagrams (nonconst_frag A s) in
  let! good := filterM (fgood_real lesser equalities greater) ext in
  let! cl := mapM (freal_clause (var_frag A s)) good in
  Ok (pmap id cl, (size good > 0)%N).
End Real.

(** Exact columns: MuchModel. *)
Definition exact_columns : columns :=
  @Columns [eqType of rat] 0 (1 / 2%:R) 1 (fun a b => (a + b) / 2%:R) <=%O.

Lemma exact_full (P : eqType) (K : realDomainType) (A : algebra P K) setiter n l e g :
  freal_full exact_columns A setiter n l e g = real_full A setiter n l e g.
Proof. by []. Qed.

(** Floats. *)
Definition sf_eqb (x y : spec_float) : bool :=
  match x, y with
  | S754_zero s, S754_zero t => s == t
  | S754_infinity s, S754_infinity t => s == t
  | S754_nan, S754_nan => true
  | S754_finite s m e, S754_finite t n f => [&& s == t, Pos.eqb m n & Z.eqb e f]
  | _, _ => false
  end.
Lemma sf_eqP : Equality.axiom sf_eqb.
Proof.
move=> [s|s||s m e] [t|t||t n f]; try by constructor.
- by apply: (iffP eqP) => [->|[]].
- by apply: (iffP eqP) => [->|[]].
- apply: (iffP and3P) => [[/eqP-> /Pos.eqb_eq-> /Z.eqb_eq->] //|[-> -> ->]].
  by rewrite eqxx Pos.eqb_refl Z.eqb_refl.
Qed.
Definition sf_eqMixin := EqMixin sf_eqP.
Canonical sf_eqType := EqType spec_float sf_eqMixin.

Definition f64_add := SFadd 53 1024.
Definition f64_div := SFdiv 53 1024.
Definition f64_of_Z (m e : Z) : spec_float := binary_normalize 53 1024 m e false.
(** [(a + b) / 2]; the int 2 becomes the float 2.0. *)
Definition f64_mid (a b : spec_float) : spec_float := f64_div (f64_add a b) (f64_of_Z 2 0).
Definition float_columns : columns :=
  @Columns [eqType of spec_float] (f64_of_Z 0 0) (f64_of_Z 1 (-1)) (f64_of_Z 1 0) f64_mid SFleb.

Definition float_full (P : eqType) (K : realDomainType) (A : algebra P K) setiter :=
  freal_full float_columns A setiter.
