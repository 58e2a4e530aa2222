(** Model of vts/isym.py.

    A sympy polynomial enters through what the code asks of it: whether it is
    a Python int, its number of free symbols, and the list of [leadterm(x)] of
    the [as_ordered_terms()] of its expansion.  IsymSpec says which list that
    is for a given polynomial. *)
From mathcomp Require Import all_ssreflect all_algebra.
From Coq Require Import String.
From Verif Require Import Py VtsModel.

Set Implicit Arguments.
Unset Strict Implicit.
Unset Printing Implicit Defensive.
Import GRing.Theory Num.Theory.
Local Open Scope ring_scope.

(** A coefficient: a Python int, a sympy.Rational (Integers included), or any
    other sympy number such as a Float or sqrt(2). *)
Inductive num := NInt of int | NRat of rat | NOther.

(** An argument of [convert]: a Python int; a Python 2 long, which is not an
    int; a sympy number or other expression without free symbols; an expression
    with [n.+1] free symbols and its (coefficient, power) terms after
    expansion. *)
Inductive sym :=
  PyNum of int | PyLong of int | SymConst of num | SymExpr of nat & seq (num * nat).

Definition is_int (c : num) : bool := if c is NInt _ then true else false.
Definition is_rat (c : num) : bool := if c is NRat _ then true else false.

(** 59: [reduce(lambda x, y: sympy.lcm(x, y.q), rationals, 1)]. *)
Definition den_lcm (l : seq num) : nat :=
  foldl (fun x c => if c is NRat q then lcmn x `|denq q| else x) 1%N l.

(** 61-64: multiply by the lcm; sympy.Integers become Python ints. *)
Definition scale (k : nat) (c : num) : num :=
  match c with
  | NInt z => NInt (z * k%:Z)
  | NRat q => let v := q * k%:R in if denq v == 1 then NInt (numq v) else NRat v
  | NOther => NOther
  end.

(** 53-81 [convert_rationals_to_ints]. *)
Definition convert_rationals_to_ints (coef_list : seq num) : res (seq num) :=
  let ints := [seq c <- coef_list | is_int c] in
  let rationals := [seq c <- coef_list | is_rat c] in
  if (size coef_list < size ints + size rationals)%N
  then Err (Exc "int's and rationals are not mutually exclusive")
  else
    let lcm := den_lcm rationals in
    let int_coefs := [seq scale lcm c | c <- coef_list] in
    if (size rationals + size ints)%N != size coef_list
    then Err (Exc "not rational")
    else Ok int_coefs.

(** 38: [{p: c for (c,p) in intterms}], later terms override. *)
Definition pow_lookup (terms : seq (num * nat)) : dict nat_eqType num :=
  foldl (fun d t => dset d t.2 t.1) [::] terms.

(** 4-51 [convert]. *)
Definition convert (poly : sym) : res (seq num) :=
  match poly with
  | PyNum z => if z == 0 then Ok [::] else Ok [:: NInt z]          (* 17-20 *)
  | SymConst c => convert_rationals_to_ints [:: c]                 (* 22-24 *)
  | PyLong _ => Err AttributeError                                 (* 22 *)
  | SymExpr n terms =>
      if (0 < n)%N then Err (Exc "more than one symbol")      (* 28-29 *)
      else
        let! t0 := pyget terms 0 in                                (* 37 *)
        let degree := t0.2 in
        let lk := pow_lookup terms in
        let coef_list := [seq (if dget lk i is Ok c then c else NInt 0)
                            | i <- iota 0 degree.+1] in            (* 45-46 *)
        convert_rationals_to_ints coef_list
  end.

(** The number as an int: what uni_vts computes with.  [convert] never returns
    anything else (IsymProps). *)
Definition as_int (c : num) : res int :=
  if c is NInt z then Ok z else Err TypeError.

(** 83-88 [convert_back]: [sum(c * x**p)] as a polynomial in x. *)
Definition convert_back (lpoly : seq int) : {poly rat} :=
  foldl (fun s cp => s + cp.1%:~R *: 'X^(cp.2)) 0 (zip lpoly (iota 0 (size lpoly))).

Section Vts.
Variable K : realDomainType.
Variables (inj : int -> K) (H : eqType) (str : int -> H).
Variable MkRoots : seq int -> res (seq K).
Variable mx_inv : rmatrix -> rmatrix.

Definition convert_ints (p : sym) : res (seq int) :=
  let! l := convert p in mapM as_int l.

(** 121-130 [vts]. *)
Definition isym_vts (le lt eq ne : seq sym) : res bool :=
  let! converted_le := mapM convert_ints le in
  let! converted_lt := mapM convert_ints lt in
  let! converted_eq := mapM convert_ints eq in
  let! converted_ne := mapM convert_ints ne in
  internal_vts inj str MkRoots mx_inv converted_le converted_lt converted_eq converted_ne.

(** 95-119 [ts] (the two-argument [ts] of lines 91-92 is shadowed). *)
Definition isym_ts (eps neg_inv_eps : K) (le lt eq ne : seq sym) : res bool :=
  let! converted_le := mapM convert_ints le in
  let! converted_lt := mapM convert_ints lt in
  let! converted_eq := mapM convert_ints eq in
  let! converted_ne := mapM convert_ints ne in
  internal_ts inj MkRoots eps neg_inv_eps converted_le converted_lt converted_eq converted_ne.
End Vts.
