(** Model of highschool_qe/muchnik.py.

    Polynomials are elements of an arbitrary type [P] with decidable equality;
    the operations of AlgebraAPIWrapper are the fields of the record [algebra]
    (MuchSpec states what is assumed of them, MuchInst gives an instance).
    A diagram is a dictionary of rows; the second component of a cell (the
    polynomial of the row) is dropped.  Columns of real diagrams are floats in
    the code and exact rationals here (MuchFloat has the floats).  Printing is
    in MuchPrint, here there is only the verdict.  Iteration over a Python set is in an
    arbitrary order [setiter].  The degree of the zero polynomial (-1 or -oo in sympy) is 0
    here; it is only ever compared with [> 0] and [<= 0]. *)
From mathcomp Require Import all_ssreflect all_algebra.
From Coq Require Import String.
From Verif Require Import Py.

Set Implicit Arguments.
Unset Strict Implicit.
Unset Printing Implicit Defensive.
Import GRing.Theory Num.Theory Order.TTheory.
Local Open Scope ring_scope.

(** muchnik.py 9-41, AlgebraAPIWrapper, and the Python operators that are
    applied to polynomials directly ([p - q], [p * n]).  [K] is the type of
    the leading scalars, which are only compared. *)
Record algebra (P : eqType) (K : realDomainType) := Algebra {
  a_LT : P -> P;
  a_LC : P -> P;
  a_LS : P -> K;
  a_degree : P -> nat;
  a_div : P -> P -> P * P;
  a_tail : P -> P;
  a_e_var : P;
  a_has_variable : P -> bool;
  a_pseudo_div : P -> P -> P * P;
  a_derivative : P -> P;
  a_zero : P;
  a_sign : P -> int;
  a_sub : P -> P -> P;
  a_times : P -> nat -> P
}.

(** muchnik.py 848: [fac]. *)
Fixpoint fac (n : nat) : nat := if n is n'.+1 then (n * fac n')%N else 1%N.

(** Python 2 comparison [s < t] of lists of numbers. *)
Fixpoint list_lt (K : realDomainType) (s t : seq K) : bool :=
  match s, t with
  | [::], [::] => false
  | [::], _ => true
  | _, [::] => false
  | a :: s', b :: t' => if a == b then list_lt s' t' else a < b
  end.

(** blist.sortedset with a key: [add] keeps the list sorted by key, after
    the elements with the same key, and does nothing for a member. *)
Section SortedSet.
Variables (T : eqType) (lt : T -> T -> bool).
Fixpoint ss_insert (x : T) (s : seq T) : seq T :=
  if s is y :: s' then if lt x y then x :: s else y :: ss_insert x s' else [:: x].
Definition ss_add (s : seq T) (x : T) : seq T := if x \in s then s else ss_insert x s.
Definition sortedset (l : seq T) : seq T := foldl ss_add [::] l.
End SortedSet.

(** A diagram: defaultdict(dict). *)
Section Diagram.
Variables (P C : eqType).
Definition diagram := dict P (dict C int).

(** [diagram[q]] of a defaultdict: a missing row is created. *)
Definition row (D : diagram) (q : P) : dict C int :=
  if dget D q is Ok r then r else [::].
Definition touch (D : diagram) (q : P) : diagram :=
  if dmem D q then D else rcons D (q, [::]).

(** [diagram[q][c][0]]. *)
Definition cell (D : diagram) (q : P) (c : C) : res int := dget (row D q) c.

(** [diagram[q][c] = (v, q)]. *)
Definition put (D : diagram) (q : P) (c : C) (v : int) : diagram :=
  dset D q (dset (row D q) c v).

Definition rows (D : diagram) : seq P := map fst D.
Definition cols (D : diagram) (q : P) : seq C := map fst (row D q).

(** muchnik.py 103-108: _diagram_copy: a fresh dictionary with fresh rows; dictionaries
    are values here. *)
Definition diagram_copy (D : diagram) : diagram := [seq (x.1, x.2) | x <- D].
End Diagram.

Section Muchnik.
Variables (P : eqType) (K : realDomainType) (A : algebra P K).
Variable setiter : seq P -> seq P.

Let zero := a_zero A.
Let degree := a_degree A.

(** muchnik.py 792-804: _poly_deg_key and its helper; [n] bounds the number of terms
    (key_unfold in MuchFacts: the recursion is never cut short). *)
Fixpoint poly_deg_key_helper (n : nat) (p : P) (degrees coefs : seq K) : seq K :=
  match n with
  | n'.+1 =>
      if (degree p <= 0)%N then rcons degrees 0 ++ rcons coefs (a_LS A p)
      else poly_deg_key_helper n' (a_sub A p (a_LT A p))
             (rcons degrees (degree p)%:R) (rcons coefs (a_LS A p))
  | 0 => rcons degrees 0 ++ rcons coefs (a_LS A p)
  end.
Definition poly_deg_key (p : P) : seq K := poly_deg_key_helper (degree p) p [::] [::].
Definition key_lt (p q : P) : bool := list_lt (poly_deg_key p) (poly_deg_key q).

(** muchnik.py 212-279: muchnik_sequence. *)
Fixpoint muchnik_sequence (n : nat) (polies_done polies_todo : seq P) : res (seq P) :=
  match n with
  | 0 => Err OutOfFuel
  | n'.+1 =>
      match polies_todo with
      | [::] => Ok polies_done
      | head :: rest =>
          if head \in polies_done then muchnik_sequence n' polies_done rest
          else
            let cur_degree := degree head in
            let der := a_derivative A head in
            let tail := a_tail A head in
            let rest1 := if tail != zero then rcons rest tail else rest in
            let rest2 := if der != zero then rcons rest1 der else rest1 in
            let le := [seq p <- polies_done | (degree p <= cur_degree)%N && (degree p > 0)%N] in
            let ge := [seq p <- polies_done | (degree p >= cur_degree)%N && (degree p > 0)%N] in
            let rem_le := [seq (a_pseudo_div A head p).2 | p <- le] in
            let rem_ge := [seq (a_pseudo_div A p head).2 | p <- ge] in
            let rems := [seq p <- rem_le ++ rem_ge | p != zero] in
            muchnik_sequence n' (ss_add key_lt polies_done head) (rest2 ++ rems)
      end
  end.

(** muchnik.py 376-384, 411-430, 643-650, 685-701: the fragments of the
    sequence. *)
Definition constant_frag (s : seq P) : seq P := [seq p <- s | (a_div A p (a_e_var A)).1 == zero].
Definition nonconst_frag (s : seq P) : seq P := [seq p <- s | (a_div A p (a_e_var A)).1 != zero].
Definition var_frag (s : seq P) : seq P := [seq p <- constant_frag s | a_has_variable A p].
Definition sca_frag (s : seq P) : seq P := [seq p <- constant_frag s | ~~ a_has_variable A p].

(** *** Complex diagrams: columns 0, 1, 2, ... *)

(** muchnik.py 67-79: c_assignment_all_zero. *)
Definition c_assignment_all_zero (const_frag : seq P) : diagram P [eqType of nat] :=
  foldl (fun D c =>
    if c == zero then put D c 0%N 0
    else if a_has_variable A c then put D c 0%N 0
    else put D c 0%N 1) [::] const_frag.

(** muchnik.py 110-132: _c_full_assignment. *)
Fixpoint c_full_assignment (diagrams : seq (diagram P [eqType of nat])) (vf : seq P) :
    seq (diagram P [eqType of nat]) :=
  if vf is c :: rest then
    c_full_assignment
      (flatten [seq [:: put (diagram_copy D) c 0%N 0; put (diagram_copy D) c 0%N 1] | D <- diagrams])
      rest
  else diagrams.

(** The rows in iteration order whose polynomial is not zero and vanishes in
    the column: muchnik.py 322-327, 548-555, 582-589.  Both cells are read
    ([&] does not short-circuit). *)
Definition zeros_of (C : eqType) (D : diagram P C) (c0 col : C) (rest_polies : seq P) : res (seq P) :=
  let! zs := mapM (fun q =>
    let! v := cell D q col in
    let! v0 := cell D q c0 in
    Ok ((v == 0) && (v0 != 0), q)) (setiter rest_polies) in
  Ok (sortedset key_lt [seq x.2 | x <- zs & x.1]).

(** muchnik.py 304-306, 528-530: if the leading coefficient is zero, copy the
    row of the tail. *)
Definition copy_tail (C : eqType) (D : diagram P C) (p : P) : res (diagram P C) :=
  let tail := a_tail A p in
  foldM (fun D' col => let! v := cell D' tail col in Ok (put D' p col v))
    (touch D tail) (cols D tail).

(** muchnik.py 339-343: the number of derivatives of [p] that vanish in a
    column before the first that does not. *)
Fixpoint multiplicity (D : diagram P [eqType of nat]) (col : nat) (n : nat) (running : P) : res nat :=
  match n with
  | 0 => Ok 0%N
  | n'.+1 =>
      let d := a_derivative A running in
      let! v := cell D d col in
      if v != 0 then Ok 0%N
      else let! m := multiplicity D col n' d in Ok m.+1
  end.

(** muchnik.py 293-360: complex_extend, one polynomial. *)
Definition complex_step (D : diagram P [eqType of nat]) (p : P) : res (diagram P [eqType of nat]) :=
  let D := put D p 0%N 1 in
  let lc_row := a_times A (a_LC A p) (fac (degree p)) in
  let! v := cell D lc_row 0%N in
  if v == 0 then copy_tail D p
  else
    let col_size := size (cols D zero) in
    let D := touch D zero in
    let rest_polies := [seq q <- rows D | q != p] in
    let! st := foldM (fun st col =>
        let: (D, roots_done) := st in
        let! zeros := zeros_of D 0%N col rest_polies in
        let! z := pyget zeros 0 in
        let rem := (a_pseudo_div A p z).2 in
        let! value := cell D rem col in
        let! m := (if value == 0 then
                     let! m := multiplicity D col (degree p) p in Ok m.+1
                   else Ok 0%N) in
        Ok (put D p col value, (roots_done + m)%N))
      (D, 0%N) (iota 1 col_size.-1) in
    let: (D, roots_done) := st in
    foldM (fun D column =>
        let! D' := foldM (fun D q =>
          let! v0 := cell D q 0%N in
          Ok (put D q column (if v0 == 0 then 0 else 1))) D (setiter rest_polies) in
        Ok (put D' p column 0))
      D (iota col_size (degree p - roots_done)).

Definition complex_extend (D : diagram P [eqType of nat]) (nonconst : seq P) :=
  foldM complex_step D nonconst.

(** *** Real diagrams: columns in [0, 1]; 0 is minus infinity, 1 plus
    infinity. *)

(** muchnik.py 148-160: r_assignment_all_zero. *)
Definition r_assignment_all_zero (const_frag : seq P) : diagram P [eqType of rat] :=
  foldl (fun D c =>
    let c_sign := if a_has_variable A c then 0 else a_sign A c in
    put (put (put D c 0 c_sign) c (1 / 2%:R) c_sign) c 1 c_sign) [::] const_frag.

(** muchnik.py 190-210: _r_full_assignment. *)
Definition assign3 (D : diagram P [eqType of rat]) (c : P) (v : int) :=
  foldl (fun D point => put D c point v) (diagram_copy D) [:: 0; 1 / 2%:R; 1].
Fixpoint r_full_assignment (diagrams : seq (diagram P [eqType of rat])) (vf : seq P) :=
  if vf is c :: rest then
    r_full_assignment
      (flatten [seq [:: assign3 D c (-1); assign3 D c 0; assign3 D c 1] | D <- diagrams]) rest
  else diagrams.

(** muchnik.py 539: the sortedset of columns. *)
Definition zero_columns (D : diagram P [eqType of rat]) : seq rat :=
  sort <=%O (undup (cols D zero)).

Definition interior (T : Type) (s : seq T) : seq T := pybutlast (behead s).

(** muchnik.py 602, 851-856. *)
Definition bad_diagram : string := "bad diagram, doesn't have derivative's root".
Definition DiagramExc := Exc bad_diagram.
Definition is_DiagramExc (e : exn) : bool := if e is Exc m then String.eqb m bad_diagram else false.

(** muchnik.py 546-576: the value of [p] where another row vanishes.  The
    parity of [deg p - deg z + 1] is that of [deg p + deg z + 1], which does
    not need negative numbers. *)
Definition root_column (p : P) (rest_polies : seq P) (D : diagram P [eqType of rat]) (col : rat) :
    res (diagram P [eqType of rat]) :=
  let! zeros := zeros_of D 0 col rest_polies in
  if zeros is z :: _ then
    let rem := (a_pseudo_div A p z).2 in
    let ps_coef := a_times A (a_LC A z) (fac (degree z)) in
    let! cv := cell D ps_coef col in
    let ps_neg := cv < 0 in
    let ps_odd_deg := odd (degree p + degree z + 1) in
    let! value := cell D rem col in
    Ok (put D p col (if ps_neg && ps_odd_deg then - value else value))
  else Ok D.

(** muchnik.py 580-626: the value of [p] between, with a new root if the sign
    changes.  The sign at 609 is that of a Python integer. *)
Definition between_column (p : P) (rest_polies : seq P) (zc : seq rat)
    (D : diagram P [eqType of rat]) (x : rat * nat) : res (diagram P [eqType of rat]) :=
  let: (col, ind) := x in
  let! zeros := zeros_of D 0 col rest_polies in
  if zeros is _ :: _ then Ok D
  else
    let! left_col := pyget zc ind.-1 in
    let! right_col := pyget zc ind.+1 in
    let! left_val := cell D p left_col in
    let! right_val := cell D p right_col in
    if (left_val == 0) && (right_val == 0) then Err DiagramExc
    else if (left_val == right_val) || (left_val * right_val == 0) then
      Ok (put D p col (Num.sg (left_val + right_val)))
    else
      let left_new := (col + left_col) / 2%:R in
      let right_new := (col + right_col) / 2%:R in
      let D := put D p left_new left_val in
      let D := put D p col 0 in
      let D := put D p right_new right_val in
      foldM (fun D q =>
        let! v := cell D q col in
        let D := put D q left_new v in
        let! v := cell D q col in
        Ok (put D q right_new v)) D (setiter rest_polies).

(** muchnik.py 518-626: real_extend, one polynomial. *)
Definition real_step (D : diagram P [eqType of rat]) (p : P) : res (diagram P [eqType of rat]) :=
  let deg_p := degree p in
  let rest_polies := rows D in
  let lc_row := a_times A (a_LC A p) (fac (degree p)) in
  let! v := cell D lc_row 0 in
  if v == 0 then copy_tail D p
  else
    let D := put D p 0 (v * (-1) ^+ deg_p) in
    let! v1 := cell D lc_row 1 in
    let D := put D p 1 v1 in
    let zc := zero_columns D in
    let D := touch D zero in
    let zipped := zip zc (iota 0 (size zc)) in
    let! D := foldM (fun D x => root_column p rest_polies D x.1) D (interior zipped) in
    foldM (between_column p rest_polies zc) D (interior zipped).

Definition real_extend (D : diagram P [eqType of rat]) (nonconst : seq P) :=
  foldM real_step D nonconst.

(** muchnik.py 710-725: extending all diagrams; only DiagramExc is caught. *)
Fixpoint extend_all (ds : seq (diagram P [eqType of rat])) (nonconst : seq P) :
    res (seq (diagram P [eqType of rat])) :=
  if ds is D :: ds' then
    match real_extend D nonconst with
    | Ok D' => let! r := extend_all ds' nonconst in Ok (D' :: r)
    | Err e =>
        if is_DiagramExc e then extend_all ds' nonconst else Err e
    end
  else Ok [::].

(** muchnik.py 457-475, 731-758: the candidate columns in which [p] has the
    value [v].  The [break] on an empty list is omitted: no cell is read for
    an empty list of columns. *)
Definition keep_columns (C : eqType) (D : diagram P C) (v : int) (cs : seq C) (p : P) : res (seq C) :=
  let! xs := mapM (fun c => let! u := cell D p c in Ok (u == v, c)) cs in
  Ok [seq x.2 | x <- xs & x.1].

Definition good_real (lesser equalities greater : seq P) (D : diagram P [eqType of rat]) : res bool :=
  let! cs := foldM (keep_columns D 0) (cols D zero) equalities in
  let! cs := foldM (keep_columns D (-1)) cs lesser in
  let! cs := foldM (keep_columns D 1) cs greater in
  Ok (size cs > 0)%N.

Definition good_complex (equalities inequalities : seq P) (D : diagram P [eqType of nat]) : res bool :=
  let! cs := foldM (keep_columns D 0) (cols D zero) equalities in
  let! cs := foldM (keep_columns D 1) cs inequalities in
  Ok (size cs > 0)%N.

Fixpoint filterM (T : Type) (f : T -> res bool) (l : seq T) : res (seq T) :=
  if l is x :: l' then
    let! b := f x in let! r := filterM f l' in Ok (if b then x :: r else r)
  else Ok [::].

(** muchnik.py 482-494, 766-781: one clause per good diagram, in the real case
    (less, equal, greater); a clause without polynomials is dropped. *)
Definition real_clause (vf : seq P) (D : diagram P [eqType of rat]) :
    res (option (seq P * seq P * seq P)) :=
  let! xs := mapM (fun p => let! v := cell D p 0 in Ok (v, p)) vf in
  let zeros := [seq x.2 | x <- xs & x.1 == 0] in
  let less := [seq x.2 | x <- xs & x.1 == -1] in
  let more := [seq x.2 | x <- xs & (x.1 != 0) && (x.1 != -1)] in
  Ok (if (size (zeros ++ less ++ more) == 0)%N then None else Some (less, zeros, more)).

Definition complex_clause (vf : seq P) (D : diagram P [eqType of nat]) :
    res (option (seq P * seq P)) :=
  let! xs := mapM (fun p => let! v := cell D p 0%N in Ok (v, p)) vf in
  let zeros := [seq x.2 | x <- xs & x.1 == 0] in
  let nonzeros := [seq x.2 | x <- xs & x.1 != 0] in
  Ok (if (size (zeros ++ nonzeros) == 0)%N then None else Some (zeros, nonzeros)).

(** muchnik.py 661-790.  The result of real_full: the returned list, and the printed verdict
    ([true] for "Satisfiable"). *)
Definition real_full (n : nat) (lesser equalities greater : seq P) :
    res (seq (seq P * seq P * seq P) * bool) :=
  let ps := lesser ++ equalities ++ greater in
  let! s := muchnik_sequence n (sortedset key_lt [:: zero]) ps in
  let root_diagram := r_assignment_all_zero (sca_frag s) in
  let diagrams := r_full_assignment [:: root_diagram] (var_frag s) in
  let! ext := extend_all diagrams (nonconst_frag s) in
  let! good := filterM (good_real lesser equalities greater) ext in
  let! cl := mapM (real_clause (var_frag s)) good in
  Ok (pmap id cl, (size good > 0)%N).

(** muchnik.py 392-504: complex_full, with the printed verdict. *)
Definition complex_full (n : nat) (equalities inequalities : seq P) :
    res (seq (seq P * seq P) * bool) :=
  let ps := equalities ++ inequalities in
  let! s := muchnik_sequence n (sortedset key_lt [:: zero]) ps in
  let root_diagram := c_assignment_all_zero (sca_frag s) in
  let diagrams := c_full_assignment [:: root_diagram] (var_frag s) in
  let! ext := mapM (fun D => complex_extend D (nonconst_frag s)) diagrams in
  let! good := filterM (good_complex equalities inequalities) ext in
  let! cl := mapM (complex_clause (var_frag s)) good in
  Ok (pmap id cl, (size good > 0)%N).

(** muchnik.py 55-65, 134-146, 162-174: the other assignments of a fixed
    value. *)
Definition c_assignment_all_one (const_frag : seq P) : diagram P [eqType of nat] :=
  foldl (fun D c => put D c 0%N (if c == zero then 0 else 1)) [::] const_frag.
Definition r_assignment_all (v : int) (const_frag : seq P) : diagram P [eqType of rat] :=
  foldl (fun D c =>
    let c_sign := if a_has_variable A c then v else a_sign A c in
    put (put (put D c 0 c_sign) c (1 / 2%:R) c_sign) c 1 c_sign) [::] const_frag.

(** muchnik.py 362-390, 629-657: the partial procedures.  They return None;
    the value here is the diagram they build.  [None] for the assigner is the
    default argument: the plain function object of the method, so that the
    call with one argument raises TypeError. *)
Definition call_assigner (C : eqType) (assigner : option (seq P -> res (diagram P C))) (cf : seq P) :=
  if assigner is Some f then f cf else Err TypeError.
Definition complex_partial (n : nat) (ps : seq P) assigner : res (diagram P [eqType of nat]) :=
  let! s := muchnik_sequence n (sortedset key_lt [:: zero]) ps in
  let! root_diagram := call_assigner assigner (constant_frag s) in
  complex_extend root_diagram (nonconst_frag s).
Definition real_partial (n : nat) (ps : seq P) assigner : res (diagram P [eqType of rat]) :=
  let! s := muchnik_sequence n (sortedset key_lt [:: zero]) ps in
  let! root_diagram := call_assigner assigner (constant_frag s) in
  real_extend root_diagram (nonconst_frag s).

End Muchnik.
