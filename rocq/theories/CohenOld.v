(** Model of highschool_qe/cohenhorm - Copy.py, an older version of cohenhorm.py.

    expand_context (369-447), copy_table (449-506) and table_lookup (508-515)
    are those of cohenhorm.py, in CohenModel, and so are the sorted sets and the
    order of iteration.  The columns are floats in the code, whose halves and
    sums are exact here.  What is printed is left out, and so is the code that is
    never reached: 167-262 after a return and 315-367 after a raise.  The empty
    dictionary returned for no polynomials is the empty list here. *)
From mathcomp Require Import all_ssreflect all_algebra.
From Coq Require Import String.
From Verif Require Import Py MuchModel CohenModel.

Set Implicit Arguments.
Unset Strict Implicit.
Unset Printing Implicit Defensive.
Import GRing.Theory Num.Theory Order.TTheory.
Local Open Scope ring_scope.

Section Old.
Variables (P : eqType) (K : realDomainType) (A : algebra P K).
Variables (ss_of : seq P -> seq P) (ss_plus : seq P -> P -> seq P) (setiter : seq P -> seq P).

Notation table := (diagram P [eqType of rat]).
Notation context := (context P).

Let zero := a_zero A.

(** 274-280: sign_context_lookup.  The method is compared with False, which
    never holds. *)
Definition old_sign (con : context) (k : P) : res int :=
  if ~~ a_has_variable A k then Ok (a_sign A k) else dget con k.

(** 283-313: get_initial_table. *)
Definition old_initial (p : P) (con : context) : res (seq (table * context)) :=
  let lc := a_LC A p in
  if deg A p <= 0 then
    if ~~ a_has_variable A lc then Ok [:: (const_table p (a_sign A lc), con)]
    else if ~~ dmem con p then Err (Exc "might reach this")
    else let! s := dget con p in Ok [:: (const_table p s, con)]
  else Err (Exc "should be never reached now").

(** 264-272: table_map_back. *)
Definition old_map_back (T : table) (pols : seq P) (mapping : dict P P) : res table :=
  foldM (fun ret pol =>
    if ~~ dmem mapping pol then Err (Exc "doesn't have a key")
    else
      let! q := dget mapping pol in
      let! r := dget T q in
      Ok (dset ret pol r)) [::] pols.

(** 105-119: the value of [max_poly] in a column where [p] vanishes; the row of
    the remainder is looked up in the table that is being extended. *)
Definition old_root_value (D : table) (con : context) (max_poly p : P) (col : rat) : res int :=
  let rem := (a_pseudo_div A max_poly p).2 in
  let! v := table_lookup A D rem col con in
  let p_lc := a_LC A p in
  if a_has_variable A p_lc && ~~ dmem con p_lc then Err (Exc "variable lc is not yet implemented")
  else
    let! s := old_sign con p_lc in
    let p_odd_deg := odd (a_degree A max_poly + a_degree A p + 1) in
    Ok (if (s < 0) && p_odd_deg then - v else v).

(** 98-121. *)
Definition old_at_roots (con : context) (max_poly : P) (pols : seq P) (cols1 : seq rat) (D : table) :
    res table :=
  foldM (fun D p =>
    let! v0 := cell D p 0 in
    if v0 == 0 then Ok D
    else foldM (fun D col =>
      let! v := cell D p col in
      if v == 0 then
        let! w := old_root_value D con max_poly p col in
        Ok (put D max_poly col w)
      else Ok D) D (interior cols1)) D pols.

(** 127-153: the columns without a value so far. *)
Definition old_between (max_poly : P) (pols : seq P) (zipped : seq (rat * nat)) (D : table)
    (x : rat * nat) : res table :=
  let: (cur_col, ind) := x in
  let! next := pyget zipped ind.+1 in
  let! prev := (if ind is i.+1 then pyget zipped i else pylast zipped) in
  let next_col := next.1 in
  let prev_col := prev.1 in
  if cur_col \in cols D max_poly then Ok D
  else
    let! prev_val := cell D max_poly prev_col in
    let! next_val := cell D max_poly next_col in
    if (prev_val == 0) && (next_val == 0) then Err (Exc "both zero")
    else if prev_val + next_val == 0 then
      let left_new := (prev_col + cur_col) / 2%:R in
      let right_new := (cur_col + next_col) / 2%:R in
      let D := put D max_poly left_new prev_val in
      let D := put D max_poly right_new next_val in
      let D := put D max_poly cur_col 0 in
      foldM (fun D p =>
        let! v := cell D p cur_col in
        Ok (put (put D p left_new v) p right_new v)) D pols
    else Ok (put D max_poly cur_col (Num.sg (prev_val + next_val))).

(** 78-153: one table is extended. *)
Definition old_extend (T : table) (con : context) (max_poly : P) (pols : seq P) (mapping : dict P P) :
    res table :=
  let! s := old_sign con (a_LC A max_poly) in
  if max_poly \in rows T then Err (Exc "already done")
  else
    let! temp := copy_table A setiter T pols con in
    let! D := old_map_back temp pols mapping in
    let D := dset D max_poly [::] in
    let D := put D max_poly 1 s in
    let D := put D max_poly 0 ((-1) ^+ a_degree A max_poly * s) in
    let! p0 := pyget pols 0 in
    let! D := old_at_roots con max_poly pols (sorted_cols (cols D p0)) D in
    let zipped := enumerate (sorted_cols (cols D p0)) in
    foldM (old_between max_poly pols zipped) D (pybutlast zipped).

(** 55-62: the polynomials of the recursive call. *)
Definition old_goal (max_poly : P) (pols : seq P) : seq P :=
  let rems := [seq (a_pseudo_div A max_poly g).2 | g <- pols & deg A g >= 0] in
  [seq p <- pols ++ rems | deg A p >= 0].

(** 68-158. *)
Definition old_extend_tables (max_poly : P) (pols : seq P) (mapping : dict P P)
    (tables ret : seq (table * context)) : res (seq (table * context)) :=
  foldM (fun ret (x : table * context) =>
    let: (needed_table, table_con) := x in
    let! T := old_extend needed_table table_con max_poly pols mapping in
    Ok (rcons ret (T, table_con))) ret tables.

(** Enough for expand_context: it descends along the list and along the terms of
    its polynomials. *)
Definition expand_fuel (needed : seq P) : nat :=
  (size needed + foldr maxn 0%N [seq a_degree A p | p <- needed]).+2.

(** 25-166: _real_table, where [n] is [iter + 1]. *)
Fixpoint old_table_nat (n : nat) (polys : seq P) (con : context) : res (seq (table * context)) :=
  match n with
  | 0 => Err (Exc "iter")
  | n'.+1 =>
      if polys is [::] then Ok [::]
      else
        match ss_of polys with
        | [::] => Err IndexError
        | max_poly :: set =>
            let derivative := a_derivative A max_poly in
            let needed := if zero != derivative then ss_plus set derivative else set in
            if needed is [::] then old_initial max_poly con
            else
              let! x := expand_context A (expand_fuel needed) [:: [::]] con needed 0 in
              let: (h, exp_contexts) := x in
              foldM (fun ret (e : entry P) =>
                let: (con, pols, mpg) := e in
                let! needed_tables := old_table_nat n' (old_goal max_poly pols) con in
                old_extend_tables max_poly pols (hget h mpg) needed_tables ret)
                [::] exp_contexts
        end
  end.

Definition old_table (polys : seq P) (con : context) (iter : int) : res (seq (table * context)) :=
  if iter < 0 then Err (Exc "iter") else old_table_nat `|iter|.+1 polys con.

(** 18-22: foo, which returns nothing. *)
Definition old_foo (polys : seq P) (con : context) (iter : int) : res unit :=
  let! _ := old_table polys con iter in Ok tt.

(** 11-16: real_full; the tables are printed. *)
Definition old_real_full (equalities : seq P) : res (seq (table * context)) :=
  old_table equalities [::] (-1).
End Old.
