(** Model of highschool_qe/cohenhorm.py.

    The algebra is that of MuchModel.  Tables are dictionaries of rows whose
    columns are Fractions, contexts dictionaries from constants to signs.
    [ss_of] makes a sortedset (by decreasing degree) from a list and [ss_plus]
    adds an element to one; elements of equal degree come in an order that is
    not specified.  [setiter] is the order in which a dictionary or a set is
    iterated, where the code depends on it; the dictionaries of a result are
    listed in the order of insertion.  The dictionaries [mapping] of
    expand_context are shared and mutated, so they live on a heap; the other
    dictionaries and lists are mutated only while nothing else refers to them,
    and are values here.  What is printed is in CohenPrint. *)
From mathcomp Require Import all_ssreflect all_algebra.
From Coq Require Import String.
From Verif Require Import Py MuchModel.

Set Implicit Arguments.
Unset Strict Implicit.
Unset Printing Implicit Defensive.
Import GRing.Theory Num.Theory Order.TTheory.
Local Open Scope ring_scope.

Section Cohen.
Variables (P : eqType) (K : realDomainType) (A : algebra P K).
Variables (ss_of : seq P -> seq P) (ss_plus : seq P -> P -> seq P) (setiter : seq P -> seq P).

Notation table := (diagram P [eqType of rat]).
Definition context := dict P int.

Let zero := a_zero A.

(** The degree that sympy gives: negative (-oo) for the zero polynomial. *)
Definition deg (p : P) : int := if p == zero then -1 else (a_degree A p)%:Z.

Definition sorted_cols (cs : seq rat) : seq rat := sort <=%O (undup cs).
Definition enumerate (T : Type) (s : seq T) : seq (T * nat) := zip s (iota 0 (size s)).

(** cohenhorm.py 330-336: sign_context_lookup. *)
Definition sign_context_lookup (con : context) (k : P) : res int :=
  if ~~ a_has_variable A k then Ok (a_sign A k)
  else if ~~ dmem con k then Err (Exc "no key")
  else dget con k.

(** cohenhorm.py 597-604: table_lookup. *)
Definition table_lookup (T : table) (p : P) (col : rat) (con : context) : res int :=
  if deg p > 0 then cell T p col
  else if ~~ a_has_variable A p then Ok (a_sign A p)
  else if dmem con p then dget con p
  else Err (Exc "context lookup").

(** cohenhorm.py 571-582: the columns of copy_table. *)
Definition copy_cols (T : table) (t_cols : seq rat) (needed : seq P) : res (seq rat) :=
  let z_cols := enumerate t_cols in
  foldM (fun cc p =>
    if ~~ dmem T p then Ok cc
    else
      let! v0 := cell T p 0 in
      if v0 == 0 then Ok cc
      else foldM (fun cc x =>
        let! v := cell T p x.1 in
        if v == 0 then
          let! y := pyget z_cols x.2.+1 in
          Ok (y.1 :: x.1 :: cc)
        else Ok cc) cc (interior z_cols)) [:: 0; 1] needed.

(** cohenhorm.py 584-595: one row of copy_table. *)
Definition copy_row (T : table) (con : context) (cc : seq rat) (ret : table) (p : P) : res table :=
  let ret := dset ret p [::] in
  let! ret := foldM (fun ret col =>
    let! v := table_lookup T p col con in Ok (put ret p col v)) ret cc in
  let! c1 := pyget cc 1 in
  let! c0 := pyget cc 0 in
  let! v := table_lookup T p c0 con in
  Ok (put ret p ((c1 + c0) / 2%:R) v).

(** cohenhorm.py 547-595: copy_table. *)
Definition copy_table (T : table) (needed : seq P) (con : context) : res table :=
  if needed is [::] then Ok [::]
  else
    let! k := pyget (setiter (rows T)) 0 in
    let! cc := copy_cols T (sorted_cols (cols T k)) needed in
    foldM (copy_row T con (sorted_cols cc)) [::] needed.

(** cohenhorm.py 222-255: the value of [max_poly] in a column where [p]
    vanishes.  The parity of [deg max_poly - deg p + 1] is that of the sum. *)
Definition root_value (T : table) (con : context) (max_poly p : P) (col : rat) : res int :=
  let rem := (a_pseudo_div A max_poly p).2 in
  let! v := table_lookup T rem col con in
  let p_lc := a_LC A p in
  if a_has_variable A p_lc && ~~ dmem con p_lc then Err (Exc "variable lc is not yet implemented")
  else
    let! s := sign_context_lookup con p_lc in
    let pseudo_odd_deg := odd (a_degree A max_poly + a_degree A p + 1) in
    Ok (if (s < 0) && pseudo_odd_deg then - v else v).

(** cohenhorm.py 220-255: the columns where a polynomial of [pols] vanishes;
    [T] is the original table, [D] the condensed one. *)
Definition at_roots (T : table) (con : context) (max_poly : P) (pols : seq P) (cols1 : seq rat)
    (D : table) : res table :=
  foldM (fun D p =>
    let! v0 := cell D p 0 in
    if v0 == 0 then Ok D
    else foldM (fun D col =>
      let! v := cell D p col in
      if v != 0 then Ok D
      else
        let! w := root_value T con max_poly p col in
        Ok (put D max_poly col w)) D (interior cols1)) D pols.

(** cohenhorm.py 261-291: the columns without a value so far; [None] is the
    early return of BOTTOM. *)
Definition between (max_poly : P) (pols : seq P) (zipped : seq (rat * nat)) (st : option table)
    (x : rat * nat) : res (option table) :=
  if st is Some D then
    let: (cur_col, ind) := x in
    if cur_col \in cols D max_poly then Ok (Some D)
    else
      let! next := pyget zipped ind.+1 in
      let! prev := (if ind is i.+1 then pyget zipped i else pylast zipped) in
      let next_col := next.1 in
      let prev_col := prev.1 in
      let! prev_val := cell D max_poly prev_col in
      let! next_val := cell D max_poly next_col in
      if (prev_val == 0) && (next_val == 0) then Ok None
      else if prev_val + next_val == 0 then
        let left_new := (prev_col + cur_col) / 2%:R in
        let right_new := (cur_col + next_col) / 2%:R in
        let D := put D max_poly left_new prev_val in
        let D := put D max_poly right_new next_val in
        let D := put D max_poly cur_col 0 in
        let! D := foldM (fun D p =>
          let! v := cell D p cur_col in
          Ok (put (put D p left_new v) p right_new v)) D pols in
        Ok (Some D)
      else Ok (Some (put D max_poly cur_col (Num.sg (prev_val + next_val))))
  else Ok None.

(** cohenhorm.py 172-293: extend_single_table; [None] is BOTTOM. *)
Definition extend_single_table (T : table) (con : context) (max_poly : P) (pols : seq P) :
    res (option table) :=
  let degree := a_degree A max_poly in
  let! s := sign_context_lookup con (a_LC A max_poly) in
  let! D := copy_table T pols con in
  let D := dset D max_poly [::] in
  let D := put D max_poly 0 ((-1) ^+ degree * s) in
  let D := put D max_poly 1 s in
  let! p0 := pyget pols 0 in
  let cols1 := sorted_cols (cols D p0) in
  if degree == 0%N then Ok (Some (foldl (fun D col => put D max_poly col s) D (interior cols1)))
  else
    let! D := at_roots T con max_poly pols cols1 D in
    let zipped := enumerate (sorted_cols (cols D p0)) in
    foldM (between max_poly pols zipped) (Some D) (pybutlast zipped).

(** cohenhorm.py 295-328: table_map_back. *)
Definition table_map_back (T : table) (pols : seq P) (mapping : dict P P) : res table :=
  let! st := foldM (fun st pol =>
    let: (ret, pset) := st in
    if ~~ dmem mapping pol then Err (Exc "doesn't have a key")
    else
      let! q := dget mapping pol in
      let! r := dget T q in
      Ok (dset ret pol r, [seq p <- pset | p != pol])) ([::], rows T) pols in
  let: (ret, pset) := st in
  foldM (fun ret pol => let! r := dget T pol in Ok (dset ret pol r)) ret (setiter pset).

(** cohenhorm.py 339-398: get_initial_table.  The code after the return at 398
    is never reached.  The recursive calls do not recur. *)
Definition const_table (p : P) (s : int) : table := [:: (p, [:: (0, s); (1 / 2%:R, s); (1, s)])].

Fixpoint get_initial_table (n : nat) (p : P) (con : context) : res (seq (table * context)) :=
  match n with
  | 0 => Err OutOfFuel
  | n'.+1 =>
      let lc := a_LC A p in
      if deg p > 0 then Err (Exc "should be never reached now")
      else if ~~ a_has_variable A lc then Ok [:: (const_table p (a_sign A lc), con)]
      else if dmem con lc then
        let! s := sign_context_lookup con lc in
        Ok [:: (const_table p s, con)]
      else
        let! r1 := get_initial_table n' p (dset con lc (-1)) in
        let! r2 := get_initial_table n' p (dset con lc 0) in
        let! r3 := get_initial_table n' p (dset con lc 1) in
        Ok (r1 ++ r2 ++ r3)
  end.

(** A heap of dictionaries, by address; addresses come from allocation only,
    so they are never out of range. *)
Definition heap := seq (dict P P).
Definition hget (h : heap) (a : nat) : dict P P := nth [::] h a.
Definition hset (h : heap) (a : nat) (p q : P) : heap := set_nth [::] h a (dset (hget h a) p q).
Definition entry : Type := (context * seq P * nat)%type.

(** cohenhorm.py 465-545: expand_context. *)
Fixpoint expand_context (n : nat) (h : heap) (con : context) (polies : seq P) (m : nat) :
    res (heap * seq entry) :=
  match n with
  | 0 => Err OutOfFuel
  | n'.+1 =>
      match polies with
      | [::] => Ok (h, [:: (con, [::], m)])
      | head :: rest =>
          let head_tail := a_tail A head in
          let! x := expand_context n' h con rest m in
          let: (h, expanded_rest) := x in
          let lc_head := a_LC A head in
          if ~~ a_has_variable A lc_head then
            if (head != zero) && (lc_head == zero) then Err (Exc "coef is zero")
            else Ok (foldl (fun h (e : entry) => hset h e.2 head head) h expanded_rest,
                     [seq (e.1.1, head :: e.1.2, e.2) | e : entry <- expanded_rest])
          else
            foldM (fun st (e : entry) =>
              let: (con, ps, mpng) := e in
              let! possible_signs :=
                (if dmem con lc_head then let! s := sign_context_lookup con lc_head in Ok [:: s]
                 else Ok [:: -1; 0; 1]) in
              foldM (fun st sign =>
                let: (h, ret) := st in
                let con_copy := dset con lc_head sign in
                if sign != 0 then
                  Ok (rcons h (dset (hget h mpng) head head),
                      rcons ret (con_copy, rcons ps head, size h))
                else
                  let! y := expand_context n' h con_copy [:: head_tail] mpng in
                  let: (h, h_t_expanded) := y in
                  foldM (fun st (e2 : entry) =>
                    let: (h, ret) := st in
                    let: (con2, ps2, mpng2) := e2 in
                    let! q := dget (hget h mpng2) head_tail in
                    Ok (rcons h (dset (hget h mpng2) head q),
                        rcons ret (con2, ps ++ ps2, size h))) (h, ret) h_t_expanded)
                st possible_signs) (h, [::]) expanded_rest
      end
  end.

(** cohenhorm.py 124-142: when [max_poly] is a constant with parameters whose
    sign is not known by now, all signs are tried. *)
Definition split_constant (max_poly : P) (tables : seq (table * context)) : seq (table * context) :=
  let lc := a_LC A max_poly in
  if (deg max_poly == 0) && a_has_variable A lc then
    flatten [seq if dmem x.2 lc then [:: x]
                 else [:: (x.1, dset x.2 lc (-1)); (x.1, dset x.2 lc 0); (x.1, dset x.2 lc 1)]
            | x : table * context <- tables]
  else tables.

(** cohenhorm.py 109-169: what is done for one expanded context, given the
    tables for the needed polynomials. *)
Definition new_goal (max_poly : P) (pols : seq P) : seq P :=
  let rems := [seq (a_pseudo_div A max_poly g).2 | g <- pols & deg g > 0] in
  [seq p <- pols ++ rems | deg p >= 0].

Definition extend_tables (max_poly : P) (polys needed pols : seq P) (mapping : dict P P)
    (tables : seq (table * context)) (ret : seq (table * context)) : res (seq (table * context)) :=
  foldM (fun ret (x : table * context) =>
    let: (needed_table, table_con) := x in
    if max_poly \in rows needed_table then Err (Exc "already done")
    else
      let! ext := extend_single_table needed_table table_con max_poly pols in
      if ext is Some T then
        let! mb := table_map_back T needed mapping in
        let! cond_mb := copy_table mb polys table_con in
        Ok (rcons ret (cond_mb, table_con))
      else Ok ret) ret (split_constant max_poly tables).

(** cohenhorm.py 65-170: _real_table.  For no polynomials it returns {}, over
    which the callers iterate. *)
Fixpoint real_table (n : nat) (polys : seq P) (con : context) : res (seq (table * context)) :=
  match n with
  | 0 => Err OutOfFuel
  | n'.+1 =>
      if polys is [::] then Ok [::]
      else
        match ss_of polys with
        | [::] => Err IndexError
        | max_poly :: set =>
            let derivative := a_derivative A max_poly in
            let needed := if zero != derivative then ss_plus set derivative else set in
            if needed is [::] then get_initial_table 2 max_poly con
            else
              let! x := expand_context n' [:: [::]] con needed 0 in
              let: (h, exp_contexts) := x in
              foldM (fun ret (e : entry) =>
                let: (con, pols, mpg) := e in
                let! needed_tables := real_table n' (new_goal max_poly pols) con in
                extend_tables max_poly polys needed pols (hget h mpg) needed_tables ret)
                [::] exp_contexts
        end
  end.

(** cohenhorm.py 34-50: whether a column has the required signs.  The [break]
    is omitted: no cell is read for an empty list of columns. *)
Definition good_table (lesser equalities greater : seq P) (x : table * context) : res bool :=
  let: (T, c) := x in
  let! k := pyget (setiter (rows T)) 0 in
  let! cs := foldM (keep_columns T (-1)) (cols T k) lesser in
  let! cs := foldM (keep_columns T 0) cs equalities in
  let! cs := foldM (keep_columns T 1) cs greater in
  Ok (size cs > 0)%N.

(** cohenhorm.py 56-61. *)
Definition keys_with (c : context) (s : int) : seq P := [seq x.1 | x <- c & x.2 == s].
Definition clause_of_context (c : context) : seq P * seq P * seq P :=
  (keys_with c (-1), keys_with c 0, keys_with c 1).

(** cohenhorm.py 13-63: real_full. *)
Definition ch_real_full (n : nat) (lesser equalities greater : seq P) :
    res (seq (seq P * seq P * seq P)) :=
  let! tables := real_table n (lesser ++ equalities ++ greater) [::] in
  let! good := filterM (good_table lesser equalities greater) tables in
  Ok [seq clause_of_context x.2 | x <- good].
End Cohen.
