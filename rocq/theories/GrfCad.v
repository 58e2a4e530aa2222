(** Model of the cylindrical decomposition of GRF/grf.sage (classes ProjOrd
    and QE_Factory).  Line numbers are those of grf.sage. *)
From mathcomp Require Import all_ssreflect all_algebra.
From Coq Require Import String.
From Verif Require Import Py GrfModel.

Set Implicit Arguments.
Unset Strict Implicit.
Unset Printing Implicit Defensive.
Import GRing.Theory Num.Theory Order.Theory.
Local Open Scope ring_scope.

Section Cad.
Variables (R : realDomainType) (L : lib R) (O : oracle L).
Local Notation poly := (P L).
Local Notation asg := (dict [eqType of var] R).
Local Notation intvl := ((R * R) * nat)%type.

(** ** ProjOrd (218-261) *)

(** compute_var_stats (239-250): largest degree in [v], largest total degree
    of a monomial in [v], number of these monomials. *)
Definition var_stats (polys : seq poly) (v : var) : nat * nat * nat :=
  let ms := [seq m <- flatten [seq monomials p | p <- polys] | v \in variables m] in
  if ms is [::] then (0, 0, 0)%N
  else (foldr maxn 0 [seq degree p v | p <- polys],
        foldr maxn 0 [seq total_degree m | m <- ms], size ms)%N.

(** Tuples are compared lexicographically. *)
Definition stats_le (s t : nat * nat * nat) : bool :=
  let: (a, b, c) := s in let: (a', b', c') := t in
  (a < a')%N || ((a == a') && ((b < b')%N || ((b == b') && (c <= c')%N))).

(** compute_proj_ord (256-261). *)
Definition compute_proj_ord (polys : seq poly) (vars : seq var) : seq var :=
  rev (sort (fun v w => stats_le (var_stats polys v) (var_stats polys w)) vars).

(** ** QE_Factory (268-739) *)

(** pure_poly_base (319-327). *)
Definition pure_poly_base (p : poly) : poly :=
  if p == lt_term p then if variables p is [:: v] then gen L v else p else p.

(** filter_proj_set (338-343); a set is a list without duplicates. *)
Definition filter_proj_set (ps : seq poly) : seq poly :=
  undup [seq pure_poly_base p | p <- ps & ~~ is_constant p].

(** bm_proj (354-372): the projection of a set, eliminating [x]. *)
Definition bm_proj (x : var) (ps0 : seq poly) : seq poly :=
  let ps := undup ps0 in
  let rs := if (1 < size ps)%N
            then flatten [seq [seq resultant p1 p2 x | p2 <- ps & p1 != p2] | p1 <- ps]
            else [::] in
  let ds := [seq discriminant p x | p <- ps] in
  let cs := [seq coefficient p x (degree p x) | p <- ps] in
  filter_proj_set (undup (rs ++ ds ++ cs)).

(** The projection sets of the levels 0 to [i], given the one of level [i]
    (382-403); [ord] is proj_ord. *)
Fixpoint proj_levels (ord : seq var) (i : nat) (ps : seq poly) : res (seq (seq poly)) :=
  if i is i'.+1 then
    let! x := pyget ord i in
    let! l := proj_levels ord i' (bm_proj x ps) in
    Ok (rcons l ps)
  else Ok [:: ps].

(** iso_root_intvls (439-456).  [prod] is kept as the list of its factors, so
    [prod != 1] reads: there is a factor. *)
Definition iso_root_intvls (ps : seq poly) : res (seq intvl) :=
  let! us := mapM (@univariate R L) ps in
  let easy := flatten [seq [seq ((a.1, a.1), a.2) | a <- roots u] | u <- us] in
  let hard := [seq u <- us | if roots u is [::] then true else false] in
  Ok ((if hard is [::] then [::] else root_intervals hard) ++ easy).

(** k_random_sps (465-472). *)
Definition k_random_sps (w : addr) (l u : R) (k : nat) : seq R :=
  if l == u then [:: l] else [seq uniform O (i :: w) l u | i <- iota 0 k].

(** Order of pairs of numbers. *)
Definition pair_le (x y : R * R) : bool := (x.1 < y.1) || ((x.1 == y.1) && (x.2 <= y.2)).

(** The sample points of consecutive intervals (533-543), numbered from [i]. *)
Fixpoint inner_sps (w : addr) (i : nat) (num_sps : nat) (ivs : seq (R * R)) : seq R :=
  match ivs with
  | i1 :: ((i2 :: _) as ivs') =>
      k_random_sps (i :: w) i1.2 i2.1 num_sps ++ inner_sps w i.+1 num_sps ivs'
  | _ => [::]
  end.

(** The sample points of the root intervals (545). *)
Fixpoint root_sps (w : addr) (i : nat) (ivs : seq (R * R)) : seq R :=
  match ivs with
  | [::] => [::]
  | x :: ivs' => k_random_sps (i :: w) x.1 x.2 1 ++ root_sps w i.+1 ivs'
  end.

(** sector_sps (500-553). *)
Definition sector_sps (w : addr) (ris : seq intvl) (num_sps : nat) (ambient : seq (atom L))
    (cur : var) : seq R :=
  match ris with
  | [::] =>
      match [seq h <- ambient | apoly h == gen L cur] with
      | [::] => [:: 0]
      | h :: _ => match aop h with RLt => [:: -1] | RGt => [:: 1] | _ => [:: 0] end
      end
  | _ =>
      let ivs := sort pair_le [seq r.1 | r <- ris] in
      let f_q := (head (0, 0) ivs).1 in
      let l_q := (last (0, 0) ivs).2 in
      sort <=%O ([:: floor L (f_q - 1); ceil L (l_q + 1)]
                 ++ inner_sps (0%N :: w) 0 num_sps ivs ++ root_sps (1%N :: w) 0 ivs)
  end.

(** Points are lists of coordinates in the order of [ord]; the code has bare
    numbers at level 0. *)
Definition sp_dict (ord : seq var) (pt : seq R) : asg := zip ord pt.

Fixpoint lex_le (x y : seq R) : bool :=
  match x, y with
  | [::], _ => true
  | _ :: _, [::] => false
  | a :: x', b :: y' => (a < b) || ((a == b) && lex_le x' y')
  end.

(** stack_over_cell (613-652): [pt] is the cell's sample point, of level [l].
    [goal] may be None, which has no eval_on_dict. *)
Definition stack_over_cell (w : addr) (ord : seq var) (sets : seq (seq poly)) (l : nat)
    (og : option (goal L)) (num_sps : nat) (ambient : seq (atom L)) (pt : seq R) : res (seq (seq R)) :=
  let! next := pyget sets l.+1 in
  let d := sp_dict ord pt in
  match og with
  | None => Err AttributeError
  | Some g =>
      let! t := eval_goal g d in
      if t then Ok [::] else
      let! ris := iso_root_intvls (filter_proj_set [seq substitute p d | p <- next]) in
      let! v := pyget ord l.+1 in
      Ok [seq rcons pt c | c <- sector_sps w ris num_sps ambient v]
  end.

(** lift_level (663-668). *)
Fixpoint lift_cells (w : addr) (i : nat) (ord : seq var) (sets : seq (seq poly)) (l : nat)
    (og : option (goal L)) (num_sps : nat) (ambient : seq (atom L)) (cells : seq (seq R)) :
    res (seq (seq R)) :=
  match cells with
  | [::] => Ok [::]
  | pt :: cells' =>
      let! st := stack_over_cell (i :: w) ord sets l og num_sps ambient pt in
      let! sts := lift_cells w i.+1 ord sets l og num_sps ambient cells' in
      Ok (st ++ sts)
  end.

(** lifting_phase (692-713) without the dictionaries: [n] levels from [l]. *)
Fixpoint lift_levels (w : addr) (n l : nat) (ord : seq var) (sets : seq (seq poly))
    (og : option (goal L)) (num_sps : nat) (ambient : seq (atom L)) (cells : seq (seq R)) :
    res (seq (seq R)) :=
  match n with
  | 0 => Ok cells
  | n'.+1 =>
      let! cs := lift_cells (l :: w) 0 ord sets l og num_sps ambient cells in
      lift_levels w n' l.+1 ord sets og num_sps ambient (sort lex_le cs)
  end.

(** sample_pt_dicts (732-739) for [n] variables.  base_phase (565-582) is called
    without num_sps, so it takes one point per sector. *)
Definition sample_pt_dicts (n num_sps : nat) (w : addr) (og : option (goal L)) (top : seq poly)
    (ambient : seq (atom L)) : res (seq asg * seq poly) :=
  let top' := filter_proj_set top in
  let ord := compute_proj_ord top' (iota 0 n) in
  let! sets := proj_levels ord n.-1 top' in
  let! base := pyget sets 0 in
  let! ris := iso_root_intvls base in
  let! v := pyget ord 0 in
  let cells := [seq [:: c] | c <- sector_sps (0%N :: w) ris 1 ambient v] in
  let! pts := lift_levels (1%N :: w) n.-1 0 ord sets og num_sps ambient cells in
  Ok ([seq sp_dict ord pt | pt <- pts], top').
End Cad.
