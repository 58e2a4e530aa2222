(** Model of GRF/grf.sage (atoms, goals, the goal-directed procedure) and of
    GRF/local_search.py.  Line numbers of grf.sage are marked [g], those of
    local_search.py are marked [l].  The cylindrical decomposition is in
    GrfCad.v, the SMT front end in GrfSmt.v. *)
From mathcomp Require Import all_ssreflect all_algebra.
From Coq Require Import String.
From Verif Require Import Py.

Set Implicit Arguments.
Unset Strict Implicit.
Unset Printing Implicit Defensive.
Import GRing.Theory Num.Theory Order.Theory.
Local Open Scope ring_scope.
Delimit Scope string_scope with string.

(** ** What is used of Sage

    Numbers (rationals, and floats as if they were exact) are elements of an
    ordered domain [R].  The ring variables x0, x1, ... are natural numbers. *)
Definition var := nat.

(** Polynomials and the operations on them.  [P]: elements of
    PolynomialRing(QQ, 'x', n), any n (coercions between these rings are the
    identity).  [U]: univariate polynomials. *)
Record lib (R : realDomainType) := Lib {
  P : eqType;
  U : Type;
  gen : var -> P;                      (* the generator *)
  variables : P -> seq var;            (* p.variables() *)
  substitute : P -> dict [eqType of var] R -> P;
  cmp0 : P -> comparison;              (* p compared with 0 by <, <=, ==, ... *)
  total_degree : P -> nat;
  degree : P -> var -> nat;            (* p.degree(v) *)
  monomials : P -> seq P;
  is_constant : P -> bool;
  lt_term : P -> P;                    (* p.lt() *)
  resultant : P -> P -> var -> P;
  discriminant : P -> var -> P;
  coefficient : P -> var -> nat -> P;  (* coefficient(p, {v : k}) *)
  groebner_basis : seq P -> seq P;     (* ideal(l).groebner_basis() *)
  reduce : P -> seq P -> P;            (* p.reduce(B) *)
  univariate : P -> res U;             (* p.univariate_polynomial() *)
  roots : U -> seq (R * nat);          (* p.roots(): the rational roots *)
  root_intervals : seq U -> seq ((R * R) * nat);
     (* real_root_intervals() of the product *)
  floor : R -> R;
  ceil : R -> R
}.

(** Calls whose result is not determined by their arguments.  Every call has
    its own address (a path of loop counters), so the oracle may answer
    equal calls differently. *)
Definition addr := seq nat.
Record oracle (R : realDomainType) (L : lib R) := Oracle {
  uniform : addr -> R -> R -> R;            (* random.uniform(l, u) *)
  choice : addr -> nat -> nat;              (* random.choice of n: an index *)
  fsolve : addr -> P L -> R -> seq R -> res (seq R);
     (* scipy.optimize.fsolve for [poly + eps, 0, ...] from a start vector *)
  perturb_eps : R;                          (* 0.01, l 162 *)
  margin : R                                (* 1e-6, l 163 *)
}.

Section Grf.
Variables (R : realDomainType) (L : lib R).
Local Notation poly := (P L).
Local Notation asg := (dict [eqType of var] R).

(** ** RCF_Atom (g 54-141) *)
Inductive relop := RGt | RLt | RLe | RGe | REq | RNe.

(** Atoms are objects: [aid] is their identity.  [avars] is the attribute
    [vars], computed once by [__init__] (g 60). *)
Record atom := Atom { aid : nat; apoly : poly; aop : relop; avars : seq var }.

(** [RCF_Atom(lhs, op, rhs)] (g 55-60), [p] being [lhs - rhs].  The check of
    [op] is the type [relop]. *)
Definition mk_atom (i : nat) (p : poly) (op : relop) : atom :=
  Atom i p op (variables p).

(** g 79-93. *)
Definition negate_op (op : relop) : relop :=
  match op with RGt => RLe | RLt => RGe | RLe => RGt | RGe => RLt | REq => RNe | RNe => REq end.
Definition negate (a : atom) : atom :=
  Atom (aid a) (apoly a) (negate_op (aop a)) (avars a).

(** The comparisons of g 127-141. *)
Definition holds_op (op : relop) (c : comparison) : bool :=
  match op, c with
  | RGt, Gt => true
  | RGe, Gt | RGe, Eq => true
  | RLt, Lt => true
  | RLe, Lt | RLe, Eq => true
  | REq, Eq => true
  | RNe, Gt | RNe, Lt => true
  | _, _ => false
  end.

(** eval_on_dict (g 102-141): None when a variable is missing;
    [dict.keys()[0]] raises on the empty dictionary. *)
Definition eval_atom (a : atom) (d : asg) : res (option bool) :=
  if all (fun v => dmem d v) (avars a) then
    match d with
    | [::] => Err IndexError
    | _ => Ok (Some (holds_op (aop a) (cmp0 (substitute (apoly a) d))))
    end
  else Ok None.

(** quotient_ring_inject (g 69-77): [B[0].parent()] raises on the empty basis;
    [vars] is left alone. *)
Definition inject (B : seq poly) (a : atom) : res atom :=
  match B with
  | [::] => Err IndexError
  | _ => Ok (Atom (aid a) (reduce (apoly a) B) (aop a) (avars a))
  end.

(** ** RCF_Goal (g 148-212) *)
Record goal := Goal { main_goal : atom; goal_hyps : seq atom; gb : seq poly }.

(** g 180-187: [None] counts as false for the main goal and is not [== False]
    for the hypotheses. *)
Fixpoint some_hyp_false (hs : seq atom) (d : asg) : res bool :=
  match hs with
  | [::] => Ok false
  | h :: hs' =>
      let! r := eval_atom h d in
      if r is Some false then Ok true else some_hyp_false hs' d
  end.
Definition eval_goal (g : goal) (d : asg) : res bool :=
  let! r := eval_atom (main_goal g) d in
  if r is Some true then Ok true else some_hyp_false (goal_hyps g) d.

(** add_goal_hyp with use_gbs=True, the only way it is called (g 194-212). *)
Definition add_goal_hyp (g : goal) (gh : atom) : res goal :=
  let! hB :=
    (if aop gh is REq then
       let B := groebner_basis [:: apoly gh] in
       let! hs := mapM (inject B) (goal_hyps g) in
       Ok (hs, groebner_basis (gb g ++ [:: apoly gh]))
     else Ok (goal_hyps g, gb g)) in
  let! gh' := (if gb g is [::] then Ok gh else inject (gb g) gh) in
  Ok (Goal (main_goal g) (hB.1 ++ [:: gh']) hB.2).

(** ** local_search.py

    [order] is the class attribute VarOrder.order, [[::]] when it is None
    (an empty list is replaced, too: l 47). *)
Definition var_order (order : seq var) (d : asg) : seq var :=
  if order is [::] then map fst d else order.                     (* l 46-49 *)
Definition dict2vect (order : seq var) (d : asg) : res (seq R) :=
  mapM (dget d) (var_order order d).                              (* l 51-53 *)
Definition vect2dict (order : seq var) (v : seq R) : res asg :=   (* l 55-63 *)
  if order is [::] then Err AssertionError
  else if size v == size order
       then Ok (foldl (fun d kv => dset d kv.1 kv.2) [::] (zip order v))
       else Err AssertionError.

Variable O : oracle L.

(** random.choice raises on the empty list. *)
Definition pychoice (T : Type) (w : addr) (l : seq T) : res T :=
  if l is [::] then Err IndexError else pyget l (choice O w (size l)).

(** l 66-69 and l 71-75. *)
Definition perturb (w : addr) (x : seq R) : seq R :=
  [seq nth 0 x i + uniform O (i :: w) (- perturb_eps O) (perturb_eps O) | i <- iota 0 (size x)].
Fixpoint perturb_dict_from (w : addr) (i : nat) (d : asg) : asg :=
  match d with
  | [::] => [::]
  | (k, v) :: d' => (k, v + uniform O (i :: w) (- perturb_eps O) (perturb_eps O))
                      :: perturb_dict_from w i.+1 d'
  end.
Definition perturb_dict (w : addr) (d : asg) : asg := perturb_dict_from w 0 d.

(** l 90-92. *)
Definition choose_atom_random (w : addr) (hyps : seq atom) : res atom := pychoice w hyps.

(** l 94-103; [filter] keeps the atoms that evaluate to True. *)
Fixpoint true_atoms (hyps : seq atom) (d : asg) : res (seq atom) :=
  match hyps with
  | [::] => Ok [::]
  | a :: hs =>
      let! r := eval_atom a d in
      let! l := true_atoms hs d in
      Ok (if r is Some true then a :: l else l)
  end.
Definition choose_atom_true (w : addr) (order : seq var) (hyps : seq atom) (x : seq R) :
    res (option atom) :=
  let! d := vect2dict order x in
  let! l := true_atoms hyps d in
  if l is [::] then Ok None else let! a := pychoice w l in Ok (Some a).

(** l 127-140: the number added to the polynomial.  [math.copysign] raises when
    the substituted polynomial is not a number. *)
Definition flip_eps (w : addr) (order : seq var) (a : atom) (x : seq R) : res R :=
  let! d := vect2dict order x in
  let p := substitute (apoly a) d in
  match cmp0 p with
  | Eq => let! i := pychoice w [:: -1; 1] in Ok (margin O * i)
  | c => if is_constant p
         then Ok (if c is Gt then margin O else - margin O)
         else Err TypeError
  end.

(** The points that do not make the main goal True (l 190-192). *)
Fixpoint good_on_goal (m : atom) (pts : seq asg) : res (seq asg) :=
  match pts with
  | [::] => Ok [::]
  | d :: ds =>
      let! r := eval_atom m d in
      let! l := good_on_goal m ds in
      Ok (if r is Some true then l else d :: l)
  end.

(** One step of a chain (l 174-193): the new vector and the points kept. *)
Definition chain_step (w : addr) (order : seq var) (hyps : seq atom) (m : atom)
    (x : seq R) : res (seq R * seq asg) :=
  let! ta := choose_atom_true (0%N :: w) order hyps x in
  let! a := (if ta is Some a then Ok a else choose_atom_random (1%N :: w) hyps) in
  let! e := flip_eps (2%N :: w) order a x in
  let! x' := fsolve O (3%N :: w) (apoly a) e x in
  let! pts := mapM (vect2dict order) (x' :: [seq perturb (i :: 4%N :: w) x' | i <- iota 0 25]) in
  let! kept := good_on_goal m pts in
  Ok (x', kept).

(** The inner loop of l 173-193, [n] steps. *)
Fixpoint chain (w : addr) (order : seq var) (hyps : seq atom) (m : atom) (n : nat)
    (x : seq R) : res (seq asg) :=
  match n with
  | 0 => Ok [::]
  | n'.+1 =>
      let! s := chain_step (n' :: w) order hyps m x in
      let! l := chain w order hyps m n' s.1 in
      Ok (s.2 ++ l)
  end.

(** local_search_sampling (l 154-205).  The [return] is inside the loop over
    [i], so only the first of the ten rounds is made.  The result is the new
    VarOrder.order and the points. *)
Definition local_search_sampling (w : addr) (order : seq var) (hyps : seq atom) (m : atom)
    (d : asg) : res (seq var * seq asg) :=
  let pts := d :: [seq perturb_dict (i :: 0%N :: w) d | i <- iota 0 25] in
  let! x := dict2vect order d in
  let order' := var_order order d in
  let! l := chain (1%N :: w) order' hyps m 2 x in
  Ok (order', pts ++ l).

(** ** RCF_GD_Decide (g 752-1035) *)
Record decide := Decide { hyps : seq atom; dgoal : goal; vorder : seq var }.

(** promote_right (g 828-832); the caller passes an existing index, otherwise
    [self.hyps[i]] raises. *)
Definition promote_right (s : decide) (i : nat) : res decide :=
  let! h := pyget (hyps s) i in
  let! g := add_goal_hyp (dgoal s) h in
  Ok (Decide (take i (hyps s) ++ drop i.+1 (hyps s)) g (vorder s)).

(** The indices of the hypotheses that are True at [d] (g 859-869). *)
Fixpoint true_indices (i : nat) (hs : seq atom) (d : asg) : res (seq nat) :=
  match hs with
  | [::] => Ok [::]
  | a :: hs' =>
      let! r := eval_atom a d in
      let! l := true_indices i.+1 hs' d in
      Ok (if r is Some true then i :: l else l)
  end.

Definition counterexample : exn := Exc "Counterexample!"%string.
Definition subset (s t : seq nat) : bool := all (fun i => i \in t) s.

(** One sample point (g 850-883).  A Python set is a list without duplicates;
    its iteration order is taken to be the order of the list. *)
Definition bad_step (s : decide) (bads : seq (seq nat)) (d : asg) : res (seq (seq nat)) :=
  let! t := eval_goal (dgoal s) d in
  if t then Ok bads else
  let! bad := true_indices 0 (hyps s) d in
  if size bad == size (hyps s) then Err counterexample else
  if (bad \notin bads) && (bad != [::])
  then Ok ([seq b <- undup bads | ~~ subset b bad] ++ [:: bad])
  else Ok bads.

(** bad_subsets_on_dict (g 834-885).  [k] and [epsilon] are only printed. *)
Definition bad_subsets_on_dict (w : addr) (s : decide) (d : asg) (k : nat) (epsilon : R) :
    res (seq var * option (seq (seq nat))) :=
  let! t := eval_goal (dgoal s) d in
  if t then Ok (vorder s, None) else
  let! op := local_search_sampling w (vorder s) (hyps s) (main_goal (dgoal s)) d in
  let! bads := foldM (bad_step s) [::] (d :: op.2) in
  Ok (op.1, Some bads).

(** weight_hyps (g 887-903). *)
Definition weight (s : decide) (h : atom) : nat :=
  let in_goal := flatten [seq variables (apoly a)
                         | a <- goal_hyps (dgoal s) ++ [:: main_goal (dgoal s)]] in
  if has (fun v => v \in in_goal) (variables (apoly h)) then
    maxn (10 * (total_degree (apoly h) - 1) + 100 * (size (variables (apoly h)) - 1)) 1
  else 10000%N.
Definition weight_hyps (s : decide) : seq nat := [seq weight s h | h <- hyps s].

(** good_hyps (g 910-945): the 0/1 program given to the solver.  [AtLeastOne l]
    is [sum(x[h] for h in l) >= 1], [Fix v b] is [x[v] == b]. *)
Inductive constraint := AtLeastOne of seq nat | Fix of nat & bool.
Definition constraints_of (n : nat) (b : seq nat) : seq constraint :=
  let bc := [seq h <- iota 0 n | h \notin b] in
  if bc is [::] then [:: Fix 0 false; Fix 0 true] else [:: AtLeastOne bc].

(** p.solve() and p.get_values(): the set of variables with value 1, among the
    first [n], or an exception when there is no solution. *)
Variable solve : nat -> seq constraint -> seq nat -> res (nat -> bool).

Definition good_hyps (s : decide) (bads : seq (seq nat)) : res (seq nat) :=
  let n := size (hyps s) in
  let! v := solve n (flatten [seq constraints_of n b | b <- bads]) (weight_hyps s) in
  Ok [seq i <- iota 0 n | v i].

(** The decomposition: the sample points for the goal, given the polynomials
    installed so far and the remaining hypotheses; [partial] selects whether
    the goal is handed on (g 956-963).  The second component of the result is
    the list of installed polynomials afterwards. *)
Variable sample_pt_dicts : addr -> option goal -> seq poly -> seq atom -> res (seq asg * seq poly).

(** The loop over the sample points (g 964-970): None when no point falsifies
    the goal. *)
Fixpoint all_bads (w : addr) (i : nat) (s : decide) (ds : seq asg) (k : nat) (epsilon : R) :
    res (seq var * option (seq (seq nat))) :=
  match ds with
  | [::] => Ok (vorder s, None)
  | d :: ds' =>
      let! r := bad_subsets_on_dict (i :: w) s d k epsilon in
      let! r' := all_bads w i.+1 (Decide (hyps s) (dgoal s) r.1) ds' k epsilon in
      Ok (r'.1, match r.2, r'.2 with
                | None, o => o
                | Some b, None => Some b
                | Some b, Some b' => Some (b ++ b')
                end)
  end.

(** Sorted by total degree (g 999 and 1028); [sort] is stable, as in Python. *)
Definition hyp_degree (s : decide) (i : nat) : nat :=
  if pyget (hyps s) i is Ok h then total_degree (apoly h) else 0%N.
Definition sort_cand (s : decide) (cand : seq nat) : seq nat :=
  sort (fun i j => hyp_degree s i <= hyp_degree s j)%N cand.

(** What the user may type (g 981-1019): S, B, P, GO, a number, anything else. *)
Inductive command := Suggest | ShowBads | ShowSequent | Go | Promote of int | Other.

(** The interactive loop.  The result says whether the session goes on
    interactively; end of input raises [EOFError]. *)
Fixpoint interact (s : decide) (bads : seq (seq nat)) (cs : seq command) :
    res (decide * bool * seq command) :=
  match cs with
  | [::] => Err EOFError
  | c :: cs' =>
      match c with
      | Suggest => let! _ := good_hyps s bads in interact s bads cs'
      | ShowBads | ShowSequent | Other => interact s bads cs'
      | Go =>
          let! cand := good_hyps s bads in
          let! i := pyget (sort_cand s cand) 0 in
          let! s' := promote_right s i in
          Ok (s', false, cs')
      | Promote i =>
          if (0 <= i) && (i < (size (hyps s))%:Z)
          then let! s' := promote_right s `|i|%N in Ok (s', true, cs')
          else interact s bads cs'
      end
  end.

(** The non-interactive choice (g 1021-1032). *)
Definition auto (s : decide) (bads : seq (seq nat)) : res decide :=
  let! cand := good_hyps s bads in
  let! i := pyget (if (1 < size cand)%N then sort_cand s cand else cand) 0 in
  promote_right s i.

(** check (g 947-1035), [fuel] bounds the recursion.  [Some cs] is the
    interactive mode with the remaining input.  The value is what the call
    returns, the state is the one after all recursive calls. *)
Fixpoint check (fuel : nat) (partial : bool) (k : nat) (epsilon : R) (cs : option (seq command))
    (top : seq poly) (s : decide) : res (seq (seq nat) * decide) :=
  if fuel is fuel'.+1 then
    let top' := top ++ apoly (main_goal (dgoal s)) :: [seq apoly h | h <- goal_hyps (dgoal s)] in
    let! sp := sample_pt_dicts [:: fuel; 0%N] (if partial then Some (dgoal s) else None) top' (hyps s) in
    let! ob := all_bads [:: fuel; 1%N] 0 s sp.1 k epsilon in
    let s1 := Decide (hyps s) (dgoal s) ob.1 in
    match ob.2 with
    | None => Ok ([::], s1)
    | Some bads =>
        match cs with
        | Some l =>
            let! r := interact s1 bads l in
            let: (s2, inter, l') := r in
            let! f := check fuel' partial k epsilon (if inter then Some l' else None) sp.2 s2 in
            Ok (bads, f.2)
        | None =>
            let! s2 := auto s1 bads in
            let! f := check fuel' partial k epsilon None sp.2 s2 in
            Ok (bads, f.2)
        end
    end
  else Err OutOfFuel.
End Grf.
