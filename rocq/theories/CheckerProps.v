(** C21-C26: the properties of vts/checker.py and make_univariate.  [E] is the
    type of sympy expressions, [val] their value at a point; unary minus, the
    relation constructors and set iteration are external, by contract. *)
From Coq Require Import String.
From mathcomp Require Import all_ssreflect all_algebra.
From mathcomp.real_closed Require Import polyrcf realalg.
From Verif Require Import Py VtsModel VtsSpec VtsInst IsymModel IsymSpec IsymFacts.
From Verif Require Import CheckerModel CheckerSpec CheckerFacts CheckerInst.

Set Implicit Arguments.
Unset Strict Implicit.
Unset Printing Implicit Defensive.
Import GRing.Theory Num.Theory Order.POrderTheory Order.TotalTheory.
Local Open Scope ring_scope.

(** * C21 *)
Theorem C21_negate_relations
    (R : realDomainType) (E Pt : Type) (val : E -> Pt -> R) (mk : cls -> E -> E -> formula E) :
  mk_contract val mk ->
  forall fs gs, negate_relations mk fs = Ok gs ->
  List.Forall2 (fun f g => forall x, holds val x g <-> ~ holds val x f) fs gs.
Proof. exact: negate_ok. Qed.
Print Assumptions C21_negate_relations.

Theorem C21_negate_relations_raises
    (E : Type) (mk : cls -> E -> E -> formula E) (fs : seq (formula E)) :
  (exists gs, negate_relations mk fs = Ok gs) \/
  negate_relations mk fs = Err KeyError /\ exists t, List.In (Bool t) fs.
Proof. exact: negate_err. Qed.
Print Assumptions C21_negate_relations_raises.

Theorem C21_rewrite_to_less
    (R : realDomainType) (E Pt : Type) (val : E -> Pt -> R)
    (opp : E -> E) (mk : cls -> E -> E -> formula E) :
  opp_contract val opp -> mk_contract val mk ->
  forall fs, List.Forall2 (fun f g => is_less g /\ forall x, holds val x g <-> holds val x f)
    fs (rewrite_to_less opp mk fs).
Proof. exact: rewrite_less. Qed.
Print Assumptions C21_rewrite_to_less.

Example C21_contracts (R : rcfType) :
  opp_contract (@rvalue R) opp_upoly /\ mk_contract (@rvalue R) mk_upoly.
Proof. split; [exact: upoly_opp|exact: upoly_mk]. Qed.
Example C21_example :
  negate_relations mk_upoly [:: Rel CLe 'X 0; Rel CEq 'X 0] = Ok [:: Rel CGt 'X 0; Rel CNe 'X 0] /\
  rewrite_to_less opp_upoly mk_upoly [:: Rel CGt 'X 0; Rel CNe 'X 0] =
    [:: Rel CLt (- 'X) 0; Rel CNe 'X 0].
Proof. exact: upoly_example. Qed.

(** * C22 *)
Theorem C22_vts_preformat
    (R : realDomainType) (E Pt : Type) (val : E -> Pt -> R)
    (opp : E -> E) (mk : cls -> E -> E -> formula E) (set_of : seq (formula E) -> seq (formula E)) :
  opp_contract val opp -> mk_contract val mk -> set_contract set_of ->
  forall ante succ conjs, vts_preformat opp mk set_of ante succ = Ok conjs ->
  (forall x, (all_hold val x ante -> all_hold val x succ) <->
             (forall conj, List.In conj conjs -> ~ all_hold val x conj)) /\
  (forall conj f, List.In conj conjs -> List.In f conj -> is_less f).
Proof. exact: preformat_ok. Qed.
Print Assumptions C22_vts_preformat.

Theorem C22_vts_preformat_raises
    (E : Type) (opp : E -> E) (mk : cls -> E -> E -> formula E)
    (set_of : seq (formula E) -> seq (formula E)) :
  set_contract set_of ->
  forall ante succ,
  (exists conjs, vts_preformat opp mk set_of ante succ = Ok conjs) /\
    ~ only_true ante /\ ~ only_true succ /\ ~ List.In (Bool false) succ
  \/ vts_preformat opp mk set_of ante succ = Err (Exc "antecedent or succedent became zero") /\
    (only_true ante \/ only_true succ)
  \/ vts_preformat opp mk set_of ante succ = Err KeyError /\
    ~ only_true ante /\ List.In (Bool false) succ.
Proof. exact: preformat_err. Qed.
Print Assumptions C22_vts_preformat_raises.

(** x - 1 >= 0 implies x > 0; a trivially true antecedent is dropped. *)
Example C22_example :
  vts_preformat opp_upoly mk_upoly id [:: Bool true; Rel CGe ('X - 1) 0] [:: Rel CGt 'X 0] =
  Ok [:: [:: Rel CLe (- ('X - 1)) 0; Rel CLe 'X 0]].
Proof. exact: upoly_preformat_example. Qed.

(** * C23: only for one succedent formula *)
Theorem C23_single_succedent
    (R : realDomainType) (E Pt : Type) (val : E -> Pt -> R)
    (opp : E -> E) (mk : cls -> E -> E -> formula E) (set_of : seq (formula E) -> seq (formula E)) :
  opp_contract val opp -> mk_contract val mk -> set_contract set_of ->
  forall ante f conjs, vts_preformat opp mk set_of ante [:: f] = Ok conjs ->
  forall x, (all_hold val x ante -> some_hold val x [:: f]) <->
            (forall conj, List.In conj conjs -> ~ all_hold val x conj).
Proof. exact: preformat_single. Qed.
Print Assumptions C23_single_succedent.

Theorem C23_disjunction_one_way
    (R : realDomainType) (E Pt : Type) (val : E -> Pt -> R)
    (opp : E -> E) (mk : cls -> E -> E -> formula E) (set_of : seq (formula E) -> seq (formula E)) :
  opp_contract val opp -> mk_contract val mk -> set_contract set_of ->
  forall ante succ conjs x, vts_preformat opp mk set_of ante succ = Ok conjs ->
  (forall conj, List.In conj conjs -> ~ all_hold val x conj) ->
  all_hold val x ante -> some_hold val x succ.
Proof. exact: preformat_one_way. Qed.
Print Assumptions C23_disjunction_one_way.

Theorem C23_disjunction_refuted (R : rcfType) :
  exists ante succ conjs,
  [/\ vts_preformat opp_upoly mk_upoly id ante succ = Ok conjs,
      forall x : R, all_hold (@rvalue R) x ante -> some_hold (@rvalue R) x succ &
      exists conj, List.In conj conjs /\ exists x : R, all_hold (@rvalue R) x conj].
Proof. exact: preformat_disjunction. Qed.
Print Assumptions C23_disjunction_refuted.

(** * C24 *)
Theorem C24_make_relation_map (E : Type) (l : seq (formula E)) :
  all (@accepted E) l ->
  make_relation_map l = Ok (RMap (lhs_of CLe l) (lhs_of CLt l) (lhs_of CEq l) (lhs_of CNe l)).
Proof. exact: relation_map_ok. Qed.
Print Assumptions C24_make_relation_map.

Theorem C24_other_relations_raise (E : Type) (l : seq (formula E)) :
  ~~ all (@accepted E) l -> make_relation_map l = Err (Exc "relation wasn't added").
Proof. exact: relation_map_err. Qed.
Print Assumptions C24_other_relations_raise.

Example C24_example :
  make_relation_map [:: Rel CLt 5%N 0%N; Rel CLe 3%N 0%N; Rel CLt 4%N 0%N] =
    Ok (RMap [:: 3%N] [:: 5%N; 4%N] [::] [::]) /\
  make_relation_map [:: Rel CLt 5%N 0%N; Rel CGe 3%N 0%N] = Err (Exc "relation wasn't added").
Proof. by []. Qed.

(** * C25 *)
Theorem C25_check_one
    (R : rcfType) (H : eqType) (str : int -> H)
    (MkRoots : seq int -> res (seq R)) (mx_inv : rmatrix -> rmatrix)
    (set_of : seq (formula {poly rat}) -> seq (formula {poly rat})) :
  injective str -> inv_contract mx_inv -> MkRoots_contract (intr : int -> R) MkRoots ->
  set_contract set_of ->
  forall ante succ, (forall f, List.In f (ante ++ succ) -> univariate f) ->
  let run := check_one opp_upoly mk_upoly set_of (decide_vts intr str MkRoots mx_inv) (ante, succ) in
  [\/ run = Err (Exc "antecedent or succedent became zero") /\ (only_true ante \/ only_true succ),
      run = Err KeyError /\ List.In (Bool false) succ,
      run = Err (Exc "relation wasn't added") /\ List.In (Bool false) ante |
      exists b, (b = true <->
                 forall x : R, all_hold (@rvalue R) x ante -> all_hold (@rvalue R) x succ) /\
        (run = Ok b \/ run = Err (Exc "more than 5 polies") /\
           exists c P, List.In (Rel c P 0) (ante ++ succ) /\ (6 < size P)%N)].
Proof. by move=> h1 h2 h3 h4 ante succ; exact: (check_one_result h1 h2 h3 h4). Qed.
Print Assumptions C25_check_one.

Theorem C25_check_examples
    (E : Type) (opp : E -> E) (mk : cls -> E -> E -> formula E)
    (set_of : seq (formula E) -> seq (formula E))
    (decide : seq E -> seq E -> seq E -> seq E -> res bool)
    (files : seq (seq (seq (formula E) * seq (formula E)))) :
  (forall f ex, List.In f (take 3 files) -> List.In ex f ->
     exists b, check_one opp mk set_of decide ex = Ok b) ->
  (exists f ex, [/\ List.In f (take 3 files), List.In ex f &
                    check_one opp mk set_of decide ex = Ok false]) /\
    check_examples opp mk set_of decide files = Err TypeError
  \/
  (forall f ex, List.In f (take 3 files) -> List.In ex f ->
     check_one opp mk set_of decide ex = Ok true) /\
    exists out, check_examples opp mk set_of decide files = Ok out.
Proof. exact: check_examples_spec. Qed.
Print Assumptions C25_check_examples.

(** x - 1 >= 0 implies x > 0, but x > 0 does not imply x - 1 >= 0. *)
Example C25_example_valid : check_oneZ ([:: Rel CGe ('X - 1) 0], [:: Rel CGt 'X 0]) = Ok true.
Proof. exact: check_oneZ_valid. Qed.
Example C25_example_invalid : check_oneZ ([:: Rel CGt 'X 0], [:: Rel CGe ('X - 1) 0]) = Ok false.
Proof. exact: check_oneZ_invalid. Qed.

(** The summary of a run with an invalid formula is never printed. *)
Theorem C25_check_examples_refuted :
  exists files, (forall f ex, List.In f files -> List.In ex f -> check_oneZ ex = Ok false) /\
    check_examples opp_upoly mk_upoly id (decide_vts injZ strZ rootsZ invQ) files = Err TypeError.
Proof. exact: check_examples_crash. Qed.
Print Assumptions C25_check_examples_refuted.

(** * C26 *)
Theorem C26_make_univariate
    (R : realFieldType) (simp expand : term -> term) (var_set : seq string -> seq string)
    (mk : cls -> term -> term -> formula term) :
  keeps_value R simp -> keeps_value R expand -> set_contract var_set -> mk_term_contract R mk ->
  forall rs, (forall t, ~ List.In (Bool t) rs) ->
  exists2 gs, make_univariate simp expand var_set mk rs = Ok gs &
  List.Forall2 (fun r g => forall c a b, r = Rel c a b ->
    (forall k p q, g = Rel k p q ->
       [/\ k = c, q = TNum 0 & forall s, List.In s (tvars p) -> s = "x"%string]) /\
    forall (u : R) x y (v : string -> R), v "x"%string = u ->
      tvalue a (fun=> u) = Some x -> tvalue b (fun=> u) = Some y ->
      (tholds v g <-> tholds (fun=> u) r)) rs gs.
Proof. exact: make_univariate_all. Qed.
Print Assumptions C26_make_univariate.

Theorem C26_truth_value_raises
    (simp expand : term -> term) (var_set : seq string -> seq string)
    (mk : cls -> term -> term -> formula term) (rs : seq (formula term)) (t : bool) :
  List.In (Bool t) rs -> make_univariate simp expand var_set mk rs = Err AttributeError.
Proof. exact: make_univariate_bool. Qed.
Print Assumptions C26_truth_value_raises.

(** y*z < y becomes x*x - x < 0. *)
Example C26_contracts (R : realFieldType) :
  [/\ keeps_value R id, set_contract (@id (seq string)) & mk_term_contract R (@Rel term)].
Proof. by split=> //; move=> c a b; left. Qed.
Example C26_example :
  make_univariate id id id (@Rel term)
    [:: Rel CLt (TMul (TVar "y") (TVar "z")) (TVar "y")] =
  Ok [:: Rel CLt (TSub (TMul (TVar "x") (TVar "x")) (TVar "x")) (TNum 0)].
Proof. by []. Qed.
