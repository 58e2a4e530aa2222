(** Property theorems about GRF/grf.sage (C41-C51, C56, C57, C66-C71). *)
From mathcomp Require Import all_ssreflect all_algebra.
From mathcomp.real_closed Require Import polyrcf.
From Coq Require Import String Permutation.
From Verif Require Import Py GrfModel GrfCad GrfSpec GrfFacts GrfCheck GrfLoop GrfRun GrfLine GrfCadFacts GrfSem
  GrfInst GrfEx GrfEx2 GrfEx3.

Set Implicit Arguments.
Unset Strict Implicit.
Unset Printing Implicit Defensive.
Import GRing.Theory Num.Theory Order.Theory.
Local Open Scope ring_scope.
Local Notation asg := (dict [eqType of var]).

(** ** C41: RCF_Atom.negate *)

Theorem C41_negate_value :
  forall (R : realDomainType) (L : lib R) (K : realDomainType) (val : P L -> (var -> K) -> K)
    (a : atom L) (e : var -> K),
  atom_true val (negate a) e = ~~ atom_true val a e.
Proof. exact: atom_negate. Qed.
Print Assumptions C41_negate_value.

Theorem C41_negate_eval :
  forall (R : realDomainType) (L : lib R) (a : atom L) (d : asg R),
  eval_atom (negate a) d = let! r := eval_atom a d in Ok (if r is Some b then Some (~~ b) else None).
Proof. exact: eval_negate. Qed.
Print Assumptions C41_negate_eval.

Theorem C41_negate_twice :
  forall (R : realDomainType) (L : lib R) (a : atom L), negate (negate a) = a.
Proof. exact: negateK. Qed.
Print Assumptions C41_negate_twice.

(** x0 > 0 at x0 = 0 and 1/2. *)
Example C41_example : eval_atom m57 n57 = Ok (Some true) /\ eval_atom m57 d57 = Ok (Some false).
Proof. exact: ex57_near. Qed.

(** ** C42: partial evaluation of a goal *)

Theorem C42_eval_goal_sound :
  forall (R : realDomainType) (L : lib R) (K : realDomainType) (inj : R -> K) (val : P L -> (var -> K) -> K),
  lib_ok inj val ->
  forall (g : goal L) (d : asg R) (e : var -> K),
  goal_wf g -> agrees inj d e -> eval_goal g d = Ok true -> goal_true val g e.
Proof. exact: eval_goal_sound. Qed.
Print Assumptions C42_eval_goal_sound.

Theorem C42_eval_goal_total :
  forall (R : realDomainType) (L : lib R) (K : realDomainType) (inj : R -> K) (val : P L -> (var -> K) -> K),
  lib_ok inj val ->
  forall (g : goal L) (d : asg R), d != [::] -> all (covers d) (main_goal g :: goal_hyps g) ->
  eval_goal g d = Ok (goal_true val g (point_of inj d)).
Proof. exact: eval_goal_covers. Qed.
Print Assumptions C42_eval_goal_total.

(** Atoms are made well formed. *)
Theorem C42_mk_atom_wf :
  forall (R : realDomainType) (L : lib R) i (p : P L) op, atom_wf (mk_atom i p op).
Proof. exact: mk_atom_wf. Qed.
Print Assumptions C42_mk_atom_wf.

(** The library contract is that of rational polynomials; the goal
    x0 < 0, x0 = x1 -> x1 > 0 is well formed. *)
Example C42_library : forall K : rcfType, lib_ok (L := qlib) ratr (@qval K).
Proof. exact: qlib_ok. Qed.
Example C42_goal : goal_wf (Goal m43 ps43 [::]).
Proof. exact: ex43_wf. Qed.
(** It is true at x0 = 5, whatever x1 is. *)
Example C42_true : eval_goal (Goal m43 ps43 [::]) [:: (0%N, 5%:R)] = Ok true.
Proof. exact: ex42. Qed.

(** ** C43: rewritten atoms *)

(** An atom that knows its variables has no value when one is missing. *)
Theorem C43_missing_variable :
  forall (R : realDomainType) (L : lib R) (a : atom L) (d : asg R),
  atom_wf a -> ~~ all (fun v => dmem d v) (variables (apoly a)) -> eval_atom a d = Ok None.
Proof. exact: eval_atom_missing. Qed.
Print Assumptions C43_missing_variable.

(** After promotions this fails, and the goal is evaluated to True although it
    is false at an extension of the assignment. *)
Theorem C43_refuted :
  exists (m : atom qlib) (ps : seq (atom qlib)) (g : goal qlib) (d : asg rat),
  [/\ goal_wf (Goal m ps [::]), foldM (@add_goal_hyp _ qlib) (Goal m [::] [::]) ps = Ok g,
      eval_goal g d = Ok true &
      forall K : rcfType, exists2 e : var -> K, agrees ratr d e & ~~ goal_true (@qval K) g e].
Proof. exact: ex43_all. Qed.
Print Assumptions C43_refuted.

Example C43_example : eval_atom m43 d43 = Ok None.
Proof. exact: ex43_none. Qed.

(** ** C44: promotion *)

Theorem C44_promoted_implies :
  forall (R : realDomainType) (L : lib R) (K : realDomainType) (inj : R -> K) (val : P L -> (var -> K) -> K),
  lib_ok inj val ->
  forall (m : atom L) (ps : seq (atom L)),
  exists2 g, foldM (@add_goal_hyp R L) (Goal m [::] [::]) ps = Ok g &
    main_goal g = m /\ forall e, all_true val ps e -> all_true val (goal_hyps g) e.
Proof. exact: promote_all. Qed.
Print Assumptions C44_promoted_implies.

Theorem C44_one_equation :
  forall (R : realDomainType) (L : lib R) (K : realDomainType) (inj : R -> K) (val : P L -> (var -> K) -> K),
  lib_ok inj val ->
  forall (m : atom L) (ps : seq (atom L)) (g : goal L) (e : var -> K),
  foldM (@add_goal_hyp R L) (Goal m [::] [::]) ps = Ok g -> (count (@is_eqn R L) ps <= 1)%N ->
  all_true val (goal_hyps g) e = all_true val ps e.
Proof. exact: promote_one_eqn. Qed.
Print Assumptions C44_one_equation.

(** x0 = x1, x0 = -x1 become -2 x1 = 0, 2 x1 = 0. *)
Theorem C44_refuted :
  exists (m : atom qlib) (ps : seq (atom qlib)) (g : goal qlib),
  foldM (@add_goal_hyp _ qlib) (Goal m [::] [::]) ps = Ok g /\
  forall K : rcfType, exists e : var -> K,
    all_true (@qval K) (goal_hyps g) e && ~~ all_true (@qval K) ps e.
Proof. exact: ex44_all. Qed.
Print Assumptions C44_refuted.

(** x0 < 0, x0 = x1 has one equation and the inequality is rewritten. *)
Example C44_example : promote m43 ps43 = Ok g43 /\ count (@is_eqn _ qlib) ps43 = 1%N.
Proof. by split; [exact: ex43|]. Qed.

(** ** C45: the sample points of the line *)

(** Where no polynomial is zero, some sample point has the same signs. *)
Theorem C45_sectors :
  forall (R : realDomainType) (L : lib R) (O : oracle L) (K : rcfType) (inj : R -> K) (uval : U L -> {poly K}),
  line_ok O inj uval ->
  forall (w : addr) (num : nat) (ps : seq (P L)) (us : seq (U L)) (ris : seq ((R * R) * nat))
    (ambient : seq (atom L)) (v : var) (x : K),
  (0 < num)%N -> mapM (@univariate R L) ps = Ok us -> iso_root_intvls ps = Ok ris ->
  isolated inj uval (no_rational us) ->
  (forall u, List.In u us -> unmixed inj uval u) -> separated ris -> ~ root_of uval us x ->
  exists2 s, s \in sector_sps O w ris num ambient v & same_signs uval us x (inj s).
Proof. exact: sectors. Qed.
Print Assumptions C45_sectors.

(** The rational roots are sample points. *)
Theorem C45_sections :
  forall (R : realDomainType) (L : lib R) (O : oracle L) (w : addr) (num : nat) (ps : seq (P L)) (us : seq (U L))
    (ris : seq ((R * R) * nat)) (ambient : seq (atom L)) (v : var) (u : U L) (a : R) m,
  mapM (@univariate R L) ps = Ok us -> iso_root_intvls ps = Ok ris -> List.In u us -> (a, m) \in roots u ->
  a \in sector_sps O w ris num ambient v.
Proof. exact: sections. Qed.
Print Assumptions C45_sections.

(** With rational roots only, every point has a sample point with the same signs. *)
Theorem C45_rational_roots :
  forall (R : realDomainType) (L : lib R) (O : oracle L) (K : rcfType) (inj : R -> K) (uval : U L -> {poly K}),
  line_ok O inj uval ->
  forall (w : addr) (num : nat) (ps : seq (P L)) (us : seq (U L)) (ris : seq ((R * R) * nat))
    (ambient : seq (atom L)) (v : var) (x : K),
  (0 < num)%N -> mapM (@univariate R L) ps = Ok us -> iso_root_intvls ps = Ok ris ->
  isolated inj uval (no_rational us) -> (forall u, List.In u us -> rational_roots inj uval u) ->
  exists2 s, s \in sector_sps O w ris num ambient v & same_signs uval us x (inj s).
Proof. exact: line_complete. Qed.
Print Assumptions C45_rational_roots.

(** x^4 - 2 x^2 is sampled at -1, 0, 1 only. *)
Theorem C45_mixed_refuted :
  exists (p : P qlib) (u : upoly) ris, [/\ mapM (@univariate _ qlib) [:: p] = Ok [:: u],
    iso_root_intvls [:: p] = Ok ris &
    forall (K : rcfType) w, exists2 x : K, ~ root_of (L := qlib) (uval K) [:: u] x &
    forall s, s \in sector_sps qoracle w ris 1 [::] 0%N -> ~ same_signs (L := qlib) (uval K) [:: u] x (ratr s)].
Proof. exact: ex45_all. Qed.
Print Assumptions C45_mixed_refuted.

(** x^2 - 2, 2 x - 3, x: unmixed and isolated, but the intervals overlap. *)
Theorem C45_overlap_refuted :
  exists (ps : seq (P qlib)) (us : seq upoly) ris, [/\ mapM (@univariate _ qlib) ps = Ok us,
    iso_root_intvls ps = Ok ris &
    forall (K : rcfType), [/\ isolated (L := qlib) ratr (uval K) (no_rational (L := qlib) us),
      forall u, List.In u us -> unmixed (L := qlib) ratr (uval K) u &
      forall w, exists2 x : K, ~ root_of (L := qlib) (uval K) us x &
      forall s, s \in sector_sps qoracle w ris 1 [::] 0%N -> ~ same_signs (L := qlib) (uval K) us x (ratr s)]].
Proof. exact: ex45b_all. Qed.
Print Assumptions C45_overlap_refuted.

(** The hypotheses of C45_sectors for x^2 - 2 and x - 3. *)
Example C45_contract : forall K : rcfType, line_ok qoracle ratr (uval K).
Proof. exact: qline_ok. Qed.
Example C45_polys : mapM (@univariate _ qlib) ps45c = Ok us45c /\ iso_root_intvls (L := qlib) ps45c = Ok ris45c.
Proof. exact: (conj ex45c_univ ex45c_iso). Qed.
Example C45_isolated : forall K : rcfType, isolated (L := qlib) ratr (uval K) (no_rational (L := qlib) us45c).
Proof. exact: ex45c_isolated. Qed.
Example C45_unmixed : forall (K : rcfType) u, List.In u us45c -> unmixed (L := qlib) ratr (uval K) u.
Proof. exact: ex45c_unmixed. Qed.
Example C45_separated : separated (R := [realDomainType of rat]) ris45c.
Proof. exact: ex45c_separated. Qed.

(** ** C46: counterexamples *)

(** A reported counterexample falsifies the current sequent. *)
Theorem C46_counterexample :
  forall (R : realDomainType) (L : lib R) (K : realDomainType) (inj : R -> K) (val : P L -> (var -> K) -> K),
  lib_ok inj val ->
  forall O : oracle L, (forall w p x y, never counterexample (fsolve O w p x y)) ->
  forall (w : addr) (s : decide L) (d : asg R) (k : nat) (eps : R),
  bad_subsets_on_dict O w s d k eps = Err counterexample ->
  covers_all d s -> uniq (map fst d) -> vorder s = [::] \/ perm_eq (vorder s) (map fst d) ->
  exists d', perm_eq (map fst d') (map fst d) /\ ~~ sequent_true val s (point_of inj d').
Proof. exact: bad_subsets_cex_covers. Qed.
Print Assumptions C46_counterexample.

(** Over a list of samples: reported exactly when one falsifies the sequent. *)
Theorem C46_verdict :
  forall (R : realDomainType) (L : lib R) (K : realDomainType) (inj : R -> K) (val : P L -> (var -> K) -> K),
  lib_ok inj val ->
  forall (s : decide L) (pts : seq (asg R)), (forall d, List.In d pts -> covers_all d s) ->
  if all (fun d => sequent_true val s (point_of inj d)) pts
  then exists bads, foldM (bad_step s) [::] pts = Ok bads
  else foldM (bad_step s) [::] pts = Err counterexample.
Proof. exact: bad_fold_verdict. Qed.
Print Assumptions C46_verdict.

(** The sequent given by the user may be valid all the same:
    x0 = x1, x0 = -x1, x2 > 0 |- x0 > -1, with the first two promoted. *)
Theorem C46_refuted :
  exists (m h : atom qlib) (ps : seq (atom qlib)) (g : goal qlib) (d : asg rat),
  [/\ foldM (@add_goal_hyp _ qlib) (Goal m [::] [::]) ps = Ok g,
      bad_subsets_on_dict qoracle [::] (Decide [:: h] g [::]) d 1 1 = Err counterexample &
      forall (K : rcfType) e, sequent_true (@qval K) (Decide (rcons ps h) (Goal m [::] [::]) [::]) e].
Proof. exact: ex46_all. Qed.
Print Assumptions C46_refuted.

Example C46_fsolve : forall w p x y, never counterexample (fsolve qoracle w p x y).
Proof. by []. Qed.
Example C46_covers : covers_all d46 s46 /\ bad_subsets_on_dict qoracle [::] s46 d46 1 1 = Err counterexample.
Proof. exact: (conj ex46_covers ex46). Qed.

(** ** C47: recorded bad subsets *)

Theorem C47_bad_subsets :
  forall (R : realDomainType) (L : lib R) (K : realDomainType) (inj : R -> K) (val : P L -> (var -> K) -> K),
  lib_ok inj val ->
  forall (s : decide L) (pts : seq (asg R)) (bads : seq (seq nat)),
  (forall d, List.In d pts -> covers_all d s) -> foldM (bad_step s) [::] pts = Ok bads ->
  let true_at d := indices_true val (hyps s) (point_of inj d) in
  (forall b, b \in bads -> b <> [::] /\
     exists2 d, List.In d pts & ~~ goal_true val (dgoal s) (point_of inj d) /\ b = true_at d) /\
  (forall d, List.In d pts -> ~~ goal_true val (dgoal s) (point_of inj d) -> true_at d <> [::] ->
     exists2 b, b \in bads & {subset true_at d <= b}).
Proof. exact: bad_fold_sem. Qed.
Print Assumptions C47_bad_subsets.

(** ** C48: antichain *)

(** No recorded subset is contained in a later one. *)
Theorem C48_not_in_later :
  forall (R : realDomainType) (L : lib R) (s : decide L) (pts : seq (asg R)) (bads : seq (seq nat)),
  foldM (bad_step s) [::] pts = Ok bads -> pairwise (fun b b' => ~~ subset b b') bads.
Proof. exact: bad_fold_order0. Qed.
Print Assumptions C48_not_in_later.

(** It may be contained in an earlier one. *)
Theorem C48_refuted :
  exists (s : decide qlib) (pts : seq (asg rat)) b b',
  [/\ foldM (bad_step s) [::] pts = Ok [:: b; b'], b != b' & subset b' b].
Proof. exact: ex48_all. Qed.
Print Assumptions C48_refuted.

Example C48_covers : forall d, List.In d pts48 -> covers_all d s48.
Proof. exact: ex48_covers. Qed.
(** With the points in the other order there is one bad subset. *)
Example C48_example : foldM (bad_step s48) [::] (rev pts48) = Ok [:: [:: 0; 1]]%N.
Proof. exact: ex48_rev. Qed.

(** ** C49: good_hyps *)

Theorem C49_good_hyps :
  forall (R : realDomainType) (L : lib R) (solve : nat -> seq constraint -> seq nat -> res (nat -> bool)),
  exact_solver solve ->
  forall (s : decide L) (bads : seq (seq nat)) (H : seq nat), good_hyps solve s bads = Ok H ->
  [/\ subseq H (iota 0 (size (hyps s))),
      forall b, b \in bads -> ~~ subset H b &
      forall H', uniq H' -> all (fun i => i < size (hyps s))%N H' -> (forall b, b \in bads -> ~~ subset H' b) ->
      (cost (weight_hyps s) H <= cost (weight_hyps s) H')%N].
Proof. exact: good_hyps_ok. Qed.
Print Assumptions C49_good_hyps.

Theorem C49_infeasible :
  forall (R : realDomainType) (L : lib R) (solve : nat -> seq constraint -> seq nat -> res (nat -> bool)),
  exact_solver solve ->
  forall (s : decide L) (bads : seq (seq nat)) (e : exn), good_hyps solve s bads = Err e ->
  e = Exc "MIPSolverException"%string /\
  forall H', uniq H' -> all (fun i => i < size (hyps s))%N H' -> ~~ all (fun b => ~~ subset H' b) bads.
Proof. exact: good_hyps_err. Qed.
Print Assumptions C49_infeasible.

Example C49_solver : exact_solver brute.
Proof. exact: brute_exact. Qed.
Example C49_example : good_hyps brute s48 [:: [:: 0; 1]; [:: 0]]%N = Ok [:: 2%N].
Proof. exact: ex49. Qed.

(** ** C50: check *)

(** A finished run has promoted some hypotheses and kept the others, in order;
    at the end no sample point falsifies the goal. *)
Theorem C50_conserves :
  forall (R : realDomainType) (L : lib R) (O : oracle L)
    (solve : nat -> seq constraint -> seq nat -> res (nat -> bool))
    (sample : addr -> option (goal L) -> seq (P L) -> seq (atom L) -> res (seq (asg R) * seq (P L)))
    fuel partial k eps cs top s r s',
  check O solve sample fuel partial k eps cs top s = Ok (r, s') ->
  (exists2 ps, foldM (@add_goal_hyp R L) (dgoal s) ps = Ok (dgoal s') &
     Permutation (ps ++ hyps s') (hyps s) /\ exists m, hyps s' = mask m (hyps s)) /\
  exists w top' ds, (exists t, sample w (if partial then Some (dgoal s') else None) top' (hyps s') = Ok (ds, t)) /\
    forall d, List.In d ds -> eval_goal (dgoal s') d = Ok true.
Proof. exact: check_result. Qed.
Print Assumptions C50_conserves.

(** As many recursive calls as there are hypotheses are enough. *)
Theorem C50_terminates :
  forall (R : realDomainType) (L : lib R) (O : oracle L)
    (solve : nat -> seq constraint -> seq nat -> res (nat -> bool))
    (sample : addr -> option (goal L) -> seq (P L) -> seq (atom L) -> res (seq (asg R) * seq (P L))),
  (forall w p x y, never OutOfFuel (fsolve O w p x y)) -> (forall n cs w, never OutOfFuel (solve n cs w)) ->
  (forall w og top hs, never OutOfFuel (sample w og top hs)) ->
  forall fuel partial k eps cs top s, (size (hyps s) < fuel)%N ->
  never OutOfFuel (check O solve sample fuel partial k eps cs top s).
Proof. exact: check_fuel. Qed.
Print Assumptions C50_terminates.

Theorem C50_terminates_cad :
  forall (R : realDomainType) (L : lib R) (O : oracle L),
  (forall p, never OutOfFuel (@univariate R L p)) ->
  forall solve, exact_solver solve -> (forall w p x y, never OutOfFuel (fsolve O w p x y)) ->
  forall n num fuel partial k eps cs top s, (size (hyps s) < fuel)%N ->
  never OutOfFuel (check O solve (sample_pt_dicts O n num) fuel partial k eps cs top s).
Proof. exact: check_terminates. Qed.
Print Assumptions C50_terminates_cad.

(** If the final goal is true everywhere, so is the sequent. *)
Theorem C50_sound :
  forall (R : realDomainType) (L : lib R) (K : realDomainType) (inj : R -> K) (val : P L -> (var -> K) -> K),
  lib_ok inj val ->
  forall (O : oracle L) (solve : nat -> seq constraint -> seq nat -> res (nat -> bool))
    (sample : addr -> option (goal L) -> seq (P L) -> seq (atom L) -> res (seq (asg R) * seq (P L)))
    fuel partial k eps cs top s r s',
  check O solve sample fuel partial k eps cs top s = Ok (r, s') ->
  goal_hyps (dgoal s) = [::] -> gb (dgoal s) = [::] ->
  forall e, goal_true val (dgoal s') e -> sequent_true val s e.
Proof. exact: check_sound. Qed.
Print Assumptions C50_sound.

(** x0 > 2, x0 < 3 |- x0^2 > 1 *)
Example C50_example : is_ok (run 1 3 s67b).
Proof. exact: ex67b. Qed.
Example C50_never : (forall p, never OutOfFuel (@univariate _ qlib p)) /\
  (forall w p x y, never OutOfFuel (fsolve qoracle w p x y)).
Proof. by split; [exact: ex50_univ|]. Qed.

(** ** C51: the verdict *)

(** When some bad subset is recorded, a hypothesis is chosen and promoted. *)
Theorem C51_progress :
  forall (R : realDomainType) (L : lib R) (solve : nat -> seq constraint -> seq nat -> res (nat -> bool)),
  exact_solver solve ->
  forall (K : realDomainType) (inj : R -> K) (val : P L -> (var -> K) -> K), lib_ok inj val ->
  forall (s : decide L) (bads : seq (seq nat)), bads != [::] ->
  all (fun b => subseq b (iota 0 (size (hyps s))) && (size b < size (hyps s))%N) bads ->
  exists s', auto solve s bads = Ok s'.
Proof. exact: auto_ok. Qed.
Print Assumptions C51_progress.

(** When none is, there is nothing to promote. *)
Theorem C51_no_candidate :
  forall (R : realDomainType) (L : lib R) (solve : nat -> seq constraint -> seq nat -> res (nat -> bool)),
  exact_solver solve -> forall s : decide L, auto solve s [::] = Err IndexError.
Proof. exact: auto_none. Qed.
Print Assumptions C51_no_candidate.

(** A valid sequent, x0 = 5 |- x0 > 0, and a false one, |- x0 > 0. *)
Theorem C51_refuted :
  exists s t : decide qlib,
  [/\ forall (K : rcfType) e, sequent_true (@qval K) s e, run 1 3 s = Err IndexError, hyps t = [::] &
      run 1 3 t = Err IndexError].
Proof. exact: ex51_all. Qed.
Print Assumptions C51_refuted.

Example C51_example : all (fun b => subseq b (iota 0 (size (hyps s48))) && (size b < size (hyps s48))%N)
  [:: [:: 0; 1]; [:: 0]]%N.
Proof. by []. Qed.

(** ** C56: VarOrder *)

Theorem C56_roundtrip :
  forall (R : realDomainType) (order : seq var) (d : asg R), d != [::] -> uniq (map fst d) ->
  order = [::] \/ perm_eq order (map fst d) ->
  exists v d', [/\ dict2vect order d = Ok v, vect2dict (var_order order d) v = Ok d' &
    forall k, dget d' k = dget d k].
Proof. exact: roundtrip. Qed.
Print Assumptions C56_roundtrip.

(** With the order of other keys: an exception, or a lost entry. *)
Theorem C56_refuted :
  exists d : asg rat, [/\ uniq (map fst d), dict2vect [:: 2%N] d = Err KeyError &
  exists v d' k, [/\ dict2vect [:: 0%N] d = Ok v, vect2dict (var_order [:: 0%N] d) v = Ok d' & dget d' k <> dget d k]].
Proof. exact: ex56_all. Qed.
Print Assumptions C56_refuted.

Example C56_example : dict2vect [:: 1; 0]%N d56 = Ok [:: 2%:R; 1] /\ perm_eq [:: 1; 0]%N (map fst d56).
Proof. by split; [exact: ex56c|]. Qed.

(** ** C57: local search *)

(** The start point comes first; the points of the chains do not satisfy the
    main goal; the 25 neighbours are unfiltered. *)
Theorem C57_local_search :
  forall (R : realDomainType) (L : lib R) (O : oracle L) (w : addr) (order : seq var) (hs : seq (atom L))
    (m : atom L) (d : asg R) (o : seq var) (pts : seq (asg R)),
  local_search_sampling O w order hs m d = Ok (o, pts) ->
  o = var_order order d /\
  exists near far, [/\ pts = d :: near ++ far, size near = 25%N, (size far <= 52)%N,
    forall d', List.In d' near -> map fst d' = map fst d &
    forall d', List.In d' far -> (exists v, vect2dict o v = Ok d') /\
      exists2 r, eval_atom m d' = Ok r & r <> Some true].
Proof. exact: local_searchP. Qed.
Print Assumptions C57_local_search.

Theorem C57_keys :
  forall (R : realDomainType) (L : lib R) (O : oracle L) (w : addr) (order : seq var) (hs : seq (atom L))
    (m : atom L) (d : asg R) (o : seq var) (pts : seq (asg R)),
  local_search_sampling O w order hs m d = Ok (o, pts) -> uniq (map fst d) ->
  order = [::] \/ perm_eq order (map fst d) ->
  perm_eq o (map fst d) /\ forall d', List.In d' pts -> perm_eq (map fst d') (map fst d).
Proof. exact: local_search_keys. Qed.
Print Assumptions C57_keys.

(** From x0 = 0, which falsifies x0 > 0, to x0 = 1/2, which does not. *)
Theorem C57_refuted :
  exists (hs : seq (atom qlib)) (m : atom qlib) (d d' : asg rat) r,
  [/\ local_search_sampling qoracle [::] [::] hs m d = Ok r, List.In d' r.2,
      eval_atom m d = Ok (Some false) & eval_atom m d' = Ok (Some true)].
Proof. exact: ex57_all. Qed.
Print Assumptions C57_refuted.

(** ** C66: the parameters k and epsilon *)

Theorem C66_unused_parameters :
  forall (R : realDomainType) (L : lib R) (O : oracle L)
    (solve : nat -> seq constraint -> seq nat -> res (nat -> bool))
    (sample : addr -> option (goal L) -> seq (P L) -> seq (atom L) -> res (seq (asg R) * seq (P L)))
    fuel partial k eps k' eps' cs top s,
  check O solve sample fuel partial k eps cs top s = check O solve sample fuel partial k' eps' cs top s.
Proof. exact: check_params. Qed.
Print Assumptions C66_unused_parameters.

(** ** C67: the verdict in one variable *)

(** Polynomials in x0 with rational roots only: an accepted sequent is valid. *)
Theorem C67_univariate_sound :
  forall (R : realDomainType) (L : lib R) (O : oracle L) (K : rcfType) (inj : R -> K)
    (val : P L -> (var -> K) -> K) (uval : U L -> {poly K}),
  lib_ok inj val -> cad_ok val uval -> line_ok O inj uval ->
  forall C : pred (P L), rational_class uval inj C ->
  forall solve num fuel partial k eps cs s r s',
  goal_hyps (dgoal s) = [::] -> gb (dgoal s) = [::] ->
  check O solve (sample_pt_dicts O 1 num) fuel partial k eps cs [::] s = Ok (r, s') ->
  in_class C (dgoal s) (hyps s) -> closed C (dgoal s) (hyps s) ->
  forall e, sequent_true val s e.
Proof. exact: check1_valid. Qed.
Print Assumptions C67_univariate_sound.

(** |- x0^4 - 2 x0^2 <= 0 is accepted, and false at 2. *)
Theorem C67_refuted :
  exists s : decide qlib, [/\ goal_hyps (dgoal s) = [::], gb (dgoal s) = [::], exists r, run 1 3 s = Ok r &
    forall K : rcfType, exists e, ~~ sequent_true (@qval K) s e].
Proof. exact: ex67_all. Qed.
Print Assumptions C67_refuted.

(** x0 > 2, x0 < 3 |- x0^2 > 1 *)
Example C67_contracts : forall K : rcfType, lib_ok (L := qlib) ratr (@qval K) /\
  cad_ok (L := qlib) (@qval K) (uval K) /\ line_ok qoracle ratr (uval K).
Proof. exact: (fun K => conj (qlib_ok K) (conj (qcad_ok K) (qline_ok K))). Qed.
Example C67_class : forall K : rcfType, rational_class (L := qlib) (uval K) ratr (mem class67).
Proof. exact: class67_ok. Qed.
Example C67_example : is_ok (run 1 3 s67b) /\ in_class (L := qlib) (mem class67) (dgoal s67b) (hyps s67b) /\
  closed (L := qlib) (mem class67) (dgoal s67b) (hyps s67b).
Proof. exact: (conj ex67b (conj ex67b_in ex67b_closed)). Qed.

(** ** C68: check with partial=False *)

Theorem C68_needs_goal :
  forall (R : realDomainType) (L : lib R) (O : oracle L) (n num : nat) (w : addr) (g : goal L)
    (top : seq (P L)) (ambient : seq (atom L)) r, (1 < n)%N ->
  sample_pt_dicts O n num w (Some g) top ambient = Ok r ->
  sample_pt_dicts O n num w None top ambient = Err AttributeError.
Proof. exact: sample_no_goal. Qed.
Print Assumptions C68_needs_goal.

Theorem C68_refuted :
  exists s : decide qlib, is_ok (run 2 3 s) /\
  check qoracle brute (sample_pt_dicts qoracle 2 1) 3 false 1 1 None [::] s = Err AttributeError.
Proof. exact: (ex_intro _ s67b (conj ex68 ex68_full)). Qed.
Print Assumptions C68_refuted.

(** ** C69: the variables of the sample points *)

Theorem C69_sample_keys :
  forall (R : realDomainType) (L : lib R) (O : oracle L) (n num : nat) (w : addr) (og : option (goal L))
    (top : seq (P L)) (ambient : seq (atom L)) (ds : seq (asg R)) (t : seq (P L)),
  sample_pt_dicts O n num w og top ambient = Ok (ds, t) ->
  forall d, List.In d ds -> perm_eq (map fst d) (iota 0 n).
Proof. exact: sample_keys. Qed.
Print Assumptions C69_sample_keys.

Theorem C69_projection_order :
  forall (R : realDomainType) (L : lib R) (ps : seq (P L)) (vars : seq var),
  perm_eq (compute_proj_ord ps vars) vars /\
  sorted (fun v w => stats_le (var_stats ps w) (var_stats ps v)) (compute_proj_ord ps vars).
Proof. exact: (fun R L ps vars => conj (proj_ord_perm ps vars) (proj_ord_sorted ps vars)). Qed.
Print Assumptions C69_projection_order.

Example C69_example : exists r, sample_pt_dicts qoracle 2 1 [::] (Some (dgoal s71)) [:: lx 1; xmy] [::] = Ok r /\
  r.1 <> [::].
Proof. exact: ex69. Qed.

(** ** C70: filter_proj_set *)

Theorem C70_signs :
  forall (R : realDomainType) (L : lib R) (K : rcfType) (val : P L -> (var -> K) -> K) (uval : U L -> {poly K}),
  cad_ok val uval ->
  forall (ps : seq (P L)) (e e' : var -> K),
  (forall q, q \in filter_proj_set ps -> Num.sg (val q e) = Num.sg (val q e')) ->
  forall p, p \in ps -> Num.sg (val p e) = Num.sg (val p e').
Proof. exact: filter_signs. Qed.
Print Assumptions C70_signs.

Theorem C70_zero_set :
  forall (R : realDomainType) (L : lib R) (K : rcfType) (val : P L -> (var -> K) -> K) (uval : U L -> {poly K}),
  cad_ok val uval ->
  forall (ps : seq (P L)) (e : var -> K),
  (forall p v c k, p \in ps -> ~~ is_constant p -> (forall e0, val p e0 = c * e0 v ^+ k) -> c != 0) ->
  (exists2 q, q \in filter_proj_set ps & val q e = 0) <->
  (exists2 p, p \in ps & ~~ is_constant p /\ val p e = 0).
Proof. exact: filter_zero. Qed.
Print Assumptions C70_zero_set.

(** 3 x0^2, 5 and x0 - x1. *)
Example C70_example : filter_proj_set (L := qlib) [:: [:: ([:: 2%N], 3%:R)]; [:: ([::], 5%:R)]; xmy] = [:: X 0; xmy].
Proof. exact: ex70. Qed.

(** ** C71: the last hypothesis *)

(** In automatic mode a run that starts with hypotheses ends with some. *)
Theorem C71_last_hypothesis :
  forall (R : realDomainType) (L : lib R) (O : oracle L)
    (solve : nat -> seq constraint -> seq nat -> res (nat -> bool)), exact_solver solve ->
  forall (sample : addr -> option (goal L) -> seq (P L) -> seq (atom L) -> res (seq (asg R) * seq (P L)))
    fuel partial k eps top s r s',
  check O solve sample fuel partial k eps None top s = Ok (r, s') -> hyps s <> [::] -> hyps s' <> [::].
Proof. exact: check_last. Qed.
Print Assumptions C71_last_hypothesis.

(** With one hypothesis left, only a goal that is true at all samples is accepted. *)
Theorem C71_one_hypothesis :
  forall (R : realDomainType) (L : lib R) (O : oracle L)
    (solve : nat -> seq constraint -> seq nat -> res (nat -> bool)), exact_solver solve ->
  forall (sample : addr -> option (goal L) -> seq (P L) -> seq (atom L) -> res (seq (asg R) * seq (P L)))
    fuel partial k eps top s, (size (hyps s) <= 1)%N ->
  forall r s', check O solve sample fuel partial k eps None top s = Ok (r, s') ->
  r = [::] /\ exists w top' ds t,
    sample w (if partial then Some (dgoal s) else None) top' (hyps s) = Ok (ds, t) /\
    forall d, List.In d ds -> eval_goal (dgoal s) d = Ok true.
Proof. exact: check_one. Qed.
Print Assumptions C71_one_hypothesis.

(** x1 > 0, x0 >= x1 |- x0 > -1 is valid and needs both. *)
Theorem C71_refuted :
  exists s : decide qlib, (forall (K : rcfType) e, sequent_true (@qval K) s e) /\ run 2 5 s = Err IndexError.
Proof. exact: (ex_intro _ s71 (conj ex71_valid ex71)). Qed.
Print Assumptions C71_refuted.
