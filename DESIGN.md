# Formal model of Real-Algebraic-Geometry-Playground: design

This file is written before the proofs and kept current.  It says, for each
property of `properties.jsonl`, what is modelled and how it is proved (or why
it cannot be), and lists the trusted base.

## Trusted base

* Coq 8.16.1's kernel (and `coqc`, used through `coq_makefile`).
* The installed libraries Coq stdlib and mathcomp (ssreflect, algebra, field,
  real_closed, zify/ssrZ), all of them compiled and kernel-checked.  No axiom
  of ours; `Print Assumptions` is issued under every property theorem.
* `Print Assumptions` prints "Closed under the global context" for every
  property theorem: no axiom at all is used, not even a standard-library one.
  (`coqchk` on the whole development lists fields of mathcomp's sealed modules,
  such as `BigOp.bigop`, `FinfunDef.finfun`, `ssreflect.under_rel`, as
  "axioms"; these are opaque signature entries that have implementations and
  do not occur in any `Print Assumptions` output.)
* The reading of the Python source: each definition cites file and lines.
* External calls, modelled as section variables with an explicit
  specification (so they become universally quantified hypotheses):
  `z3rcf.MkRoots`, `sympy.Matrix.inv`, the sympy algebra wrapper, the MILP
  solver, random numbers, Groebner reduction, the operating system.

"Real numbers" means: an arbitrary real closed field `R : rcfType`
(mathcomp), so every theorem holds for the classical reals, for the real
algebraic numbers (`realalg`, a concrete instance in mathcomp) and for z3's
infinitesimal extensions.  "Complex numbers" means an arbitrary algebraically
closed field of characteristic 0.

## Conventions of the model

* Python exceptions are values: functions return `Ok v` or `Err e`.
* Unbounded recursion is recursion on explicit fuel with a distinguished
  `OutOfFuel` error, and theorems state that it does not happen.
* Coefficients: an arbitrary real domain `D` (Python ints: `D := Z`), points:
  an ordered field `R` together with the embedding of `D`.
* Python 2 semantics (`map`/`filter` eager, integer `/`, mixed-type
  comparison) is what is modelled.

## Contracts assumed of external code (hypotheses of the theorems)

* `MkRoots p` (z3rcf), for `p` with a non-zero last coefficient: returns the
  distinct real roots of `p` (`MkRoots_contract`).
* `Matrix.inv` (sympy): a left inverse of an invertible matrix
  (`inv_contract`).
* `str` of a coefficient is injective (uni_vts.py 553, hashable polynomials).
* isym: `as_ordered_terms`/`leadterm` on the expansion of an expression in one
  symbol give its non-zero terms in descending order, and the single term 0
  for zero (`ordered_terms` of IsymSpec); `NOther` stands for coefficients
  that are neither integers nor rationals.
* checker: a sympy relation constructor returns the relation, or a truth value
  equivalent to it (`mk_contract`, `mk_term_contract`); unary minus negates
  the value; rewriting of terms keeps values and brings in no variable
  (`keeps_value`); a set is iterated in any order (`set_contract`).
* grf_parser: pyparsing's documented matching rules (ordered choice, white
  space skipping, `Keyword`, `Combine`, `QuotedString`, `scanString`), and
  `sympy.var` binding the name in the globals of its caller.
* muchnik, the algebra wrapper (`algebra_contract` of MuchSpec): its elements
  denote polynomials in the eliminated variable over a domain of parameter
  expressions; different objects may denote the same polynomial (sympy: not
  multiplied out), but only one denotes 0, and degree-many derivatives of p
  give the same object as LC(p) times the factorial (`den_last`; the code looks
  it up; false for some unexpanded input, see C90); leading coefficient and term,
  degree, tail, derivative and pseudo-remainder are the mathematical ones, and
  `div(p, x)[0] == 0` holds for constants.  Signs of scalars are right at the
  parameter value considered (`sign_ok`), and for the complex procedures
  non-zero scalars do not vanish there (`scalars_ok`).  A set is iterated in any order.
  MuchInst has an instance (Z[y][x]) that meets the contract and runs.
* muchnik, floats (`MuchFloat*.v`): columns are the binary64 numbers of
  SpecFloat (the IEEE 754 specification in Coq's standard library, definitions
  only), rounded to nearest, ties to even.  The model of C28-C35 has exact columns.
* cohenhorm: the same algebra; a sortedset has the elements it was given, none
  twice, in order of decreasing degree, ties in any order (`degree_sets`); the
  sign of a scalar is -1, 0 or 1, and 0 for zero only, and a constant is the
  same object as its leading coefficient (`scalars_exact`);
  parameter expressions have characteristic 0.
  Columns are exact Fractions in the code too.  The dictionaries `mapping`,
  which expand_context shares and mutates, live on a heap; other dictionaries
  are values.
* cachedsympywrapper: the methods of the wrapped SympyWrapper depend on nothing
  but their arguments.
* grf.sage, polynomials (`lib_ok`, `cad_ok` of GrfSpec and GrfCadFacts): a
  value at every point, which depends on the listed variables only; a fully
  substituted polynomial compares with 0 as its value; a basis vanishes where
  its generators do and is not empty; `reduce` keeps the value there.
  Coercions between rings are the identity.
* grf.sage, several variables (`lin_ok`, `degree_ok` of GrfLin): a polynomial is
  the sum of its coefficients times powers of the variable; coefficients,
  resultants and discriminants do not have the eliminated variable nor new ones;
  a leading coefficient that is constant or a single term is not 0; the resultant
  of two linear polynomials is the determinant of their coefficients up to sign;
  substitution keeps values and degrees and removes the substituted variables;
  `roots` finds the root of a linear polynomial; no isolating interval without a
  root; the degree in a variable is at most the total degree; projections of
  polynomials of total degree 1 have total degree at most 1.  GrfLinInst has a
  library that meets them.
* grf.sage, no exceptions (`total_ok` of GrfOut): `univariate_polynomial` of a
  polynomial in one variable returns; a polynomial with every variable replaced is
  a constant; reduction and Groebner bases stay in the ring; `random.choice`
  picks an element of a nonempty list; fsolve, if it returns, returns a vector of
  the size of the start vector.  fsolve may raise anything (`fsolve_raises`).
  GrfOutEx shows that the library of GrfLinInst meets them.
* grf.sage, texts (GrfPrint): `join` of grf.sage is `string.join`; `str` of a
  polynomial contains no line break, and different polynomials have different
  texts (both are hypotheses of C106, met by `nstr` of GrfPrintFacts).
* grf.sage, the line (`line_ok`, `isolated` of GrfLine): rational roots are
  roots; the intervals of the product of the polynomials without rational
  roots isolate its roots; floor, ceil and uniform are in range.  `prod != 1`
  is read as "there is a factor".  Numbers are exact (floats are not rounded).
* grf.sage, the 0/1 solver (`exact_solver`): a cheapest solution, or
  `MIPSolverException` when there is none.  `random` and `fsolve` are arbitrary
  functions of the place of the call; `fsolve` may raise.
  GrfInst and GrfEx have a library, random source and solver that meet these
  contracts and run.
* smt2.py, test.py: `h in hyps_to_hide` compares identities (the class defines
  no `__eq__`); the environment of the harness is an arbitrary function of the
  iteration and the job.  Counters are natural numbers: they are decreased
  only when positive.
* `ParseSMT`: the arithmetic of the parse actions is a record (`arith`) with
  the contract `arith_ok`; parse actions run in abandoned attempts, so failures
  carry the state; `ZeroOrMore` takes an `IndexError` of a parse action for a
  failure.  Not modelled: octal reading of leading zeros, tabs in names, the
  list `polys`.
* File system (cache model): `open(name, 'wb')` creates or truncates the file,
  `pickle.dump` then completes it in one step, and unpickling an incomplete
  file raises `EOFError`.
* Several goals on one RCF_GD_Decide object (GrfAgain.v): the object keeps its
  hypotheses, the goal, and the polynomials installed in `q`; `VarOrder.order` is
  global and kept, too.  `check_q` repeats `check` of GrfModel.v with the installed
  polynomials as an additional result (`check_qE` proves that it is the same).  A
  session ends with the first exception.  `status` and `witness` are only ever reset
  and are left out.
* Atoms as objects (GrfHeap.v): a heap maps references to atoms, and
  `quotient_ring_inject`, `add_goal_hyp`, `promote_right`, the dialogue and `check` are
  repeated on references.  `C109_same` proves that the model with values (GrfModel.v)
  is right as long as no atom object occurs twice in a sequent.
* Sessions that go on after exceptions (GrfRepl.v): `left_by` relates the state
  before a check that raises to the states in which it may leave the object.  Between
  the statements that change the object (installing and filtering the polynomials,
  setting `VarOrder.order`, taking a hypothesis out of the list, adding it to the goal)
  the exception may come anywhere; `C110_total` proves that the relation covers every
  exception.  The other attributes of the CAD object (lower projection sets, sample
  points, projection order) are overwritten by the next check before they are read.
  Exceptions raised by printing and KeyboardInterrupt are not modelled.
* Files with several sequents (SmtFile.v): the state between sequents is the CAD
  object `self.QEF` (number of variables, installed polynomials) and the class
  attribute `VarOrder.order`.  The polynomials are dropped when the ring is extended
  (`get_ring_var` makes a new `QE_Factory`) and kept otherwise.  After an extension
  `VarOrder.order` may hold generators of the older ring; the model identifies
  generators by number.  If Sage does not, the program raises a further exception,
  and the theorem about returned results is not affected.
* Several processes (CachePar.v): `isfile`, loading, `open(name, 'wb')` and
  `pickle.dump` are single steps that can be interleaved in any order; nobody
  deletes files; a process that died is one that is not scheduled any more.  (A
  reader during a dump that takes several writes could also see another unpickling
  error than EOFError.)
* `os.walk`, `os.makedirs`, `open` act on a tree of directories (`FileSys.v`),
  with any convention about which names are the same; no links, permissions or
  full disks.  `pickle.dump` to an open file happens in one step, and loading
  returns what was dumped; an empty file raises EOFError.
* For C89: automatic simplification and `expand` keep the polynomial of a term
  and bring in no variable; the relation of an expanded constant with zero is
  evaluated; the deciders see the polynomial of an expression.

## Findings (code violates the intended property)

* C03: `tarski_query(p, q)` with a non-zero `q` that has trailing zero
  coefficients returns a wrong count (`C03_trailing_zero_refuted`).
* C14: `internal_ts` does not decide anything: `evaluate` discards the value it
  computes, so the answer is True exactly when `le`, `lt` and `eq` are all
  empty (`C14_internal_ts_behaviour`, `C14_internal_ts_refuted`).
* C16: a process that dies between creating and completing a cache file makes
  every later call for that matrix fail (`C16_lost_matrix_refuted`), or, when
  it dies during the import, every later import (`C16_lost_module_refuted`).
* C18: a symbolic zero converts to `[0]`; only the Python int 0 converts to `[]`
  as documented (`C18_zero`, `C18_symbolic_zero_refuted`).
* C22: a succedent that contains `False` raises `KeyError` in `vts_preformat`,
  unless the antecedent has only `True` (`C22_vts_preformat_raises`).
* C23: the conjunctions returned by `vts_preformat` refute "antecedent implies
  all of the succedent" (C22).  Under the disjunctive reading of a sequent
  this is wrong for two or more formulas (`C23_disjunction_refuted`).
* C25: the summary at the end of `check_examples` refers to the builtin `file`
  and raises `TypeError` whenever some formula is not valid
  (`C25_check_examples_refuted`).
* C27: a variable named `sympy` overwrites the parser's own global; the next
  parse action raises `AttributeError` (`C27_round_trip_refuted`).
* C30: with parameters the printed "Satisfiable" can be wrong: related
  parameter expressions get independent signs (`C30_verdict_refuted`: x = 0,
  y > 0, -y > 0).  "Unsatisfiabl" is always right.
* C31: on problems without parameters the returned list is empty, hence reads
  as false, even when they are satisfiable (`C31_closed_result_refuted`).
* C78: the columns are floats.  With 53 polynomials a new column can round to
  an existing one and overwrite it: -x+1, ..., -x+51 negative, -x+52 zero and
  -x+53 positive is reported unsatisfiable, although x = 52 satisfies it
  (`C78_float_columns_refuted`).  Up to 52 non-constant polynomials nothing is
  lost (`C78_float_columns_exact`, `C78_float_decides`).
* C61: the same as C30 for `complex_full` (`C61_complex_verdict_refuted`:
  x = 0, y = 0, -y <> 0).
* C63: the default `assigner` of `real_partial` and `complex_partial` is the
  plain function of the method, not bound to an object; calling it with one
  argument raises `TypeError` on every input (`C63_default_assigner`).
  `real_partial` lets `DiagramExc` escape when the fixed signs fit no
  parameter value (`C63_run_real_refuted`: x, x - 1, x^2 + y).
* C36: Python ints and equal sympy Integers are one key of the cache, but the
  wrapped methods treat them differently (`C36_keys_refuted`).
* C64: `timer` raises `TypeError` for every function of three or more
  arguments (`C64_timer_many_refuted`).
* C38: `real_full` of cohenhorm takes the leading coefficient of the polynomial
  of largest degree for non-zero when it has parameters.  y x = 0 loses y = 0
  (`C38_lost_refuted`).  x < 0, y x^2 + 1 = 0, y = 0 is accepted at y = 0,
  where it has no solution (`C38_invented_refuted`).  y x^2 = 0 raises "no key"
  (`C38_raise_refuted`).  The empty problem, and 0 = 0 with 5 > 0, are
  reported as false (`C38_empty_refuted`, `C38_zero_refuted`).  When the
  polynomials of largest degree have scalar leading coefficients the result is
  right (`C38_real_full_accepted`); without parameters it always is, unless
  the list is empty or has a zero polynomial (`C37_real_full_closed`).

* C43: `quotient_ring_inject` rewrites the polynomial of an atom but not its
  `vars`.  With x0 < 0 and x0 = x1 promoted the goal x1 > 0 is True on
  {x0: -5} and false at (-5, -5) (`C43_refuted`).
* C44: promoted equations reduce each other and get weaker (`C44_refuted`).
  So "Counterexample!" is raised for a valid sequent (`C46_refuted`).
* C45: irrational roots of a polynomial that also has rational roots are
  ignored (`C45_mixed_refuted`); rational roots inside isolating intervals
  break the order of the sectors (`C45_overlap_refuted`).  Hence
  |- x0^4 - 2 x0^2 <= 0 is accepted (`C67_refuted`).
* C48: bad subsets are not an antichain (`C48_refuted`).
* C51, C71: the empty bad subset is never recorded, so that with one
  hypothesis left a falsified goal always ends in `IndexError`: the automatic
  mode cannot use all the hypotheses (`C71_last_hypothesis`, `C71_refuted`,
  `C51_refuted`).
* C56: the order of `VarOrder` is a class attribute set once (`C56_refuted`).
* C57: the neighbours of the start point are not filtered (`C57_refuted`); the
  `return` is inside the loop over the ten rounds, so one round is made.
* C68: `partial=False`, the default of `check`, raises `AttributeError` with two
  or more variables (`C68_needs_goal`).
* C66: `k` and `epsilon` are not used; `base_phase` ignores `num_sps`.

* C79: the local search picks disequations for falsification, but only flips
  the sign, so they stay true; a weak inequality that holds with equality goes
  to a random side (`C79_refuted`).
* C80: the weight 10000 of unrelated hypotheses is not an upper bound of the
  others (`C80_refuted`).
* C83: the default sample point for x0 <> 0 is 0 (`C83_refuted`).

* C86: example files are kept under their bare names, so files of the same name
  in different directories overwrite each other (`C86_same_name_refuted`).
* C87: the pickles are written to `Examples/Metitarski` and looked for in
  `Examples/MetiTarski`; on Linux the MetiTarski examples are silently never
  loaded, nor checked (`C87_loaded_refuted`, `C89_checker_unchanged`).  Pickles
  of earlier runs stay (`C87_only_current_refuted`).
* C88: a crash while dumping leaves a file that cannot be loaded
  (`C88_loadable_refuted`); running again repairs it.
* C89: one relation without variables anywhere in the files aborts the whole
  conversion with AttributeError; a sequent with a trivially true side raises
  instead of being reported.

* C90: on y*(x*y + x), not multiplied out, muchnik raises `KeyError` and
  cohenhorm `context lookup` (`C90_refuted`, `C90_cohen_refuted`; the instance
  of MuchForm.v keeps products n*y^k*(sum) as sympy does).
* The unit tests of vts and cohenhorm are replayed on the model (`VtsTests.v`,
  `OtherTests.v`).  The second expectation of `test_convert_rationals_to_ints`
  in test_isym.py does not hold: the code raises the exception for
  coefficients that are not rational.

* C92: printing the descriptor of a polynomial with one root raises
  `ValueError` (`C92_single_root_refuted`).  The only use is in the message of
  an exception that C11 shows is not raised.

* C94: `pprint_clause` raises `TypeError` on a clause without atoms, because it
  calls `reduce` without a start value.  `real_full` drops such clauses before
  printing (which is the reason for C31), so the error does not show.

* C95, C96: the grammar of a `ParseSMT` holds on to `perform_grf` of the context
  it was built with.  `processCommands(s, context=c)` and `clearContext` change
  `self.context` only: the formulas of `s` go to one context and the filter runs
  on the other, with the problem read before (or none, which is reported as a
  syntax error).  After an exception `self.context` is not restored.

* C97: `softzero_sample` divides by the sum of `exp(-|f|)`, which is 0.0 as soon
  as every `|f|` is above about 745.  `choose_atom_softzero` on a problem without
  hypotheses raises IndexError: the index of an empty list is taken to be 0.
* C98: `get_num_falsifying_func` reads `ineq_eps`, which is defined nowhere.
  Nothing calls it.

* C100: the tables that `real_full` of cohenhorm.py prints include ones for
  contexts that hold nowhere: signs of related coefficients (`4*y` and `y`) are
  chosen independently, as in C30.

* C101: `real_full` of `cohenhorm - Copy.py` always raises the exception `iter`,
  since it starts `_real_table` with `iter = -1`.
* C103: `_real_table` of `cohenhorm - Copy.py` looks remainders up in the table
  that is being extended, so it raises KeyError for `x^3 - x`; its tables lack the
  rows of polynomials whose leading coefficient vanishes under the context; a
  single parameter without a sign in the context raises "might reach this".

* C104: `|- x1^4 + x1^2 - x0^6 x1^2 >= 0` is accepted, although it is false at
  (2, 1): eliminating x1 leaves a vanishing discriminant, which is dropped like any
  constant, so that x0 is sampled at 0 only.  The comment before
  `sample_pt_dicts`, that the points suffice for strict inequalities, assumes
  square-free polynomials, which nothing ensures.
* C104: the linear sequent `x0 < 0, x0 = x1, x0 < 5 |- x0 > 3` is accepted,
  although it is false at (-1, -1): once the equation is promoted, `x0 < 0` becomes
  `x1 < 0` with the variables of `x0 < 0`, is compared with 0 as a polynomial and
  prunes every stack.

* C105: the valid linear sequent `x0 > 0, x1 > 0 |- x0 + x1 > 0` ends in an
  IndexError: at a sample point where the goal and both hypotheses are false the
  set of bad hypotheses is empty, so there is nothing to promote (see also C71).
  More generally `C105_needs_all_rejected`: no valid linear sequent without
  equations that needs all its hypotheses is ever accepted automatically.

* C106: `quotient_ring_inject` changes atoms in place.  After an equation is
  promoted the goal hypotheses promoted before are printed reduced, so that
  Final hypotheses to use lists atoms that the user never asserted (`[x1 < 0]` for
  `x0 < 0, x0 - x1 = 0, x0 - 5 < 0 |- x0 - 3 > 0`).  With more than 100000
  hypotheses the goal is no longer aligned with them.

* C107: two processes that import `matrix_of_signs` at the same time in a new
  directory: the second finds the file that the first has only opened and its import
  raises EOFError, although no process dies.  The same can happen in every call.

* C108: an RCF_GD_Decide object cannot be used for a second goal: the hypotheses
  promoted for the first goal are lost when the next goal is asserted.  Even the goal
  that was just accepted is rejected with Counterexample.  (Besides, `status` is
  never set by `check`, and tests such as `test_4d_1` construct `RCF_Decide`, a class
  that is not defined.)

* C109: a check changes the atoms of its caller.  After
  `x0 > 2, x0 = x1, x0 < 5 |- x1 > 1` has been accepted, the atom `x0 > 2` is
  `x1 > 2` (with the variables of `x0 > 2`), and the false sequent
  `x0 > 2, x0 < 5 |- x1 > 1` made of the same atoms is accepted by a new object.

* C110: a check that raises has already moved hypotheses into the goal; asserting
  the next goal drops them.  With `x0 > 2, x0 < 5 |- x0 > 0`, promoting `x0 < 5` by
  hand and leaving with end-of-file, the valid goal `x0 < 6` is then rejected.

* C111: the result for a sequent depends on the sequents before it in the file.
  `x > 2, x < -2 |- x > 0` raises an exception (IndexError in `check`) when alone,
  and gets a result after `x > -2, x < 5 |- x > -3`, whose polynomials are still
  installed and lead to more sample points.
  Conversely `x > -2, x < 5 |- x > -3` followed by `y > 2, y < 5 |- y > 0` ends with
  an exception although each gets a result in a file of its own: `VarOrder.order`
  (local_search.py 43-49) is set by the first local search and never reset, so the
  local search of the second sequent works in the variable of the first one
  (`math.copysign` of a polynomial that is not a number).

* C52: with several succedent formulas `perform_grf` reports antecedent indices
  that do not exist in the input (`C52_refuted`).
* C53: a sequent that is not valid comes back as if reduced (`C53_refuted`);
  an automatic run never keeps all formulas (`C53_hides_some`).
* C55: in hiding problems `2` and `-2.5` are variables, `~2` is a syntax error
  (`C55_refuted`, `C55_undotted`, `C55_minus`, `C55_tilde`).
* C75: only the result of the last sequent of a file survives; a file without
  sequents ends in a `TypeError`; the `IndexError` of an empty succedent is
  swallowed by pyparsing and becomes a `ParseException`.
* C72: the experiment counts hidden succedent formulas twice (`C72_refuted`).
* C58, C59: with no cores the harness loops for ever (`C58_no_cores`); a crashed
  job ends the whole experiment with `KeyError` (`C59_refuted`, `C59_aborts`).
  The header of the CSV file names four columns, the lines have five.

## Mutation testing

`seeded/LOG.jsonl` has one line per deliberate wrong edit of a model
definition: the edit, the claim it should break, the property theorems,
lemmas and examples whose proof no longer goes through.  A mutant counts as
caught when the proof of a property theorem or an example fails.  A failing
example (`differs_on_example`) shows that the mutant computes something else;
where only proofs fail, the log does not by itself show that the theorem is
false of the mutant, since a proof script can also break on an equivalent
program.

## Plan per property

| id | model | proof |
|----|-------|-------|
| C01,C02 | all of `internal_vts` and everything it calls, function by function | soundness of each sub-function; leftmost end-point argument; Thom's lemma for termination and uniqueness |
| C03,C04 | `tarski_query`, `signed_remainder_cauchy_index` | relation to `mods`/`cindexR` of `real_closed.qe_rcf_th` |
| C05,C06 | `signed_pseudo_remainder`, `signed_remainder_sequence` | induction on length; existential quotient |
| C07,C08 | `multiply`, `derivative`, `evaluate_poly`, `make_product_list` | denotation into `{poly R}` |
| C09 | `TensorProduct`, matrix as list of rows, `.inv()` oracle specified as left inverse | entries of the Kronecker power by induction |
| C10 | `get_discri_der_signs`, `DiscDerSigns` | Thom's lemma |
| C11,C12 | `evaluate_single_on_sign_assignment`, `e_close_...` | from C09,C10; Taylor sign to the right |
| C91,C92 | `get_sign_by_direct_calc`; `DiscDerSigns` with all fields and the keys of `__repr__` (`VtsDirect.v`) | from C10; simulation of the smaller record, invariant of the lists |
| C13 | `sign_conditions_lookup` | list induction |
| C14 | `internal_ts`, `evaluate` (live definitions) | refuted, exact behaviour proved |
| C15,C16 | memory + disk cache as a state machine with restarts/crashes | invariant; refutation for crashes |
| C17-C20 | `convert*`, `vts` of isym on sympy terms modelled as sparse rational polynomials | positive lcm scaling |
| C21-C26 | checker relations over an abstract polynomial term language | truth-value equivalences |
| C27 | scannerless pyparsing-style parser over strings | round trip |
| C86-C89 | file system as a tree (`FileSys.v`), `examples_parser.py` and the loop of the checker over it | path lemmas with a frame rule, state after every number of operations, composition with C25-C27 |
| C28-C35, C60-C63 | `Muchniker` over an abstract algebra API record plus a concrete instance | invariants of diagrams over any real closed / algebraically closed field |
| C93,C94 | interactive assigners with the input as a list of lines (`MuchInter.v`); printed clauses and tables as strings, with `str` a parameter (`MuchPrint.v`) | induction on the constants, corollaries of C33 and C62; induction on the text |
| C90 | expressions as expanded polynomials plus other forms (`MuchForm.v`) | corollary of C28, C29 under the weaker contract; runs on two instances |
| C78 | the real procedures of `Muchniker` over any type of columns, with exact and float columns | simulation while no column needs more than 52 bits; concrete run of 53 steps |
| C36, C64 | memo table keyed by (method, args), programs as trees of calls; `timer` | invariant over histories |
| C37-C40, C65 | `CohenHormander` | faithful tables, kept by every function; induction on the largest degree and the number of polynomials that have it; refutations |
| C100 | the printing part of `real_full` and `pprint_diagram` of cohenhorm.py (`CohenPrint.v`); the order of the rows and `str` are parameters | from the tables of C38, induction on the text |
| C101-C103 | `cohenhorm - Copy.py`: `real_full`, `foo`, `_real_table`, `table_map_back`, `get_initial_table`, `sign_context_lookup` (`CohenOld.v`); `expand_context`, `copy_table` and `table_lookup` are those of cohenhorm.py; float columns are exact | C102: induction on the depth and on degrees; C103: induction on `iter`, comparing the loops with those of cohenhorm.py |
| C104 | `QE_Factory`: projection, base phase and lifting in several variables, with `check` | transfer of positions between families of lines with the same signs of coefficients and determinants; induction on levels, with the pruned stacks; concrete runs |
| C105 | `check` in automatic mode with `sample_pt_dicts`: exceptions and verdicts | exceptions followed through every call, under contracts that the library does not raise; combined with C104 |
| C106 | `__str__` of RCF_Atom, RCF_Goal, RCF_GD_Decide; the final hypotheses printed by `check` | strings of Coq's library; the specification reads the text back |
| C107 | `matrix_of_signs`, all functions, as programs of single directory operations | small steps under any schedule; equal to the model of C15 when alone |
| C108 | `assert_hyps`, `assert_goal`, `check` on one object, in any sequence | objects with hypotheses, goal, installed polynomials; sessions are lists of calls |
| C109 | the functions that change atoms, and `check`, on a heap of atoms | simulation of the model with values; frame lemmas |
| C110 | sessions on one object in which checks raise exceptions | relation between the states before and after a raising check; invariant of C108 |
| C111 | files with several sequents and variables | invariant on the polynomials kept between sequents; reading of C75/C76; soundness of C104 |
| C41-C44, C46-C51, C66, C71 | `RCF_Atom`, `RCF_Goal`, `RCF_GD_Decide` with both modes of `check`, over any polynomial library | truth at points; invariants of the folds and of the recursion; concrete runs |
| C79-C85 | choices: flipped atom, weights, candidates, dialogue, default sample, projection set, variable order | case analysis, stable sorting, induction on the input and the recursion |
| C45, C67-C70 | `QE_Factory`: filtering, projection order, projection, base phase, lifting, sample dictionaries | signs between consecutive roots; induction on levels; concrete runs |
| C52-C54, C72 | `get_ring_var`, `perform_grf`, `grf_on_file` | list induction, concrete runs |
| C97-C99 | `softzero_sample`, `choose_atom_softzero`, the functions for the solver, `k_sample_points_in_ball` (`GrfSample*.v`); numbers are exact, `exp` is a parameter | sums and intervals; C79 for the signs |
| C95,C96 | `ParseSMT` with several contexts in a store, `processCommands`, `clearContext` (`SmtSession*.v`); `perform_grf` is any function on a context | induction on the commands, simulation of `SmtParse.v` |
| C55, C73-C77 | `ParseSMT`, `grf_on_file` of smt2.py (`SmtParse*.v`) | texts as inductive relations, parser correctness by induction, refutations |
| C56-C57 | `VarOrder`, `local_search_sampling` | histories |
| C58-C59 | main loop of test.py in an arbitrary environment (clock, exits, results) | invariant, measure, concrete runs |

Not modelled: printing (except C92, C94, C100, C106 and where the printed verdict is the
only observable), prompts and progress output, pickling formats, HTML/CSV output, z3/sympy/sage internals.
