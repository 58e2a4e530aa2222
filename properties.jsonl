{"id": "C01", "title": "internal_vts decides univariate satisfiability", "statement": "If internal_vts(le, lt, eq, ne) returns a boolean on coefficient lists of non-zero polynomials, the boolean is True exactly when some real x makes every le polynomial <= 0, every lt polynomial < 0, every eq polynomial = 0 and every ne polynomial != 0.", "quantifier": "all finite lists of integer (or real) polynomials of any degree, all real x", "why_tests_cant": "Infinitely many polynomial systems and an existential over the reals; a test compares one system with one known answer.", "anchors": ["vts/uni_vts.py:internal_vts", "vts/uni_vts.py:evaluate_on_sign_assignment", "vts/uni_vts.py:e_close_evaluate_on_sign_assignment"]}
{"id": "C02", "title": "internal_vts fails only by the documented polynomial limit", "statement": "On non-zero polynomials internal_vts always terminates, and the only exception it can raise is 'more than 5 polies'; the internal consistency exceptions (multiple possible signs, count neither 0 nor 1, no entry with count 1, duplicate polynomial, division by zero polynomial) and run-away recursion never happen.", "quantifier": "all finite lists of non-zero polynomials", "why_tests_cant": "Absence of a failure over an infinite input space; the consistency checks depend on Thom's lemma and Sturm-Tarski.", "anchors": ["vts/uni_vts.py:pick_sign_of_goal", "vts/uni_vts.py:get_discri_der_signs", "vts/uni_vts.py:DiscDerSigns", "vts/matrix_of_signs.py:new_get_matrix_inverse"]}
{"id": "C03", "title": "tarski_query counts signed roots", "statement": "tarski_query(p, q) equals the number of distinct real roots of p where q > 0 minus the number of distinct real roots of p where q < 0. This needs q to have a non-zero last coefficient or to be zero; for a non-zero q with trailing zero coefficients the code violates it.", "quantifier": "all non-zero p and all q of any degree, repeated and common roots included", "why_tests_cant": "The identity is Sturm-Tarski's theorem; tests in the repo disable even the direct-evaluation cross-check.", "anchors": ["vts/uni_vts.py:tarski_query"]}
{"id": "C04", "title": "signed_remainder_cauchy_index is the Cauchy index", "statement": "signed_remainder_cauchy_index(p, q) equals the Cauchy index of q/p over the whole real line (sum over the real poles of the jump from -infinity to +infinity counted +1, the opposite -1).", "quantifier": "all polynomials p, q with p non-zero", "why_tests_cant": "Infinite input space; correctness rests on invariance of sign variations along the remainder sequence.", "anchors": ["vts/uni_vts.py:signed_remainder_cauchy_index"]}
{"id": "C05", "title": "signed_pseudo_remainder is a sign-preserving remainder", "statement": "For g with non-zero leading coefficient, signed_pseudo_remainder(f, g) returns r with length smaller than g's, no trailing zero coefficient, and there are a constant m > 0 and a polynomial s with m*f = s*g + r.", "quantifier": "all coefficient lists f, all g whose last entry is non-zero", "why_tests_cant": "Requires an existential quotient and a positive multiplier for every pair of polynomials.", "anchors": ["vts/uni_vts.py:signed_pseudo_remainder"]}
{"id": "C06", "title": "signed_remainder_sequence is a terminating signed remainder sequence", "statement": "signed_remainder_sequence(p, q) terminates for every p and every q with non-zero leading coefficient; it starts with p, q, every further element is a negative multiple of the pseudo-remainder of the two before it, and the last element divides all of them.", "quantifier": "all p, all q with non-zero leading coefficient", "why_tests_cant": "Termination and a property of every position of an unbounded sequence.", "anchors": ["vts/uni_vts.py:signed_remainder_sequence"]}
{"id": "C07", "title": "coefficient-list arithmetic is polynomial arithmetic", "statement": "multiply, derivative and evaluate_poly on coefficient lists denote product, derivative and evaluation of polynomials, including empty lists and lists with trailing zeros.", "quantifier": "all coefficient lists, all points", "why_tests_cant": "Infinite input space, three nested loops with early exits.", "anchors": ["vts/uni_vts.py:multiply", "vts/uni_vts.py:derivative", "vts/uni_vts.py:evaluate_poly"]}
{"id": "C08", "title": "make_product_list enumerates all power products in lexicographic order", "statement": "make_product_list([p1..pn]) has exactly 3^n entries and the entry whose base-3 digits are e1..en denotes p1^e1*...*pn^en.", "quantifier": "all lists of polynomials of any length", "why_tests_cant": "Unbounded n.", "anchors": ["vts/uni_vts.py:make_product_list"]}
{"id": "C09", "title": "inverse matrix times Tarski queries counts roots per sign vector", "statement": "For polynomials q1..qn and non-zero p, the product of the inverse of get_matrix(n) with the column of Tarski queries of make_product_list(q1..qn) is the vector whose entry at base-3 position (d1..dn) is the number of distinct real roots of p where each q_i has the sign coded by d_i (0->0, 1->+, 2->-).", "quantifier": "all n, all p, all q1..qn", "why_tests_cant": "Quantifies over n, over polynomials and over all 3^n sign vectors; ordering mistakes between rows and columns only show for asymmetric inputs.", "anchors": ["vts/uni_vts.py:evaluate_single_on_sign_assignment", "vts/matrix_of_signs.py:new_get_matrix", "vts/matrix_of_signs.py:new_get_matrix_inverse"]}
{"id": "C10", "title": "get_discri_der_signs separates the roots", "statement": "For the list of distinct real roots of a non-zero polynomial, get_discri_der_signs terminates and returns one descriptor per root; every recorded derivative sign is the true sign of that derivative at that root, and no other root of the polynomial has all the recorded signs.", "quantifier": "all non-zero polynomials of any degree and their real roots", "why_tests_cant": "Termination and uniqueness are Thom's lemma.", "anchors": ["vts/uni_vts.py:get_discri_der_signs", "vts/uni_vts.py:DiscDerSigns"]}
{"id": "C11", "title": "evaluate_single_on_sign_assignment returns the true sign", "statement": "For a root descriptor d produced for polynomial p and any polynomial g, evaluate_single_on_sign_assignment(d, g) returns the sign of g at that root, or raises 'more than 5 polies'.", "quantifier": "all p, all its root descriptors, all g", "why_tests_cant": "Sign of an algebraic number expression for every polynomial.", "anchors": ["vts/uni_vts.py:evaluate_single_on_sign_assignment", "vts/uni_vts.py:pick_sign_of_goal"]}
{"id": "C12", "title": "e_close evaluation is the sign just to the right of the root", "statement": "For a root descriptor of root r and any polynomial g, e_close_evaluate_single_on_sign_assignment returns the sign g has on some interval (r, r+delta), delta > 0, or raises 'more than 5 polies'.", "quantifier": "all root descriptors, all g", "why_tests_cant": "A limit statement over the reals.", "anchors": ["vts/uni_vts.py:e_close_evaluate_single_on_sign_assignment"]}
{"id": "C13", "title": "sign_conditions_lookup is the conjunction of the listed conditions", "statement": "sign_conditions_lookup maps each polynomial to exactly the signs allowed by all the lists that contain it, also when a polynomial is listed several times or in several lists.", "quantifier": "all four lists, with arbitrary overlap", "why_tests_cant": "All overlap patterns of four lists.", "anchors": ["vts/uni_vts.py:sign_conditions_lookup"]}
{"id": "C14", "title": "internal_ts decides univariate satisfiability", "statement": "Intended: internal_ts(le, lt, eq, ne) returns True exactly when some real x satisfies all four lists. The code violates this: evaluate() discards the computed value and tests the builtin sum; the exact behaviour of the code is characterised instead, with a counterexample.", "quantifier": "all finite lists of polynomials", "why_tests_cant": "Equivalence with an existential over the reals.", "anchors": ["vts/uni_vts.py:internal_ts", "vts/uni_vts.py:evaluate"]}
{"id": "C15", "title": "sign matrices are independent of cache history", "statement": "After any sequence of get_matrix / get_matrix_inverse calls and process restarts sharing the cache directory, a call with 1 <= n <= 5 returns the n-fold Kronecker power of the 3x3 sign matrix (respectively its inverse), and a call with n < 1 or n > 5 raises and leaves the caches unchanged.", "quantifier": "all call histories and restarts", "why_tests_cant": "Unbounded histories over memory and disk state.", "anchors": ["vts/matrix_of_signs.py:new_get_matrix", "vts/matrix_of_signs.py:new_get_matrix_inverse"]}
{"id": "C16", "title": "the matrix cache survives a crash while writing", "statement": "Intended: if the process dies at any point of a call, a later process still obtains the right matrix. The code violates this: the cache file is created before it is written and its mere existence counts as a hit. What holds: after any history with crashes, a matrix that is returned is never wrong; and there are crash points after which every later call, or every later import of the module, fails.", "quantifier": "all crash points of all calls", "why_tests_cant": "Crash points are not exercised by tests.", "anchors": ["vts/matrix_of_signs.py:write_to_cache", "vts/matrix_of_signs.py:cache_hit", "vts/matrix_of_signs.py:read_cache"]}
{"id": "C17", "title": "isym.convert scales by a positive constant", "statement": "For a univariate polynomial with rational coefficients, convert returns integer coefficients of a positive multiple of it, in ascending order, with degree+1 entries and non-zero last entry; hence sign and roots are preserved at every real point.", "quantifier": "all rational univariate polynomials, all real points", "why_tests_cant": "Infinite inputs and points.", "anchors": ["vts/isym.py:convert", "vts/isym.py:convert_rationals_to_ints"]}
{"id": "C18", "title": "isym.convert maps zero to the empty list", "statement": "Intended (docstring): convert of the zero polynomial is []. The code violates this: it holds for the Python int 0 only; every symbolic representation of zero is converted to [0].", "quantifier": "all representations of zero", "why_tests_cant": "Depends on the dynamic type of the argument.", "anchors": ["vts/isym.py:convert"]}
{"id": "C19", "title": "convert_back inverts convert up to the scale", "statement": "convert_back(convert(p)) is a positive multiple of p for every univariate rational polynomial in the variable x, and equals p when all coefficients are integers.", "quantifier": "all rational univariate polynomials", "why_tests_cant": "Round trip over an infinite type.", "anchors": ["vts/isym.py:convert_back", "vts/isym.py:convert"]}
{"id": "C20", "title": "isym.vts decides satisfiability of rational polynomial systems", "statement": "isym.vts(le, lt, eq, ne) on non-zero univariate rational polynomials returns True exactly when some real x satisfies them, whenever it returns.", "quantifier": "all finite lists of non-zero univariate rational polynomials", "why_tests_cant": "End-to-end equivalence with an existential over the reals.", "anchors": ["vts/isym.py:vts"]}
{"id": "C21", "title": "negate_relations and rewrite_to_less are exact", "statement": "negate_relations maps each relation to one that holds at a point exactly when the original does not; rewrite_to_less returns only <=, <, =, != relations with the same truth value at every point.", "quantifier": "all relations, all points", "why_tests_cant": "Infinite set of relations and points.", "anchors": ["vts/checker.py:negate_relations", "vts/checker.py:rewrite_to_less"]}
{"id": "C22", "title": "vts_preformat refutes the sequent", "statement": "vts_preformat(ante, succ) returns conjunctions such that ante => (all of succ) holds at a point exactly when none of the conjunctions holds there; it raises exactly when, after dropping True, either side is empty, or the succedent contains False (KeyError).", "quantifier": "all antecedents, succedents and points", "why_tests_cant": "Logical equivalence for every formula size.", "anchors": ["vts/checker.py:vts_preformat"]}
{"id": "C23", "title": "vts_preformat reads the succedent as a disjunction", "statement": "Intended: as in the sequents of the input files (and as GRF reads them), a sequent holds when the antecedent implies at least one succedent formula, and the conjunctions returned are unsatisfiable exactly when the sequent is valid. The code violates this for two or more succedent formulas; it holds for one, and unsatisfiability implies validity in general.", "quantifier": "all sequents", "why_tests_cant": "Needs a semantics for sequents.", "anchors": ["vts/checker.py:vts_preformat", "GRF/smt2.py:perform_grf"]}
{"id": "C24", "title": "make_relation_map splits a conjunction into the four lists", "statement": "For a conjunction of <=,<,=,!= relations with zero right-hand sides make_relation_map returns four lists that together contain exactly the left-hand sides, each in the list of its relation, and raises on any other relation.", "quantifier": "all conjunctions", "why_tests_cant": "All list shapes.", "anchors": ["vts/checker.py:make_relation_map"]}
{"id": "C25", "title": "checker verdict equals validity of the formula", "statement": "For each parsed formula (antecedent => all of succedent, one variable) the verdict computed by the preformat / relation map / vts pipeline is 'unsatisfiable negation' exactly when the formula holds for all real x. check_examples prints these verdicts but raises TypeError before its summary whenever one of them is negative, because it uses the builtin `file` as a key.", "quantifier": "all univariate formulas with rational coefficients", "why_tests_cant": "End-to-end validity over the reals.", "anchors": ["vts/checker.py:check_examples", "vts/checker.py:vts_preformat", "vts/isym.py:vts"]}
{"id": "C26", "title": "make_univariate is the diagonal", "statement": "make_univariate replaces every variable by x: the result holds at x = t exactly when the original relation holds with all its variables equal to t.", "quantifier": "all relations, all t", "why_tests_cant": "Infinite inputs.", "anchors": ["vts/examples_parser.py:make_univariate"]}
{"id": "C27", "title": "grf_parser inverts printing", "statement": "Intended: parsing the text of any term, relation or sequent of the GRF input language yields that term, relation or sequent, whatever white space separates the tokens. The code violates this for a variable named sympy: sympy.var binds the name in the parser's own globals, and the next parse action raises AttributeError (so does the rest of the directory). What holds: the round trip for every tree without that variable, including whole directories of files with comments around the sequents; and for arbitrary file contents the scan ends, and raises only if the letters sympy occur.", "quantifier": "all syntax trees, all white-space layouts, all file contents", "why_tests_cant": "Unbounded nesting.", "anchors": ["vts/grf_parser.py"]}
{"id": "C28", "title": "Muchnik real_full returns an equivalent quantifier-free DNF", "statement": "For polynomials in x with parameters, at every real value of the parameters: some real x satisfies lesser < 0, equalities = 0, greater > 0 exactly when one of the (lt, eq, gt) clauses returned by real_full holds, provided at least one parameter polynomial occurs.", "quantifier": "all finite lists of polynomials, all parameter values", "why_tests_cant": "Quantifier-elimination equivalence over the reals.", "anchors": ["highschool_qe/muchnik.py:real_full", "highschool_qe/muchnik.py:real_extend", "highschool_qe/muchnik.py:muchnik_sequence"]}
{"id": "C29", "title": "Muchnik real_full verdict on closed problems", "statement": "When no parameter polynomial occurs, real_full prints Satisfiable exactly when some real x satisfies the constraints (while its return value is always the empty list).", "quantifier": "all parameter-free inputs", "why_tests_cant": "Equivalence with an existential over the reals.", "anchors": ["highschool_qe/muchnik.py:real_full"]}
{"id": "C30", "title": "Muchnik real_full printed verdict with parameters", "statement": "Intended: with parameters, real_full prints Satisfiable exactly when some real parameter values and x satisfy the constraints. The code violates this: parameter polynomials get independent signs, so x = 0, y > 0, -y > 0 prints Satisfiable. What holds: whenever some real parameter values and x satisfy the constraints, Satisfiable is printed.", "quantifier": "all inputs", "why_tests_cant": "Equivalence with an existential.", "anchors": ["highschool_qe/muchnik.py:real_full", "highschool_qe/muchnik.py:_r_full_assignment"]}
{"id": "C31", "title": "Muchnik real_full return value on closed problems", "statement": "Intended: for a closed satisfiable problem the returned DNF is true (contains a clause). The code violates this: assignments without parameters are skipped, so x = 0 returns the empty list. What holds: the list is empty for every closed problem (C29).", "quantifier": "all parameter-free inputs", "why_tests_cant": "A universally quantified statement about the return value.", "anchors": ["highschool_qe/muchnik.py:real_full"]}
{"id": "C32", "title": "muchnik_sequence is a finite closed sequence", "statement": "muchnik_sequence terminates and returns, without repetition, exactly what tails, derivatives and pseudo-remainders by non-zero members of at most the same degree generate from the inputs and 0.", "quantifier": "all finite lists of polynomials", "why_tests_cant": "Termination and closure for all inputs.", "anchors": ["highschool_qe/muchnik.py:muchnik_sequence"]}
{"id": "C33", "title": "a realizable sign assignment never raises DiagramExc and yields the true diagram", "statement": "If the signs assigned to the constant polynomials are the signs at some real parameter value, real_extend never raises and the finished diagram is the true sign table of all polynomials in x at that parameter value (each column realised, every real x represented).", "quantifier": "all parameter values, all closed sequences", "why_tests_cant": "Needs Rolle / intermediate values over the reals for all degrees.", "anchors": ["highschool_qe/muchnik.py:real_extend"]}
{"id": "C34", "title": "Muchnik complex_full returns an equivalent quantifier-free DNF", "statement": "At every complex value of the parameters: some complex x satisfies equalities = 0 and inequalities != 0 exactly when one of the clauses returned by complex_full holds, provided a parameter polynomial occurs.", "quantifier": "all finite lists of polynomials, all parameter values in an algebraically closed field of characteristic 0", "why_tests_cant": "Quantifier-elimination equivalence over the complex numbers.", "anchors": ["highschool_qe/muchnik.py:complex_full", "highschool_qe/muchnik.py:complex_extend"]}
{"id": "C35", "title": "full assignments enumerate every sign vector once", "statement": "_r_full_assignment produces exactly 3^n diagrams, one for every sign vector of the n parameter polynomials (2^n for _c_full_assignment) and otherwise equal to the given diagram; as objects in the heap they share nothing, so that writing to one changes no other.", "quantifier": "all n and all sign vectors", "why_tests_cant": "Exponential, unbounded n.", "anchors": ["highschool_qe/muchnik.py:_r_full_assignment", "highschool_qe/muchnik.py:_c_full_assignment", "highschool_qe/muchnik.py:_diagram_copy"]}
{"id": "C36", "title": "CachedSympyWrapper is transparent", "statement": "Intended: after any history of calls, every method of CachedSympyWrapper returns (or raises) what SympyWrapper does on the same arguments. The code violates this for arguments that are equal as dictionary keys but not to sympy: has_variable of the Python int 7 raises AttributeError, but returns False once it was asked for Integer(7). What holds: if the wrapped methods do not distinguish arguments that are equal as keys, every program that uses the wrapper has the outcome it has with SympyWrapper, whatever exceptions it catches, and no cached call that returns a value other than None is made twice with equal arguments.", "quantifier": "all call histories", "why_tests_cant": "Histories.", "anchors": ["highschool_qe/cachedsympywrapper.py:_c_compute", "highschool_qe/cachedsympywrapper.py:_c_get", "highschool_qe/cachedsympywrapper.py:_c_put"]}
{"id": "C37", "title": "Cohen-Hormander real_full on closed problems", "statement": "For a non-empty set of non-zero polynomials in x with rational coefficients, cohenhorm real_full returns a non-empty list exactly when some real x satisfies the constraints.", "quantifier": "all such inputs", "why_tests_cant": "Equivalence with an existential over the reals.", "anchors": ["highschool_qe/cohenhorm.py:real_full", "highschool_qe/cohenhorm.py:_real_table", "highschool_qe/cohenhorm.py:extend_single_table"]}
{"id": "C38", "title": "Cohen-Hormander real_full with parameters", "statement": "Intended: at every parameter value some returned clause holds exactly when some real x satisfies the constraints. The code violates this: branches where the leading coefficient of the polynomial of largest degree vanishes are lost (y*x = 0 at y = 0), unsatisfiable problems are accepted (x < 0, y*x^2 + 1 = 0, y = 0), y*x^2 = 0 raises, and the empty problem and 0 = 0, 5 > 0 are reported as false. What holds: the equivalence, for all large enough fuel, whenever the polynomials of largest degree have scalar leading coefficients and zero occurs only together with a non-constant polynomial (and for a single constant).", "quantifier": "all inputs and parameter values", "why_tests_cant": "Quantifier-elimination equivalence.", "anchors": ["highschool_qe/cohenhorm.py:real_full", "highschool_qe/cohenhorm.py:expand_context"]}
{"id": "C39", "title": "copy_table keeps a table faithful", "statement": "Restricting a faithful sign table to a subset of its polynomials with copy_table gives a faithful sign table of that subset whose points are exactly the roots of the polynomials kept (those not identically zero).", "quantifier": "all faithful tables and subsets", "why_tests_cant": "All tables.", "anchors": ["highschool_qe/cohenhorm.py:copy_table"]}
{"id": "C40", "title": "expand_context covers every parameter value", "statement": "At every real parameter value consistent with the incoming context exactly one context returned by expand_context is consistent, and under it every polynomial equals the polynomial it is mapped to, whose leading coefficient is non-zero (or the polynomial is zero). split_constant returns one context per sign the context allows, the incoming one when the sign is already known.", "quantifier": "all polynomial lists, contexts and parameter values", "why_tests_cant": "Case split over unbounded lists.", "anchors": ["highschool_qe/cohenhorm.py:expand_context", "highschool_qe/cohenhorm.py:split_constant"]}
{"id": "C41", "title": "RCF_Atom.negate complements", "statement": "negate turns an atom into one that evaluates to the opposite truth value on every assignment of its variables, and negating twice restores the atom.", "quantifier": "all atoms and assignments", "why_tests_cant": "Infinite inputs.", "anchors": ["GRF/grf.sage:RCF_Atom.negate", "GRF/grf.sage:RCF_Atom.eval_on_dict"]}
{"id": "C42", "title": "partial evaluation of a goal is sound", "statement": "If RCF_Goal.eval_on_dict returns True on a partial assignment then the goal (promoted hypotheses imply the main goal) holds on every total extension of it, as long as every atom's recorded variable list covers its polynomial (true of freshly made atoms). On an assignment of all variables eval_on_dict returns exactly the truth value of the goal.", "quantifier": "all goals, partial assignments and extensions", "why_tests_cant": "All extensions.", "anchors": ["GRF/grf.sage:RCF_Goal.eval_on_dict", "GRF/grf.sage:RCF_Atom.eval_on_dict"]}
{"id": "C43", "title": "rewritten atoms still know their variables", "statement": "Intended: after hypotheses are reduced by promoted equations, evaluating an atom on an assignment that misses one of its variables yields None. The code violates this: the variable list is computed once and not updated by the reduction, so that a goal is evaluated to True on a partial assignment although it is false at an extension. What holds: an atom whose recorded list covers its polynomial evaluates to None when a variable is missing.", "quantifier": "all atoms and reductions", "why_tests_cant": "History of rewrites.", "anchors": ["GRF/grf.sage:RCF_Atom.quotient_ring_inject", "GRF/grf.sage:RCF_Atom.eval_on_dict"]}
{"id": "C44", "title": "promoting hypotheses preserves the goal", "statement": "Intended: after any sequence of promotions the reduced goal hypotheses are equivalent to the conjunction of the promoted hypotheses. The code violates this: two equations reduce each other (x0 = x1, x0 = -x1 become -2 x1 = 0, 2 x1 = 0). What holds: promotion never raises, keeps the main goal, and the reduced hypotheses are implied by the promoted ones; they are equivalent when at most one promoted hypothesis is an equation.", "quantifier": "all promotion sequences", "why_tests_cant": "Histories.", "anchors": ["GRF/grf.sage:RCF_Goal.add_goal_hyp"]}
{"id": "C45", "title": "sample points meet every sector of the line", "statement": "Intended: the sample points of the base phase contain a point of every maximal interval on which all base polynomials have constant sign, and every rational root. The code violates this: of a polynomial with a rational root the irrational roots are ignored, and the isolating interval of an irrational root may contain a rational root of another polynomial; in both cases a sector is missed. What holds: every rational root is a sample; if no polynomial has both rational and irrational roots and the intervals are apart, every sector contains a sample with the same signs; if all roots are rational, every point of the line has a sample with the same signs.", "quantifier": "all sets of univariate polynomials", "why_tests_cant": "Infinite inputs.", "anchors": ["GRF/grf.sage:QE_Factory.iso_root_intvls", "GRF/grf.sage:QE_Factory.sector_sps", "GRF/grf.sage:QE_Factory.base_phase"]}
{"id": "C46", "title": "a reported counterexample is a counterexample", "statement": "Intended: if Counterexample! is raised then the sequent that was asserted is not valid. The code violates this: because promoted equations are weakened (C44), it is raised for a valid sequent. What holds: the exception is raised for a list of samples exactly when one of them falsifies the current sequent (remaining hypotheses, reduced promoted hypotheses, main goal).", "quantifier": "all hypotheses, goals and assignments", "why_tests_cant": "All inputs.", "anchors": ["GRF/grf.sage:RCF_GD_Decide.bad_subsets_on_dict"]}
{"id": "C47", "title": "bad subsets describe every falsifying sample", "statement": "For any list of samples without a counterexample, every recorded bad subset is non-empty and is the set of hypotheses true at some sample that falsifies the goal, and for every sample that falsifies the goal the set of hypotheses true at it, if not empty, is contained in a recorded bad subset.", "quantifier": "all sample sequences", "why_tests_cant": "Histories.", "anchors": ["GRF/grf.sage:RCF_GD_Decide.bad_subsets_on_dict"]}
{"id": "C48", "title": "recorded bad subsets form an antichain", "statement": "Intended: no recorded bad subset is contained in another. The code violates this: a new subset that is contained in a recorded one is added all the same. What holds: no recorded subset is contained in a later one.", "quantifier": "all sample sequences", "why_tests_cant": "Histories.", "anchors": ["GRF/grf.sage:RCF_GD_Decide.bad_subsets_on_dict"]}
{"id": "C49", "title": "good_hyps hits every bad subset", "statement": "The set of hypotheses chosen by good_hyps is not contained in any recorded bad subset, and no set with that property is cheaper, for any exact 0/1 solver.", "quantifier": "all bad-subset lists and weights", "why_tests_cant": "Optimality over all subsets.", "anchors": ["GRF/grf.sage:RCF_GD_Decide.good_hyps"]}
{"id": "C50", "title": "check terminates, conserves hypotheses and reduces the sequent to the final goal", "statement": "check makes at most one recursive call per hypothesis, in every mode and for every input of the user; when it returns, promoted plus remaining hypotheses are exactly the asserted ones, the remaining ones in order, no sample point of the last round falsifies the goal, and if the final goal is true everywhere so is the asserted sequent.", "quantifier": "all runs, any sampler and solver", "why_tests_cant": "Termination for every oracle.", "anchors": ["GRF/grf.sage:RCF_GD_Decide.check", "GRF/grf.sage:RCF_GD_Decide.promote_right"]}
{"id": "C51", "title": "check always gives a verdict", "statement": "Intended: check returns or reports a counterexample or infeasibility on every input. The code violates this: it raises IndexError for the valid x0 = 5 |- x0 > 0 (every falsifying sample falsifies all hypotheses, so there is no candidate) and for |- x0 > 0 (random choice from no hypotheses). What holds: whenever some bad subset is recorded a hypothesis is chosen and promoted; with none recorded IndexError is raised.", "quantifier": "all inputs", "why_tests_cant": "All oracles.", "anchors": ["GRF/grf.sage:RCF_GD_Decide.check", "GRF/grf.sage:RCF_GD_Decide.good_hyps"]}
{"id": "C52", "title": "hide indices name formulas of the input sequent", "statement": "Intended: every antecedent index reported by perform_grf refers to an antecedent formula of the input. The code violates this: with several formulas in the succedent all but the last are negated and appended to the antecedent, and their positions there are reported (|- x0 <= 2, x0 >= 3, x0^2 > 1 reports antecedent index 0). What holds: indices are increasing; those past the antecedent are exactly those of the hidden succedent formulas, in reverse order; the last formula of the succedent is never hidden; with a single succedent formula all antecedent indices are in range; an empty succedent raises IndexError.", "quantifier": "all sequents, samplers, solvers and inputs of the user", "why_tests_cant": "All sizes.", "anchors": ["GRF/smt2.py:perform_grf"]}
{"id": "C53", "title": "hiding keeps what was used", "statement": "Intended: the formulas not hidden by perform_grf are exactly the promoted hypotheses and the main goal, and the sequent that is left is valid. The code violates the second part: |- x0^4 - 2 x0^2 <= 0 is returned with nothing hidden although it is not valid. What holds: the first part; the sequent that is left holds wherever the final goal does; in one variable with rational roots it is valid; an automatic run always hides at least one formula.", "quantifier": "all sequents and outcomes", "why_tests_cant": "All sizes.", "anchors": ["GRF/smt2.py:perform_grf"]}
{"id": "C54", "title": "get_ring_var is an injective stable naming", "statement": "After any history of lookups the same name always yields the same ring generator, different names yield different generators, all generators belong to the current ring, and the ring has as many generators as there are names (at least one).", "quantifier": "all histories of names", "why_tests_cant": "Histories.", "anchors": ["GRF/smt2.py:get_ring_var"]}
{"id": "C55", "title": "numerals denote constants in smt2 input", "statement": "Intended: a numeral in a term of a hiding problem denotes that constant. The code violates this: a numeral without a dot is read as a variable with that name (2 = 2. is not valid), and so is a decimal with a minus sign (-2.5); a tilde before a numeral without a dot is a syntax error. What holds: every decimal with a dot, with or without a tilde, denotes the constant and introduces no variable.", "quantifier": "all numerals", "why_tests_cant": "All numerals.", "anchors": ["GRF/smt2.py:ParseSMT"]}
{"id": "C56", "title": "VarOrder converts assignments and vectors back and forth", "statement": "Intended: vect2dict(dict2vect(d)) = d for every assignment d, after any history of conversions. The code violates this: the order is fixed by the first assignment ever converted; a later one with other keys raises KeyError or loses entries. What holds: the round trip is the identity for non-empty assignments whose keys are those of the order in force (or when there is none yet).", "quantifier": "all histories", "why_tests_cant": "Histories.", "anchors": ["GRF/local_search.py:VarOrder"]}
{"id": "C57", "title": "local search keeps only falsifying points", "statement": "Intended: every point returned by local_search_sampling other than the start point falsifies the goal, and the start point is returned first. The code violates this: the 25 random neighbours are not filtered. What holds: the start point is first, then 25 neighbours, then at most 52 points of the chains, which are not True for the main goal; all points have the same variables as the start point.", "quantifier": "all goals, hypotheses and random choices", "why_tests_cant": "All random sequences.", "anchors": ["GRF/local_search.py:local_search_sampling"]}
{"id": "C58", "title": "the experiment scheduler runs every job exactly once within the core limit", "statement": "In every schedule of process exits and timeouts the harness never runs more than Cores processes, keeps its counters equal to the queue lengths, uses no job number twice and fails no assertion; when it ends every parameter set has exactly one line, which is justified by the exit or the timeout of its process; it ends if Cores is positive, no job exits without a result and every job exits or runs out of time (with Cores = 0 it never ends).", "quantifier": "all schedules, any number of jobs and cores", "why_tests_cant": "All interleavings of process completions.", "anchors": ["GRF/test.py", "GRF/test.sage"]}
{"id": "C59", "title": "a crashing trial does not abort the experiment", "statement": "Intended: if one trial process dies with an exception the harness still reports the others. The code violates this: the missing result is looked up unconditionally, and the KeyError ends the experiment. What holds: KeyError is the only possible error and is always caused by a job that exited without a result; a job that never gives a result and is not stopped in time always ends the experiment.", "quantifier": "all schedules with crashes", "why_tests_cant": "Crash schedules.", "anchors": ["GRF/test.py", "GRF/test.sage"]}
{"id": "C60", "title": "Muchnik complex_full decides closed problems", "statement": "Without parameter polynomials complex_full prints Satisfiable exactly when some complex x satisfies equalities = 0 and inequalities != 0; the returned list is empty.", "quantifier": "all inputs for which no constant with a parameter is generated, any algebraically closed field of characteristic 0", "why_tests_cant": "Existence of a root satisfying a system, for all systems.", "anchors": ["highschool_qe/muchnik.py:complex_full"]}
{"id": "C61", "title": "Muchnik complex_full printed verdict with parameters", "statement": "Intended: with parameters, complex_full prints Satisfiable exactly when some complex parameter values and x satisfy the constraints. The code violates this: parameter polynomials are taken to be zero or not independently, so x = 0, y = 0, -y != 0 prints Satisfiable. What holds: whenever some parameter values and x satisfy the constraints, Satisfiable is printed.", "quantifier": "all inputs", "why_tests_cant": "Equivalence with an existential.", "anchors": ["highschool_qe/muchnik.py:complex_full", "highschool_qe/muchnik.py:_c_full_assignment"]}
{"id": "C62", "title": "complex_extend never raises and yields the true table of a realizable assignment", "statement": "Whatever values are assigned to the constants (0 to the zero polynomial), complex_extend raises nothing; if they are those at some parameter value, the finished diagram is the true table of zeros in x at that parameter value (each column realised, every x represented), multiplicities included.", "quantifier": "all assignments, all parameter values, all closed sequences", "why_tests_cant": "Counts roots with multiplicity over an algebraically closed field, for all degrees.", "anchors": ["highschool_qe/muchnik.py:complex_extend"]}
{"id": "C63", "title": "the partial Muchnik procedures", "statement": "Intended: complex_partial and real_partial finish for every documented assigner and for the default one. The code violates this: the default argument is the unbound function, so that the call raises TypeError on every input; and with r_assignment_all_zero real_partial raises DiagramExc on x, x - 1, x^2 + y. What holds: with c_assignment_all_one and c_assignment_all_zero complex_partial never raises, with a fixed sign for the parameter polynomials real_partial can raise only DiagramExc, and the diagram has a row for every input.", "quantifier": "all finite lists of polynomials", "why_tests_cant": "A statement about all inputs.", "anchors": ["highschool_qe/muchnik.py:complex_partial", "highschool_qe/muchnik.py:real_partial", "highschool_qe/muchnik.py:c_assignment_all_one", "highschool_qe/muchnik.py:r_assignment_all_zero"]}
{"id": "C64", "title": "CachedSympyWrapper.timer returns the value of the call", "statement": "Intended: timer(count, f, *args) returns f(*args). The code violates this for three or more arguments: the curried lambda takes one argument and is called with two, so that TypeError is raised for every f. What holds: for one and two arguments the value (or exception) is that of the call; with one argument f is called count + 1 times, or once if it raises.", "quantifier": "all functions, counts and argument lists", "why_tests_cant": "All functions and argument lists.", "anchors": ["highschool_qe/cachedsympywrapper.py:timer"]}
{"id": "C65", "title": "_real_table partitions the parameter values and its tables are right", "statement": "For polynomials of which those of largest degree are known (from the context or as scalars) to have that degree, _real_table returns, for all large enough fuel, tables with contexts that extend the given one; at every parameter value consistent with the given context exactly one of them is consistent, and its table is a faithful sign table of exactly the given polynomials whose points are exactly their roots.", "quantifier": "all such lists, contexts, iteration orders and parameter values over all real closed fields", "why_tests_cant": "Recursion over all lists, contexts and parameter values.", "anchors": ["highschool_qe/cohenhorm.py:_real_table", "highschool_qe/cohenhorm.py:extend_single_table", "highschool_qe/cohenhorm.py:table_map_back", "highschool_qe/cohenhorm.py:get_initial_table"]}
{"id": "C66", "title": "k and epsilon do not matter to check", "statement": "The result of RCF_GD_Decide.check does not depend on its parameters k and epsilon (they are only printed).", "quantifier": "all states, samplers, solvers, inputs and parameter values", "why_tests_cant": "Independence over all runs.", "anchors": ["GRF/grf.sage:RCF_GD_Decide.check", "GRF/grf.sage:RCF_GD_Decide.bad_subsets_on_dict"]}
{"id": "C67", "title": "an accepted univariate sequent is valid", "statement": "Intended: when check accepts a sequent in one variable, the sequent is valid over the reals. The code violates this: |- x0^4 - 2 x0^2 <= 0 is accepted (see C45). What holds: it is valid when all polynomials that occur have only rational roots and reduction keeps this (or there is no equation).", "quantifier": "all such sequents, all real closed fields, all random choices, all solvers", "why_tests_cant": "Validity over a real closed field; all random choices.", "anchors": ["GRF/grf.sage:RCF_GD_Decide.check", "GRF/grf.sage:QE_Factory.sample_pt_dicts"]}
{"id": "C68", "title": "check works with partial=False, its default", "statement": "Intended: check accepts its default argument partial=False. The code violates this: without the goal, lifting calls eval_on_dict of None, so that AttributeError is raised whenever there are two or more variables and the decomposition would otherwise go through.", "quantifier": "all polynomial sets in two or more variables", "why_tests_cant": "All inputs.", "anchors": ["GRF/grf.sage:RCF_GD_Decide.check", "GRF/grf.sage:QE_Factory.stack_over_cell"]}
{"id": "C69", "title": "sample points assign exactly the variables of the ring", "statement": "Every dictionary produced by sample_pt_dicts has each ring variable as a key exactly once, and the projection order is a permutation of the variables sorted by the statistics of compute_proj_ord.", "quantifier": "all polynomial sets, any number of variables, all random choices", "why_tests_cant": "All inputs and random choices.", "anchors": ["GRF/grf.sage:QE_Factory.sample_pt_dicts", "GRF/grf.sage:QE_Factory.compute_proj_ord"]}
{"id": "C70", "title": "filter_proj_set keeps the signs", "statement": "The signs of the polynomials of filter_proj_set(ps) at two points determine those of ps: if all filtered polynomials have equal signs at two points so do all of ps; and the filtered set has a zero at a point exactly when some non-constant polynomial of ps has.", "quantifier": "all polynomial sets and points", "why_tests_cant": "All points.", "anchors": ["GRF/grf.sage:QE_Factory.filter_proj_set"]}
{"id": "C71", "title": "check can use all hypotheses", "statement": "Intended: automatic check accepts valid sequents that need all their hypotheses. The code violates this: when one hypothesis is left, no bad subset can be recorded (it would be empty), so that a sample which falsifies the goal leads to IndexError; an automatic run that starts with hypotheses and returns always leaves at least one unpromoted (x1 > 0, x0 >= x1 |- x0 > -1 is valid and raises IndexError).", "quantifier": "all sequents, samplers and exact solvers", "why_tests_cant": "All runs.", "anchors": ["GRF/grf.sage:RCF_GD_Decide.check", "GRF/grf.sage:RCF_GD_Decide.bad_subsets_on_dict", "GRF/grf.sage:RCF_GD_Decide.good_hyps"]}
{"id": "C72", "title": "the experiment counts every hidden formula once", "statement": "Intended: the column Hides of the experiment is the number of hidden formulas. The code violates this: a hidden formula of the succedent is reported both in its place and as an extra antecedent, and is counted twice. What holds: the number is that of the hidden formulas plus that of the hidden formulas of the succedent.", "quantifier": "all sequents and outcomes", "why_tests_cant": "All sizes and outcomes.", "anchors": ["GRF/smt2.py:perform_grf", "GRF/smt2.py:grf_on_file", "GRF/test.py"]}
{"id": "C73", "title": "hiding problems are read as written", "statement": "For every text of a file of sequents, with any white space, processCommands passes each sequent to perform_grf, in order, as atoms whose polynomial has the value of the difference of the two sides under every assignment for which they have values, with the written relation; different names are different ring variables, and the number of ring variables is that of the names (one at least) when there is one sequent.", "quantifier": "all texts of all files (without division, or with a division that does not fail; for one sequent a failing division is reported)", "why_tests_cant": "All terms, nestings and spacings.", "anchors": ["GRF/smt2.py:ParseSMT"]}
{"id": "C74", "title": "reading any text ends", "statement": "For every text whatsoever processCommands ends, and its errors are a ParseException, an error of a polynomial division, or an error of perform_grf other than IndexError.", "quantifier": "all character sequences", "why_tests_cant": "All texts, including malformed ones.", "anchors": ["GRF/smt2.py:ParseSMT"]}
{"id": "C75", "title": "the result of a file with several sequents", "statement": "The result of a file of sequents is that of the last one, under the name of the last one; the earlier results are lost. A file without sequents makes grf_on_file raise TypeError, and a sequent with an empty succedent is reported as a syntax error. The two numbers that grf_on_file returns count the hidden formulas of the antecedent and of the succedent of the last sequent.", "quantifier": "all files", "why_tests_cant": "Any number of sequents.", "anchors": ["GRF/smt2.py:ParseSMT", "GRF/smt2.py:grf_on_file"]}
{"id": "C76", "title": "hiding is sound from text to meaning", "statement": "If the file of one sequent in at most one variable, without equations in the antecedent and disequations in the succedent, whose polynomials have rational roots only, is processed with a result, then the sequent whose formulas are those of the file at the positions not hidden holds for all values of the variable for which the formulas are defined.", "quantifier": "all such files, all real closed fields, samplers' random choices, solvers and user inputs", "why_tests_cant": "All values of the variable in all real closed fields.", "anchors": ["GRF/smt2.py:ParseSMT", "GRF/smt2.py:perform_grf", "GRF/grf.sage"]}
{"id": "C77", "title": "the result string determines the result", "statement": "Two results with the same result string have the same name and the same two lists of hidden positions (names contain no quotation mark, as those read from a file).", "quantifier": "all names and lists of positions", "why_tests_cant": "All lists of all lengths.", "anchors": ["GRF/smt2.py:grf_on_file"]}
{"id": "C78", "title": "float columns of real diagrams", "statement": "Intended: that the columns of real diagrams are floats, with a new column in the middle of an interval, does not change the result of real_full. The code violates this: for the 53 polynomials -x+1, ..., -x+53 with the first 51 negative, -x+52 zero and -x+53 positive, which x = 52 satisfies, the midpoints of the last steps round to existing columns and the problem is reported unsatisfiable. What holds: when at most 52 non-constant polynomials can be generated from the input by tails, derivatives and pseudo-remainders, the run with floats (IEEE binary64, round to nearest, ties to even) is the same as the run with exact numbers, and so without parameters the verdict is right.", "quantifier": "all lists of polynomials over any algebra that meets the contract, all set iteration orders, all fuels, all real closed fields", "why_tests_cant": "All inputs below the bound; the first failure needs 53 polynomials in an unlucky order.", "anchors": ["highschool_qe/muchnik.py:Muchniker.real_full", "highschool_qe/muchnik.py:Muchniker.add_poly_2_real_diagram"]}
{"id": "C79", "title": "the local search falsifies the chosen hypothesis", "statement": "Intended: a step of the local search moves to a point where the hypothesis it has chosen, one that is true at the current point if there is any, is false. The code violates this: a disequation that is true stays true, and a weak inequality that holds with equality can stay true, also with an exact solver. What holds: at an exact zero of the function given to the solver the polynomial of the hypothesis has the opposite sign (is not zero if it was), so every other true hypothesis becomes false.", "quantifier": "all hypotheses, points, random choices, ordered domains", "why_tests_cant": "All polynomials, relations and points.", "anchors": ["GRF/local_search.py:get_num_flipping_func", "GRF/local_search.py:choose_atom_true"]}
{"id": "C80", "title": "weights of hypotheses", "statement": "Intended: a hypothesis that has no variable in common with the goal is never preferred to one that has. The code violates this: its weight is 10000, and a hypothesis of total degree 1002 in the variable of the goal weighs more, so that the unrelated one is suggested. What holds: related hypotheses weigh max(10 (degree - 1) + 100 (number of variables - 1), 1), which is less than 10000 for total degree up to 100 and up to 90 variables.", "quantifier": "all goals and hypotheses", "why_tests_cant": "All degrees and numbers of variables.", "anchors": ["GRF/grf.sage:RCF_GD_Decide.weight_hyps"]}
{"id": "C81", "title": "the hypothesis that is promoted", "statement": "The automatic step promotes, of the hypotheses suggested by the optimiser, the first one of least total degree; it is removed from the hypotheses, the others stay in order, and the goal is extended with it.", "quantifier": "all states, bad subsets and solvers", "why_tests_cant": "All lists of hypotheses.", "anchors": ["GRF/grf.sage:RCF_GD_Decide.check"]}
{"id": "C82", "title": "the interactive mode", "statement": "A dialogue ends with GO, which makes the automatic step, or with the number of an existing hypothesis, which is promoted; what comes before (numbers out of range, negative numbers, S, B, P, anything else) changes nothing. After GO the rest of the input is not read: the session is the automatic run.", "quantifier": "all inputs, states, solvers, samplers", "why_tests_cant": "All input sequences.", "anchors": ["GRF/grf.sage:RCF_GD_Decide.check"]}
{"id": "C83", "title": "the sample point of an unconstrained variable", "statement": "Intended: a variable without roots is sampled where the hypotheses on the bare variable hold, if possible. The code violates this: x0 <> 0 is sampled at 0 only. What holds: there is one sample point, it satisfies the first hypothesis on the bare variable unless this is a disequation, and it is 0 when there is none.", "quantifier": "all lists of hypotheses", "why_tests_cant": "All lists of hypotheses.", "anchors": ["GRF/grf.sage:QE_Factory.sector_sps"]}
{"id": "C84", "title": "the projection set", "statement": "The projection of a set consists of the non-constant ones among the resultants of two different polynomials, the discriminants and the leading coefficients with respect to the variable, where a monomial in one variable is replaced by the variable; nothing else.", "quantifier": "all sets of polynomials and variables", "why_tests_cant": "All sets.", "anchors": ["GRF/grf.sage:QE_Factory.bm_proj"]}
{"id": "C85", "title": "the order of the variables in a run", "statement": "A finished run of check never changes a variable order that is set, never adds hypotheses, and if it promotes none it returns no bad subsets and leaves the order as it was.", "quantifier": "all runs", "why_tests_cant": "All runs, in both modes.", "anchors": ["GRF/grf.sage:RCF_GD_Decide.check", "GRF/local_search.py:VarOrder"]}
{"id": "C86", "title": "every example file is read", "statement": "Intended: every file below the example directory is read, and each of its sequents appears under its file. The code violates this: the dictionary is keyed by the bare file name, so of two files of the same name in different directories one is lost. What holds: if the names are different, the dictionary has exactly the sequents of every file; a missing directory gives an empty dictionary and no error.", "quantifier": "all directory trees, all texts of sequents with any white space", "why_tests_cant": "All trees and texts.", "anchors": ["vts/examples_parser.py:parse_files_from_dir", "vts/examples_parser.py:parse_example_dirs"]}
{"id": "C87", "title": "written examples are loaded", "statement": "Intended: after write_sympy_parseable_examples, unpickle_dirs returns what was written, and nothing else. The code violates this: it writes to Examples/Metitarski and reads Examples/MetiTarski, so where case matters nothing is loaded and no error is raised; and pickles of earlier runs stay and are loaded. What holds: every example is in its file; the new directory reads back exactly as written; where case does not matter unpickle_dirs returns it together with the unchanged hiding problems. A file in the place of Examples makes it raise ENOTDIR; one in the place of Metitarski is only noticed when there is something to write.", "quantifier": "all file systems, examples, case conventions", "why_tests_cant": "All states of the file system and both case conventions.", "anchors": ["vts/examples_parser.py:write_sympy_parseable_examples", "vts/examples_parser.py:unpickle_dirs", "vts/examples_parser.py:unpickle_from_dir"]}
{"id": "C88", "title": "an interrupted write", "statement": "Intended: after an interruption the directory can still be loaded. The code violates this: between opening a file and the end of pickle.dump it is empty, and loading the directory raises EOFError. What holds: at every other moment the directory reads as the files written so far, and running the program again always gives the complete directory.", "quantifier": "all file systems, examples and points of interruption", "why_tests_cant": "All points of interruption.", "anchors": ["vts/examples_parser.py:write_sympy_parseable_examples"]}
{"id": "C89", "title": "from the text of a sequent to the verdict", "statement": "For a sequent whose terms divide only by nonzero numbers, parsing, make_univariate and the checker with the decision procedure give true exactly if the sequent, with all variables set equal and the succedent read as a conjunction, holds at all reals; otherwise one of five errors is raised, each only in the case that belongs to it (a relation without variables; a side that always holds; a succedent or antecedent formula that never holds; too many derivatives). The loop over the pickles is the loop over their contents, and opens at most four files; where case matters it does not see the written examples.", "quantifier": "all sequents and texts, all real closed fields", "why_tests_cant": "All texts and all real points.", "anchors": ["vts/examples_parser.py:examples_preformat_uni", "vts/examples_parser.py:unpickle_dirs_gen", "vts/checker.py:check_examples"]}
{"id": "C90", "title": "the form in which polynomials are given", "statement": "Intended: the answer of real_full does not depend on whether the input polynomials are multiplied out. The code violates this: on y*(x*y + x) muchnik raises KeyError, because it looks up the leading coefficient y^2 + y in a table that has the derivative y*(y + 1), and cohenhorm raises 'context lookup'; with x*y^2 + x*y both answer. What holds: whenever degree-many derivatives of an expression give the expression leading coefficient times factorial, as for expanded polynomials and (x - y)*(x + y), two problems with the same polynomials in different forms get equivalent answers.", "quantifier": "all problems, algebras, orders of set iteration, parameter values in real closed fields", "why_tests_cant": "All pairs of expressions for the same polynomials.", "anchors": ["highschool_qe/muchnik.py:Muchniker.real_extend", "highschool_qe/muchnik.py:Muchniker.real_full", "highschool_qe/sympywrapper.py:SympyWrapper.derivative", "highschool_qe/cohenhorm.py:CohenHormander.expand_context"]}
{"id": "C91", "title": "the sign by direct calculation", "statement": "For every descriptor made from the roots of a polynomial and every polynomial g, get_sign_by_direct_calc returns the sign of g at the root that the descriptor describes; it has no limit on the number of derivatives, and whenever the calculation with Tarski queries returns a sign, it is the same.", "quantifier": "all polynomials, roots in real closed fields", "why_tests_cant": "All polynomials and roots; the function is only called in comments.", "anchors": ["vts/uni_vts.py:get_sign_by_direct_calc"]}
{"id": "C92", "title": "the printed form of a descriptor", "statement": "Intended: every descriptor can be printed, and the three keys show which derivative has which sign. The code violates this: for a polynomial with a single root no derivative is recorded and min([]) raises ValueError. What holds: with two roots or more, the flag of the i-th derivative is 1 in the key of its sign at the root and 0 in the other two; the lists neg_polies, zer_polies and pos_polies divide the recorded derivatives by sign.", "quantifier": "all polynomials with their roots", "why_tests_cant": "All polynomials.", "anchors": ["vts/uni_vts.py:DiscDerSigns", "vts/uni_vts.py:get_discri_der_signs"]}
{"id": "C93", "title": "the interactive assignments", "statement": "With an interactive assigner the partial procedures ask once for each generated constant that has a parameter in it, in the order of the sequence; a line that is not one of the allowed values is discarded and asked for again, nothing is read after the last answer, and if the input ends first EOFError is raised. With any answers complex_partial succeeds and real_partial succeeds or raises DiagramExc; if the answers are the signs (zero or not) at some parameter value, the table is the true one at that value.", "quantifier": "all inputs, all polynomials, real closed and algebraically closed fields", "why_tests_cant": "All input streams and parameter values; the methods wait for a keyboard.", "anchors": ["highschool_qe/muchnik.py:_get_interactive_value", "highschool_qe/muchnik.py:c_assignment_interactive", "highschool_qe/muchnik.py:r_assignment_interactive"]}
{"id": "C94", "title": "the printed answer and tables", "statement": "Intended: pprint_clause prints any disjunction of conjunctions. The code violates this: the clause without atoms (true) raises TypeError. What holds: real_full and complex_full never print such a clause, and the text they print has exactly one block per returned clause with one atom per polynomial, < 0, == 0, > 0 (or == 0, != 0) as in the clause. pprint_diagram prints any diagram with a row: each row once, in the order of the key, with its name padded to the longest, and in every column of any row, in ascending order, its sign or a star; the extended diagrams have no stars. Names and signs are padded on the left with spaces, so the columns of a table are aligned.", "quantifier": "all problems, all diagrams, all ways of writing polynomials", "why_tests_cant": "All problems and diagrams; the tests do not look at the output.", "anchors": ["highschool_qe/muchnik.py:pprint_clause", "highschool_qe/muchnik.py:pprint_diagram"]}
{"id": "C95", "title": "processCommands with a context", "statement": "Intended: processCommands(s, context=c) filters the sequents of s in the context c, returns c with the result, and leaves the parser with the context it had. The code violates this: the parse action of a sequent is perform_grf of the context the parser was made with, so c gets the formulas but never a result, the old problem is filtered once for each sequent of s, a parser that has read nothing before rejects every text that is not blank, and after an exception the parser keeps c. What holds: without a context argument a new parser behaves as in C73-C76; the returned context is c, and the parser's context is restored when there is no exception.", "quantifier": "all texts, all parsers and contexts, any perform_grf", "why_tests_cant": "All texts and histories.", "anchors": ["GRF/smt2.py:ParseSMT.__init__", "GRF/smt2.py:ParseSMT.processCommands", "GRF/smt2.py:SMTContext.perform_grf"]}
{"id": "C96", "title": "clearContext", "statement": "Intended: after clearContext() a parser works like a new one with the same settings. The code violates this: the context that processCommands returns never has a hiding_result, the sequents that follow filter the problem read before clearing under their own names, and k, epsilon and interactive are back to the defaults.", "quantifier": "all texts, all parsers, any perform_grf", "why_tests_cant": "All texts and histories.", "anchors": ["GRF/smt2.py:ParseSMT.clearContext", "GRF/smt2.py:ParseSMT.processCommands"]}
{"id": "C97", "title": "Soft-zero choice of a hypothesis", "statement": "Intended: softzero_sample returns index i with probability exp(-|f_i|) over the sum, so values near zero are preferred, and choose_atom_softzero returns that hypothesis. The code violates this when every exp(-|f_i|) rounds to 0: it raises ZeroDivisionError; with no hypotheses the choice raises IndexError. What holds otherwise: i is returned exactly for the random numbers in one interval, the intervals follow one another from 0 to 1, the length of each is the weight over the sum, and a smaller |f_i| never has a shorter interval; whatever the random number, an index returned is one of the list, and the last one if the number exceeds all shares.", "quantifier": "all lists of values, all random numbers, all monotone non-negative exp functions, all problems", "why_tests_cant": "A distribution is a statement about all random numbers; underflow needs extreme values.", "anchors": ["GRF/local_search.py:softzero_sample", "GRF/local_search.py:choose_atom_softzero"]}
{"id": "C98", "title": "Falsifying function for the solver", "statement": "Intended: a zero of get_num_falsifying_func(A, x) falsifies A. The code violates this: it reads the global ineq_eps, which no module defines, so every call raises NameError. With a positive ineq_eps, zeros would falsify inequalities, but leave an equation true when 0 is drawn and a disequation true unless 0 is drawn.", "quantifier": "all atoms, points and random choices", "why_tests_cant": "All atoms and points; the function has no caller.", "anchors": ["GRF/local_search.py:get_num_falsifying_func"]}
{"id": "C99", "title": "Flipping functions and ball sampling", "statement": "The function of get_num_flipping_func has as many components as unknowns (at least one), and at a zero the polynomial has the opposite sign of the one at the start (or a nonzero value if it was zero). The polynomial of get_symb_flipping_func is nowhere negative and its zeros have the same property. k_sample_points_in_ball returns k points with the same variables, each coordinate within epsilon. It is not a Euclidean ball.", "quantifier": "all atoms, points, random choices, k and epsilon", "why_tests_cant": "All points and random choices.", "anchors": ["GRF/local_search.py:get_num_flipping_func", "GRF/local_search.py:get_symb_flipping_func", "GRF/local_search.py:eval_poly", "GRF/grf.sage:k_sample_points_in_ball"]}
{"id": "C100", "title": "The suitable tables that real_full prints", "statement": "Intended: real_full prints all the suitable extended diagrams, that is, for each case of the parameters where the problem has a solution the sign table of its polynomials, and nothing else. The code violates this: tables are also printed for contexts that hold at no parameter value (4*y < 0 and y = 0). What holds for accepted problems: the text is a heading and one block for each returned clause, with the context, a row for each polynomial, a sign in every cell and a column with the required signs; at a parameter value the problem has a solution exactly if the context of exactly one block holds, and the table of that block is then the true sign table.", "quantifier": "all accepted problems, all parameter values in all real closed fields, any representation of polynomials as text", "why_tests_cant": "All problems and parameter values.", "anchors": ["highschool_qe/cohenhorm.py:CohenHormander.real_full", "highschool_qe/cohenhorm.py:CohenHormander.pprint_diagram"]}
{"id": "C101", "title": "real_full of cohenhorm - Copy.py", "statement": "Intended: real_full prints the sign tables of the polynomials. The code violates this: it calls _real_table with iter = -1, which raises the exception iter before anything else, for every list.", "quantifier": "all lists of polynomials, any algebra", "why_tests_cant": "All lists.", "anchors": ["highschool_qe/cohenhorm - Copy.py:CohenHormander.real_full", "highschool_qe/cohenhorm - Copy.py:CohenHormander._real_table"]}
{"id": "C102", "title": "iter of _real_table (cohenhorm - Copy.py)", "statement": "The argument iter only bounds the depth of the recursion. If _real_table does not fail with iter, every larger value gives the same tables or exception; for all polynomials and contexts there is a bound from which on the result is the same and is not the exception iter.", "quantifier": "all lists of polynomials and contexts, all iter", "why_tests_cant": "All lists and depths.", "anchors": ["highschool_qe/cohenhorm - Copy.py:CohenHormander._real_table", "highschool_qe/cohenhorm - Copy.py:CohenHormander.foo"]}
{"id": "C103", "title": "Tables of _real_table (cohenhorm - Copy.py)", "statement": "Intended: for accepted polynomials _real_table returns tables with a row for each polynomial. The code violates this: if a leading coefficient is zero under the context the table has a row for what is left of the polynomial instead, and for x^3 - x it raises KeyError with every sufficient iter, since the remainder is looked up in the table that is being extended. What holds: if tables are returned, the contexts extend the given one and exactly one of them holds at each parameter value where the given one holds; there the table is the true sign table of its rows, with a column for exactly the roots; each polynomial, or what is left of it under the context, has a row.", "quantifier": "all accepted lists, contexts and iter, all parameter values in all real closed fields", "why_tests_cant": "All polynomials and parameter values.", "anchors": ["highschool_qe/cohenhorm - Copy.py:CohenHormander._real_table", "highschool_qe/cohenhorm - Copy.py:CohenHormander.table_map_back", "highschool_qe/cohenhorm - Copy.py:CohenHormander.get_initial_table", "highschool_qe/cohenhorm - Copy.py:CohenHormander.sign_context_lookup", "highschool_qe/cohenhorm - Copy.py:CohenHormander.copy_table", "highschool_qe/cohenhorm - Copy.py:CohenHormander.expand_context"]}
{"id": "C104", "title": "An accepted sequent in several variables is valid", "statement": "Intended: when check accepts a sequent in several variables, it is valid over the reals (a comment says the sample points suffice for strict inequalities). The code violates this: |- x1^4 + x1^2 - x0^6 x1^2 >= 0 is accepted, because the projection drops the vanishing discriminant, and is false at (2, 1); x0 < 0, x0 = x1, x0 < 5 |- x0 > 3 is accepted, because the hypothesis reduced by the equation keeps its old variables (C43) and prunes every stack, and is false at (-1, -1). What holds: linear sequents in any number of variables without equations among the hypotheses are valid when accepted, strict or not; so are sequents whose projection sets are linear in the variable of each level, with constant leading coefficients from the third level on and rational roots at the bottom. Every point has a sample point with the same signs of all polynomials, or the goal holds there.", "quantifier": "all such sequents, any number of variables and samples, all real closed fields, all random choices, all solvers, with partial or not", "why_tests_cant": "Validity over a real closed field in any number of variables; all random choices.", "anchors": ["GRF/grf.sage:RCF_GD_Decide.check", "GRF/grf.sage:QE_Factory.sample_pt_dicts", "GRF/grf.sage:QE_Factory.bm_proj", "GRF/grf.sage:QE_Factory.stack_over_cell", "GRF/grf.sage:QE_Factory.lifting_phase"]}
{"id": "C105", "title": "How an automatic run of check ends", "statement": "Intended: check in automatic mode ends by accepting a valid sequent or by printing a counterexample. The code violates this: x0 > 0, x1 > 0 |- x0 + x1 > 0 is valid and linear, and the run stops with an IndexError, because at a sample point the goal and all hypotheses are false. What holds: sampling raises no exception when partial evaluation is on or there is one variable; for any sequent, also with equations, a run raises nothing but the counterexample (at an assignment that falsifies the current goal and satisfies all remaining hypotheses), an IndexError (at an assignment that falsifies the goal and satisfies no remaining hypothesis) or an exception of fsolve. Without equations the counterexample is real (the original sequent is false at some point) and an IndexError means that the main goal is false somewhere. For sequents without equations whose projections are solvable as in C104, linear ones in particular: accepted ones are valid and have a hypothesis they do not need, if they have any; a valid one that needs all its hypotheses always ends in an IndexError (or an exception of fsolve); a goal that holds everywhere is accepted whatever the hypotheses.", "quantifier": "all sequents in the ring, any number of variables, hypotheses and samples, all exact solvers, all random choices, all real closed fields", "why_tests_cant": "Absence of other exceptions on all paths; equivalence with validity over a real closed field.", "anchors": ["GRF/grf.sage:RCF_GD_Decide.check", "GRF/grf.sage:RCF_GD_Decide.bad_subsets_on_dict", "GRF/grf.sage:QE_Factory.sample_pt_dicts", "GRF/grf.sage:RCF_GD_Decide.promote_right"]}
{"id": "C106", "title": "The printed sequent says which hypotheses there are", "statement": "Intended: the text of a sequent shows exactly its hypotheses, goal hypotheses and goal; the number of a hypothesis in the text is the number to enter to promote it; the goal is indented like the hypotheses; the final hypotheses printed after acceptance are hypotheses that were asserted. The code violates the last part: quotient_ring_inject changes atoms in place, so that after x0 < 0, x0 - x1 = 0, x0 - 5 < 0 |- x0 - 3 > 0 the line of final hypotheses shows [x1 < 0], which was never asserted. The indentation is wrong from 100001 hypotheses on. What holds: reading the text (lines before and after the bar, from the first to the last bracket of each) gives back the texts of the hypotheses, the goal hypotheses and the goal in order; if str of polynomials is injective, sequents with the same text have the same polynomials and operators; entering i promotes the atom on the line of Hi and leaves the others in order; the goal is aligned with the last hypothesis for 1 to 100000 hypotheses; without equations the final hypotheses printed are among those asserted.", "quantifier": "all sequents, all texts of polynomials without line breaks (injective where stated), all solvers and random choices", "why_tests_cant": "Unbounded lists and arbitrary polynomials; the in-place change needs an equation promoted after another hypothesis.", "anchors": ["GRF/grf.sage:RCF_Atom.__str__", "GRF/grf.sage:RCF_Goal.__str__", "GRF/grf.sage:RCF_GD_Decide.__str__", "GRF/grf.sage:RCF_GD_Decide.check", "GRF/grf.sage:RCF_Goal.add_goal_hyp"]}
{"id": "C107", "title": "Several processes share the matrix cache", "statement": "Intended: processes that use matrix_of_signs at the same time in one directory do not disturb each other. The code violates this: a file is found by isfile as soon as another process has opened it for writing, so that of two processes that start together in an empty directory, none of which dies, the import of the second can raise EOFError. What holds for any number of processes, each importing the module and making any calls, under every interleaving of their operations on the directory and with any of them dying anywhere: an import ends normally or with EOFError, and a call with 1 <= k <= 5 gives the right matrix or EOFError, any other an exception; every process ends after a number of its own steps that does not depend on the others; if no process died, no incomplete file remains when all have ended, and the next process gets all that it asks for. A process that runs alone behaves as the sequential model of C15 and C16.", "quantifier": "all numbers of processes, all sequences of calls, all schedules and deaths, all inversion functions meeting the contract", "why_tests_cant": "Interleavings are not controlled by a test, and their number grows without bound.", "anchors": ["vts/matrix_of_signs.py:write_to_cache", "vts/matrix_of_signs.py:cache_hit", "vts/matrix_of_signs.py:read_cache", "vts/matrix_of_signs.py:new_get_matrix", "vts/matrix_of_signs.py:new_get_matrix_inverse", "vts/matrix_of_signs.py:load_or_create_inverse"]}
{"id": "C108", "title": "A GRF object can be used for several goals", "statement": "Intended: after a check, another goal can be asserted on the same RCF_GD_Decide object and is checked under the hypotheses that were asserted. The code violates this: a hypothesis promoted by a check is moved into the goal object and disappears with it at the next assert_goal. x0 > 2, x0 < 5 |- x0 > 0 is accepted, and rejected with Counterexample when the same goal is asserted and checked once more; likewise a second valid goal that is accepted on a new object. What holds: for every sequence of assert_hyps, assert_goal and accepted checks over polynomials with solvable projections (C104), without equations among the hypotheses, an accepted goal follows from all hypotheses asserted before; a check only moves hypotheses between the object and its goal; checking an accepted goal again without asserting it again accepts it and changes neither hypotheses nor goal; a check before the first assert_goal raises AttributeError.", "quantifier": "all sequences of calls, all hypotheses and goals, all numbers of variables, all parameters of check and all user input, all random choices, all ordered fields of numbers", "why_tests_cant": "A test runs one sequence of calls on one object; each test of the repository makes a new object for each goal.", "anchors": ["GRF/grf.sage:assert_hyps", "GRF/grf.sage:assert_goal", "GRF/grf.sage:promote_right", "GRF/grf.sage:check", "GRF/grf.sage:install_polys"]}
{"id": "C109", "title": "A GRF check leaves the atoms of its caller alone", "statement": "Intended: checking a sequent does not change the atoms it was made of, so that a program can use them again. The code violates this: when an equation is promoted, quotient_ring_inject changes the hypotheses promoted before and after it in place, and these objects belong to the caller. After x0 > 2, x0 = x1, x0 < 5 |- x1 > 1 has been checked, the atom x0 > 2 has become x1 > 2, and a new object accepts x0 > 2, x0 < 5 |- x1 > 1 made of the same atoms, which is false and is rejected when it is checked alone. What holds: if no atom object occurs twice in a sequent, a check of objects shows the same result, exception and state as a check of values, so that the other properties of check carry over; atoms that are neither hypotheses nor goal hypotheses are not changed; without equations among the hypotheses no atom is changed, even if atoms are shared.", "quantifier": "all heaps of atoms, all sequents, all parameters and user input, all polynomial libraries, samplers and solvers", "why_tests_cant": "A change of a shared object shows only when a later part of the program uses it; tests make new atoms for each check.", "anchors": ["GRF/grf.sage:quotient_ring_inject", "GRF/grf.sage:add_goal_hyp", "GRF/grf.sage:promote_right", "GRF/grf.sage:check"]}
{"id": "C110", "title": "A GRF object stays usable after an exception", "statement": "Intended: when a check raises an exception (Counterexample, IndexError, end of the user's input), a program that handles it can go on using the object as if the check had not been made. The code violates this: the hypotheses promoted before the exception stay in the goal, and are lost with it when the next goal is asserted. With x0 > 2, x0 < 5 |- x0 > 0, a user who promotes x0 < 5 and leaves with end-of-file finds the valid goal x0 < 6, accepted on a new object, rejected by a counterexample. What holds: after any session of asserts and checks, with any number of exceptions handled, an accepted goal follows from the hypotheses asserted so far (polynomials of a class with solvable projections, no equations among the hypotheses); a check that raises keeps its goal, and each hypothesis is still a hypothesis of the object or has become one of its goal.", "quantifier": "all sessions of assert_hyps, assert_goal and check with all parameters and user input, all points of a check from which an exception comes, all libraries meeting the contracts", "why_tests_cant": "The state left by an exception depends on where in the recursion it was raised; tests end at the first exception.", "anchors": ["GRF/grf.sage:check", "GRF/grf.sage:promote_right", "GRF/grf.sage:assert_goal", "GRF/grf.sage:install_polys"]}
{"id": "C111", "title": "GRF on files with several sequents", "statement": "Intended: the result for a sequent of a file depends on that sequent only, and is sound. The code violates the first part: without a new variable the CAD object of the previous sequent is used again with its polynomials; x > 2, x < -2 |- x > 0 raises an exception when it is alone in its file, and gets a result when x > -2, x < 5 |- x > -3 stands before it. Conversely x > -2, x < 5 |- x > -3 and y > 2, y < 5 |- y > 0 get results each in its own file, and an exception when they follow each other in one file: the class attribute VarOrder.order is set once and never reset, so the local search of the second sequent only has the variable of the first one. What holds: VarOrder.order, once set, never changes; and for every file of sequents in any number of variables, if the program returns a result, it carries the name of the last sequent, and the formulas of that sequent at the positions not hidden form a sequent that holds for all values of the variables for which the formulas are defined (polynomials of a class with solvable projections such as the linear ones, no equations in antecedents and no disequations in succedents, no failing division).", "quantifier": "all files of sequents with all white space, all numbers of variables, all parameters and user input, all libraries meeting the contracts", "why_tests_cant": "What one sequent leaves behind for the next depends on the whole file; tests process single sequents and check few points.", "anchors": ["GRF/smt2.py:perform_grf", "GRF/smt2.py:get_ring_var", "GRF/smt2.py:ParseSMT", "GRF/grf.sage:check", "GRF/grf.sage:install_polys", "GRF/local_search.py:VarOrder"]}
