{
 "claims": [
  {
   "property": "C01",
   "status": "proved",
   "theorems": [
    "C01_internal_vts_decides"
   ],
   "note": "Any ordered coefficient domain and any real closed field of points; MkRoots and Matrix.inv by contract; string conversion of coefficients injective."
  },
  {
   "property": "C02",
   "status": "proved",
   "theorems": [
    "C02_internal_vts_only_limit"
   ],
   "note": "Result is Ok or the limit exception; the latter only if some input has degree above 5."
  },
  {
   "property": "C03",
   "status": "proved",
   "theorems": [
    "C03_tarski_query",
    "C03_trailing_zero_refuted"
   ],
   "note": "Proved for q with non-zero last coefficient or all coefficients zero; for a non-zero q with trailing zeros the code is wrong (C03_trailing_zero_refuted)."
  },
  {
   "property": "C04",
   "status": "proved",
   "theorems": [
    "C04_cauchy_index",
    "C04_jumps_exist"
   ],
   "note": "q with non-zero last coefficient or zero; C04_jumps_exist shows the hypotheses can be met for all inputs."
  },
  {
   "property": "C05",
   "status": "proved",
   "theorems": [
    "C05_signed_pseudo_remainder"
   ],
   "note": ""
  },
  {
   "property": "C06",
   "status": "proved",
   "theorems": [
    "C06_signed_remainder_sequence"
   ],
   "note": "Last element has exactly the common divisors of p and q."
  },
  {
   "property": "C07",
   "status": "proved",
   "theorems": [
    "C07_arithmetic"
   ],
   "note": ""
  },
  {
   "property": "C08",
   "status": "proved",
   "theorems": [
    "C08_make_product_list"
   ],
   "note": ""
  },
  {
   "property": "C09",
   "status": "proved",
   "theorems": [
    "C09_matrix_counts",
    "C09_sign_matrix_entries"
   ],
   "note": ""
  },
  {
   "property": "C10",
   "status": "proved",
   "theorems": [
    "C10_descriptors_separate"
   ],
   "note": ""
  },
  {
   "property": "C11",
   "status": "proved",
   "theorems": [
    "C11_evaluate_single"
   ],
   "note": ""
  },
  {
   "property": "C12",
   "status": "proved",
   "theorems": [
    "C12_e_close"
   ],
   "note": ""
  },
  {
   "property": "C13",
   "status": "proved",
   "theorems": [
    "C13_sign_conditions_lookup"
   ],
   "note": ""
  },
  {
   "property": "C14",
   "status": "proved",
   "theorems": [
    "C14_internal_ts_behaviour",
    "C14_internal_ts_refuted"
   ],
   "note": "The property is false of the code: exact behaviour proved and a counterexample given."
  },
  {
   "property": "C15",
   "status": "proved",
   "theorems": [
    "C15_cache_right",
    "C15_refines_get_matrix_inverse"
   ],
   "note": "Any sequence of calls and process restarts without a crash; Matrix.inv by contract."
  },
  {
   "property": "C16",
   "status": "proved",
   "theorems": [
    "C16_never_wrong",
    "C16_lost_matrix_refuted",
    "C16_lost_module_refuted"
   ],
   "note": "The property is false of the code: answers that are returned are never wrong, but two crash points leave a cache that makes every later call, or every later import, fail (the two _refuted theorems)."
  },
  {
   "property": "C17",
   "status": "proved",
   "theorems": [
    "C17_convert_scales",
    "C17_convert_keeps_signs",
    "C17_more_symbols_raise",
    "C17_not_rational_raises"
   ],
   "note": "k is the lcm of the denominators; the sympy term list is specified by ordered_terms; error branches covered."
  },
  {
   "property": "C18",
   "status": "proved",
   "theorems": [
    "C18_zero",
    "C18_symbolic_zero_refuted"
   ],
   "note": "The intended property is false of the code: proved for the Python int 0, refuted for every symbolic zero ([0])."
  },
  {
   "property": "C19",
   "status": "proved",
   "theorems": [
    "C19_round_trip"
   ],
   "note": ""
  },
  {
   "property": "C20",
   "status": "proved",
   "theorems": [
    "C20_isym_vts_decides"
   ],
   "note": "Composition of convert with the C01 model; result or the degree-limit exception."
  },
  {
   "property": "C21",
   "status": "proved",
   "theorems": [
    "C21_negate_relations",
    "C21_negate_relations_raises",
    "C21_rewrite_to_less"
   ],
   "note": ""
  },
  {
   "property": "C22",
   "status": "proved",
   "theorems": [
    "C22_vts_preformat",
    "C22_vts_preformat_raises"
   ],
   "note": "Also proved: the KeyError when the succedent contains False, which the property's first wording did not mention."
  },
  {
   "property": "C23",
   "status": "proved",
   "theorems": [
    "C23_single_succedent",
    "C23_disjunction_one_way",
    "C23_disjunction_refuted"
   ],
   "note": "The intended property is false of the code for two or more succedent formulas (refutation); proved for one formula, and one direction in general."
  },
  {
   "property": "C24",
   "status": "proved",
   "theorems": [
    "C24_make_relation_map",
    "C24_other_relations_raise"
   ],
   "note": ""
  },
  {
   "property": "C25",
   "status": "proved",
   "theorems": [
    "C25_check_one",
    "C25_check_examples",
    "C25_check_examples_refuted"
   ],
   "note": "Verdict correct or one of four characterised exceptions; the summary at the end of check_examples raises TypeError whenever some formula is invalid (refutation)."
  },
  {
   "property": "C26",
   "status": "proved",
   "theorems": [
    "C26_make_univariate",
    "C26_truth_value_raises"
   ],
   "note": "Where both sides are defined (no division by zero); sympy simplification, expansion and relation constructors by contract."
  },
  {
   "property": "C27",
   "status": "proved",
   "theorems": [
    "C27_term_round_trip",
    "C27_relation_round_trip",
    "C27_sequent_round_trip",
    "C27_files_round_trip",
    "C27_variable_sympy_raises",
    "C27_round_trip_refuted",
    "C27_reading_total"
   ],
   "note": "Round trip for trees without a variable named sympy; with one, parsing raises (C27_variable_sympy_raises, C27_round_trip_refuted). Totality on arbitrary texts. sympy.Float rounding is not modelled."
  },
  {
   "property": "C28",
   "status": "proved",
   "theorems": [
    "C28_real_full_equivalent"
   ],
   "note": "For any algebra that meets algebra_contract (instance Z[y][x] given), any real closed field and any set iteration order. Columns are exact rationals instead of floats; C78 says when this makes no difference."
  },
  {
   "property": "C29",
   "status": "proved",
   "theorems": [
    "C29_real_full_decides"
   ],
   "note": "Same setting as C28; the returned list is always empty then."
  },
  {
   "property": "C30",
   "status": "proved",
   "theorems": [
    "C30_verdict_refuted",
    "C30_no_false_unsatisfiable"
   ],
   "note": "Refuted as intended (C30_verdict_refuted); the other direction is proved."
  },
  {
   "property": "C31",
   "status": "proved",
   "theorems": [
    "C31_closed_result_refuted"
   ],
   "note": "Refuted as intended; that the list is always empty is C29."
  },
  {
   "property": "C32",
   "status": "proved",
   "theorems": [
    "C32_sequence_closed"
   ],
   "note": ""
  },
  {
   "property": "C33",
   "status": "proved",
   "theorems": [
    "C33_realizable_assignment",
    "C33_any_assignment"
   ],
   "note": "For tables of constants with the three starting columns."
  },
  {
   "property": "C34",
   "status": "proved",
   "theorems": [
    "C34_complex_full_equivalent"
   ],
   "note": "For any algebra that meets algebra_contract, any algebraically closed field of characteristic 0 in which non-zero scalars are not zero, and any set iteration order."
  },
  {
   "property": "C35",
   "status": "proved",
   "theorems": [
    "C35_real_vectors",
    "C35_complex_vectors",
    "C35_real_independent",
    "C35_complex_independent",
    "C35_write_one"
   ],
   "note": "Value model and heap model, and their agreement."
  },
  {
   "property": "C36",
   "status": "proved",
   "theorems": [
    "C36_cached_transparent",
    "C36_keys_refuted"
   ],
   "note": "Programs are interaction trees over the methods, exceptions included; the heap of nested dictionaries is a tree value. Transparency under the stated condition on keys, and a counterexample without it."
  },
  {
   "property": "C37",
   "status": "proved",
   "theorems": [
    "C37_real_full_closed"
   ],
   "note": "No polynomial generated from the input by tails, derivatives and pseudo-remainders has a parameter in its leading coefficient; the input is not empty and has no zero polynomial. Any algebra of characteristic 0 that meets the contracts."
  },
  {
   "property": "C38",
   "status": "proved",
   "theorems": [
    "C38_real_full_accepted",
    "C38_lost_refuted",
    "C38_invented_refuted",
    "C38_raise_refuted",
    "C38_empty_refuted",
    "C38_zero_refuted"
   ],
   "note": "Refuted as intended, with five concrete counterexamples, for every real closed field; proved for the lists that the code is written for (accepted)."
  },
  {
   "property": "C39",
   "status": "proved",
   "theorems": [
    "C39_copy_table_condensed"
   ],
   "note": "For any algebra that meets algebra_contract and scalars_exact, any real closed field, any set iteration order, any faithful table."
  },
  {
   "property": "C40",
   "status": "proved",
   "theorems": [
    "C40_expand_context_cases",
    "C40_split_constant"
   ],
   "note": "For any algebra that meets algebra_contract and scalars_exact; contexts and mappings on a heap; holds at every parameter value over every real closed field, for all large enough fuel."
  },
  {
   "property": "C41",
   "status": "proved",
   "theorems": [
    "C41_negate_value",
    "C41_negate_eval",
    "C41_negate_twice"
   ],
   "note": "Both for the truth value at points and for eval_on_dict, including None."
  },
  {
   "property": "C42",
   "status": "proved",
   "theorems": [
    "C42_eval_goal_sound",
    "C42_eval_goal_total",
    "C42_mk_atom_wf"
   ],
   "note": "The library contract lib_ok is met by a concrete library of rational polynomials (GrfInst)."
  },
  {
   "property": "C43",
   "status": "proved",
   "theorems": [
    "C43_missing_variable",
    "C43_refuted"
   ],
   "note": "Refuted as intended; the positive part is proved."
  },
  {
   "property": "C44",
   "status": "proved",
   "theorems": [
    "C44_promoted_implies",
    "C44_one_equation",
    "C44_refuted"
   ],
   "note": "Refuted as intended; implication, and equivalence with at most one equation, are proved."
  },
  {
   "property": "C45",
   "status": "proved",
   "theorems": [
    "C45_sectors",
    "C45_sections",
    "C45_rational_roots",
    "C45_mixed_refuted",
    "C45_overlap_refuted"
   ],
   "note": "Refuted as intended in two ways; sectors, rational roots and the rational case are proved under the contract of root isolation."
  },
  {
   "property": "C46",
   "status": "proved",
   "theorems": [
    "C46_counterexample",
    "C46_verdict",
    "C46_refuted"
   ],
   "note": "Refuted for the asserted sequent; exact for the current one."
  },
  {
   "property": "C47",
   "status": "proved",
   "theorems": [
    "C47_bad_subsets"
   ],
   "note": "Stated with truth at the points of the samples. A Python set is iterated in the order of the list that models it."
  },
  {
   "property": "C48",
   "status": "proved",
   "theorems": [
    "C48_not_in_later",
    "C48_refuted"
   ],
   "note": "Refuted as intended; one direction holds."
  },
  {
   "property": "C49",
   "status": "proved",
   "theorems": [
    "C49_good_hyps",
    "C49_infeasible"
   ],
   "note": "For any exact 0/1 solver; a brute force solver is an instance."
  },
  {
   "property": "C50",
   "status": "proved",
   "theorems": [
    "C50_conserves",
    "C50_terminates",
    "C50_terminates_cad",
    "C50_sound"
   ],
   "note": "With any sampler, and with the modelled decomposition."
  },
  {
   "property": "C51",
   "status": "proved",
   "theorems": [
    "C51_progress",
    "C51_no_candidate",
    "C51_refuted"
   ],
   "note": "Refuted as intended; progress is characterised."
  },
  {
   "property": "C52",
   "status": "proved",
   "theorems": [
    "C52_refuted",
    "C52_indices",
    "C52_single",
    "C52_no_succedent"
   ],
   "note": "Refuted as intended; the indices are characterised. Atoms are distinct objects (uniq of identities)."
  },
  {
   "property": "C53",
   "status": "proved",
   "theorems": [
    "C53_unhidden",
    "C53_sound",
    "C53_univariate",
    "C53_refuted",
    "C53_hides_some"
   ],
   "note": "The part about validity is refuted in general and proved for one variable with rational roots."
  },
  {
   "property": "C54",
   "status": "proved",
   "theorems": [
    "C54_names"
   ],
   "note": ""
  },
  {
   "property": "C55",
   "status": "proved",
   "theorems": [
    "C55_dotted",
    "C55_dotted_tilde",
    "C55_undotted",
    "C55_minus",
    "C55_tilde",
    "C55_refuted"
   ],
   "note": "Refuted as intended for numerals without a dot and with a minus sign; proved for decimals with a dot."
  },
  {
   "property": "C56",
   "status": "proved",
   "theorems": [
    "C56_roundtrip",
    "C56_refuted"
   ],
   "note": "Refuted as intended; holds while the key set stays the same."
  },
  {
   "property": "C57",
   "status": "proved",
   "theorems": [
    "C57_local_search",
    "C57_keys",
    "C57_refuted"
   ],
   "note": "Refuted as intended; exact structure of the list proved."
  },
  {
   "property": "C58",
   "status": "proved",
   "theorems": [
    "C58_safe",
    "C58_reports",
    "C58_terminates",
    "C58_no_cores"
   ],
   "note": "The environment (clock, exits, results) is arbitrary."
  },
  {
   "property": "C59",
   "status": "proved",
   "theorems": [
    "C59_errors",
    "C59_aborts",
    "C59_refuted"
   ],
   "note": "Refuted as intended; errors are characterised."
  },
  {
   "property": "C60",
   "status": "proved",
   "theorems": [
    "C60_complex_full_decides"
   ],
   "note": "Same setting as C34."
  },
  {
   "property": "C61",
   "status": "proved",
   "theorems": [
    "C61_complex_verdict_refuted",
    "C61_complex_no_false_unsatisfiable"
   ],
   "note": "Refuted as intended; the other direction is proved."
  },
  {
   "property": "C62",
   "status": "proved",
   "theorems": [
    "C62_realizable_assignment",
    "C62_any_assignment"
   ],
   "note": "For tables of constants with the one starting column."
  },
  {
   "property": "C63",
   "status": "proved",
   "theorems": [
    "C63_default_assigner",
    "C63_run_real_refuted",
    "C63_run_real",
    "C63_run_complex"
   ],
   "note": "Refuted as intended (default argument; DiagramExc from real_partial); what holds is proved. Interactive input is not modelled."
  },
  {
   "property": "C64",
   "status": "proved",
   "theorems": [
    "C64_timer_one",
    "C64_timer_two",
    "C64_timer_many_refuted"
   ],
   "note": "Values and call counts for one argument, values for two, TypeError for more."
  },
  {
   "property": "C65",
   "status": "proved",
   "theorems": [
    "C65_real_table_condensed"
   ],
   "note": "accepted: a single constant, or the polynomials of largest degree are determined and zero occurs only with a non-constant one. Covers expand_context, extend_single_table, table_map_back, copy_table, get_initial_table and the recursion, with termination."
  },
  {
   "property": "C66",
   "status": "proved",
   "theorems": [
    "C66_unused_parameters"
   ],
   "note": ""
  },
  {
   "property": "C67",
   "status": "proved",
   "theorems": [
    "C67_univariate_sound",
    "C67_refuted"
   ],
   "note": "Refuted in general; proved for polynomials with rational roots."
  },
  {
   "property": "C68",
   "status": "proved",
   "theorems": [
    "C68_needs_goal",
    "C68_refuted"
   ],
   "note": "Refuted on every input with two or more variables."
  },
  {
   "property": "C69",
   "status": "proved",
   "theorems": [
    "C69_sample_keys",
    "C69_projection_order"
   ],
   "note": ""
  },
  {
   "property": "C70",
   "status": "proved",
   "theorems": [
    "C70_signs",
    "C70_zero_set"
   ],
   "note": ""
  },
  {
   "property": "C71",
   "status": "proved",
   "theorems": [
    "C71_last_hypothesis",
    "C71_one_hypothesis",
    "C71_refuted"
   ],
   "note": "Refuted for every sequent that needs all hypotheses."
  },
  {
   "property": "C72",
   "status": "proved",
   "theorems": [
    "C72_count",
    "C72_refuted"
   ],
   "note": "Refuted as intended; the exact number is proved."
  },
  {
   "property": "C73",
   "status": "proved",
   "theorems": [
    "C73_file",
    "C73_single"
   ],
   "note": "The arithmetic of the ring is a parameter with the contract arith_ok; leading zeros denote decimal numbers in the model."
  },
  {
   "property": "C74",
   "status": "proved",
   "theorems": [
    "C74_errors"
   ],
   "note": ""
  },
  {
   "property": "C75",
   "status": "proved",
   "theorems": [
    "C75_last",
    "C75_counts",
    "C75_empty_file",
    "C75_empty_succedent"
   ],
   "note": ""
  },
  {
   "property": "C76",
   "status": "proved",
   "theorems": [
    "C76_sound"
   ],
   "note": "Combines C73 with C53_univariate; the contracts are met by the concrete library."
  },
  {
   "property": "C77",
   "status": "proved",
   "theorems": [
    "C77_unambiguous"
   ],
   "note": ""
  },
  {
   "property": "C78",
   "status": "proved",
   "theorems": [
    "C78_float_columns_exact",
    "C78_float_decides",
    "C78_float_columns_refuted"
   ],
   "note": "Refuted as intended with 53 polynomials; up to 52 non-constant polynomials the float run is the exact run."
  },
  {
   "property": "C79",
   "status": "proved",
   "theorems": [
    "C79_chosen",
    "C79_opposite_sign",
    "C79_falsifies",
    "C79_disequation",
    "C79_refuted"
   ],
   "note": "Refuted as intended; the direction is proved for exact zeros."
  },
  {
   "property": "C80",
   "status": "proved",
   "theorems": [
    "C80_weights",
    "C80_bias",
    "C80_refuted"
   ],
   "note": "Refuted as intended; weights proved."
  },
  {
   "property": "C81",
   "status": "proved",
   "theorems": [
    "C81_auto"
   ],
   "note": ""
  },
  {
   "property": "C82",
   "status": "proved",
   "theorems": [
    "C82_dialogue",
    "C82_ignored",
    "C82_go"
   ],
   "note": ""
  },
  {
   "property": "C83",
   "status": "proved",
   "theorems": [
    "C83_default_point",
    "C83_refuted"
   ],
   "note": "Refuted as intended; the choice is characterised."
  },
  {
   "property": "C84",
   "status": "proved",
   "theorems": [
    "C84_projection"
   ],
   "note": "The set is characterised; that it delineates is not proved."
  },
  {
   "property": "C85",
   "status": "proved",
   "theorems": [
    "C85_order"
   ],
   "note": ""
  },
  {
   "property": "C86",
   "status": "proved",
   "theorems": [
    "C86_every_file_read",
    "C86_missing_directory",
    "C86_same_name_refuted"
   ],
   "note": "Refuted as intended; proved for different names."
  },
  {
   "property": "C87",
   "status": "proved",
   "theorems": [
    "C87_round_trip",
    "C87_loaded_case_ignored",
    "C87_not_loaded_case_matters",
    "C87_loaded_refuted",
    "C87_each_written",
    "C87_old_stays",
    "C87_only_current_refuted",
    "C87_parent_is_file",
    "C87_directory_is_file"
   ],
   "note": "Refuted as intended on file systems where case matters; round trip proved."
  },
  {
   "property": "C88",
   "status": "proved",
   "theorems": [
    "C88_interrupted",
    "C88_loadable_refuted",
    "C88_recovered"
   ],
   "note": "Refuted as intended; all interrupted states and the recovery are characterised."
  },
  {
   "property": "C89",
   "status": "proved",
   "theorems": [
    "C89_text_to_verdict",
    "C89_check_pickles",
    "C89_checker_unchanged"
   ],
   "note": ""
  },
  {
   "property": "C90",
   "status": "proved",
   "theorems": [
    "C90_same_form",
    "C90_same_form_closed",
    "C90_refuted",
    "C90_cohen_refuted"
   ],
   "note": "Refuted as intended; proved for algebras in which last derivatives are the expressions the code looks up."
  },
  {
   "property": "C91",
   "status": "proved",
   "theorems": [
    "C91_direct_calc",
    "C91_agrees"
   ],
   "note": ""
  },
  {
   "property": "C92",
   "status": "proved",
   "theorems": [
    "C92_lists",
    "C92_flags",
    "C92_single_root_refuted",
    "C92_descriptors"
   ],
   "note": "Refuted for polynomials with one root; proved otherwise."
  },
  {
   "property": "C93",
   "status": "proved",
   "theorems": [
    "C93_interactive_real",
    "C93_interactive_complex",
    "C93_reads_real",
    "C93_reads_complex"
   ],
   "note": ""
  },
  {
   "property": "C94",
   "status": "proved",
   "theorems": [
    "C94_real_answer",
    "C94_complex_answer",
    "C94_true_clause_raises",
    "C94_table",
    "C94_real_table",
    "C94_complex_table",
    "C94_padding",
    "C94_aligned"
   ],
   "note": "Raising on the true clause shown; proved for what the procedures print."
  },
  {
   "property": "C95",
   "status": "proved",
   "theorems": [
    "C95_without_context",
    "C95_no_result",
    "C95_old_problem",
    "C95_unused_parser",
    "C95_needs_succedent",
    "C95_parser_afterwards",
    "C95_own_parser_afterwards",
    "C95_blank",
    "C95_refuted"
   ],
   "note": "The violation is shown in general and on a concrete parser."
  },
  {
   "property": "C96",
   "status": "proved",
   "theorems": [
    "C96_no_result",
    "C96_old_problem",
    "C96_refuted"
   ],
   "note": "The violation is shown in general and on a concrete parser."
  },
  {
   "property": "C97",
   "status": "proved",
   "theorems": [
    "C97_interval",
    "C97_ends",
    "C97_length",
    "C97_bias",
    "C97_first",
    "C97_index",
    "C97_beyond",
    "C97_underflow",
    "C97_refuted",
    "C97_atom",
    "C97_no_atoms"
   ],
   "note": "Exact numbers; exp is any function with the stated properties. The violation is shown with an exp that rounds to 0."
  },
  {
   "property": "C98",
   "status": "proved",
   "theorems": [
    "C98_undefined",
    "C98_defined"
   ],
   "note": "The violation holds for every call."
  },
  {
   "property": "C99",
   "status": "proved",
   "theorems": [
    "C99_system",
    "C99_symbolic",
    "C99_ball",
    "C99_euclid_refuted"
   ],
   "note": "Exact numbers; the solver is not part of this."
  },
  {
   "property": "C100",
   "status": "proved",
   "theorems": [
    "C100_same_result",
    "C100_suitable",
    "C100_impossible_refuted"
   ],
   "note": "For accepted problems (as in C38); the violation is shown on one."
  },
  {
   "property": "C101",
   "status": "proved",
   "theorems": [
    "C101_real_full_raises"
   ],
   "note": "The intended property fails for every input."
  },
  {
   "property": "C102",
   "status": "proved",
   "theorems": [
    "C102_more",
    "C102_enough"
   ],
   "note": ""
  },
  {
   "property": "C103",
   "status": "proved",
   "theorems": [
    "C103_tables",
    "C103_rows_refuted",
    "C103_raises_refuted"
   ],
   "note": "Partial correctness: whether tables are returned is not characterised; the violations are shown on examples."
  },
  {
   "property": "C104",
   "status": "proved",
   "theorems": [
    "C104_linear_sound",
    "C104_solvable_sound",
    "C104_sample_complete",
    "C104_degree_refuted",
    "C104_equation_refuted"
   ],
   "note": "Assumes of Sage what DESIGN.md lists under lin_ok and degree_ok. The two refutations are concrete runs of the model with a rational library."
  },
  {
   "property": "C105",
   "status": "proved",
   "theorems": [
    "C105_sampling",
    "C105_exceptions",
    "C105_verdict",
    "C105_outcome",
    "C105_spare_hypothesis",
    "C105_needs_all_rejected",
    "C105_goal_accepted",
    "C105_complete_refuted"
   ],
   "note": "Assumes of Sage, random and fsolve what DESIGN.md lists under total_ok. The refutation is a concrete run of the model with a rational library."
  },
  {
   "property": "C106",
   "status": "proved",
   "theorems": [
    "C106_read_hyps",
    "C106_read_goal",
    "C106_injective",
    "C106_index",
    "C106_aligned",
    "C106_aligned_refuted",
    "C106_final",
    "C106_final_refuted"
   ],
   "note": "str of a polynomial is a parameter: any text in one line, injective where stated. The refutation of the final hypotheses is a concrete run of the model with a rational library."
  },
  {
   "property": "C107",
   "status": "proved",
   "theorems": [
    "C107_alone",
    "C107_alone_import",
    "C107_never_wrong",
    "C107_no_lasting_damage",
    "C107_wait_free",
    "C107_start_refuted"
   ],
   "note": "isfile, reading, opening and dumping are atomic; dumping completes the file in one step."
  },
  {
   "property": "C108",
   "status": "proved",
   "theorems": [
    "C108_sound",
    "C108_moved",
    "C108_recheck",
    "C108_no_goal",
    "C108_same_goal_refuted",
    "C108_next_goal_refuted"
   ],
   "note": "Contracts of C104 and C105. Sessions that go on after an exception are C110."
  },
  {
   "property": "C109",
   "status": "proved",
   "theorems": [
    "C109_same",
    "C109_frame",
    "C109_no_equation",
    "C109_shared_refuted"
   ],
   "note": "Polynomials and lists are values: Sage polynomials are immutable, and every list assigned to hyps and goal_hyps is new."
  },
  {
   "property": "C110",
   "status": "proved",
   "theorems": [
    "C110_sound",
    "C110_moved",
    "C110_serve",
    "C110_total",
    "C110_quit_refuted"
   ],
   "note": "The state after an exception is a relation (left_by): where the model does not fix the moment of the exception, every state at a possible moment is allowed. Exceptions from printing and KeyboardInterrupt are not modelled."
  },
  {
   "property": "C111",
   "status": "proved",
   "theorems": [
    "C111_sound",
    "C111_same",
    "C111_earlier_refuted",
    "C111_order",
    "C111_order_refuted"
   ],
   "note": "VarOrder.order may hold generators of an older, smaller ring after the ring was extended; the model identifies generators by their number. Formulas read before an extension are identified with their images in the larger ring."
  }
 ]
}