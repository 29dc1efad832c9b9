{
 "claims": [
  {
   "property": "C01",
   "status": "proved",
   "theorems": [
    "C01_filter_workload",
    "C01_filter_pushdown",
    "C01_filter_agrees_when_both_return",
    "C01_pushdown_introduces_panic_refuted"
   ],
   "note": "Full statement for workloads without (); the panic introduced by push-down for () is C01_pushdown_introduces_panic_refuted."
  },
  {
   "property": "C02",
   "status": "proved",
   "theorems": [
    "C02_monotonic_filters",
    "C02_monotonic_sat"
   ],
   "note": "Both for the code's test (no side condition) and for the declarative meaning."
  },
  {
   "property": "C03",
   "status": "proved",
   "theorems": [
    "C03_and_is_conjunction",
    "C03_and_rejects"
   ],
   "note": "No side condition for acceptance; rejection for terms without ()."
  },
  {
   "property": "C04",
   "status": "proved",
   "theorems": [
    "C04_plug_exact",
    "C04_plug_count",
    "C04_plug_distinct",
    "C04_plug_workload",
    "C04_empty_list_refuted"
   ],
   "note": "Exactness, count and distinctness per term, and exactness per workload; terms containing () are dropped by plug (refuted variant)."
  },
  {
   "property": "C05",
   "status": "proved",
   "theorems": [
    "C05_empty_plug",
    "C05_pattern_names_refuted",
    "C05_empty_list_differs_refuted"
   ],
   "note": "Names read as patterns and () are exceptions, shown by refuted theorems."
  },
  {
   "property": "C06",
   "status": "proved",
   "theorems": [
    "C06_append_union",
    "C06_append_panics_only_from_parts",
    "C06_order_refuted"
   ],
   "note": "Order exception shown by C06_order_refuted."
  },
  {
   "property": "C07",
   "status": "proved",
   "theorems": [
    "C07_substitute"
   ],
   "note": ""
  },
  {
   "property": "C08",
   "status": "proved",
   "theorems": [
    "C08_iter_metric_sound",
    "C08_unproductive_refuted"
   ],
   "note": "Productivity condition shown necessary."
  },
  {
   "property": "C09",
   "status": "proved",
   "theorems": [
    "C09_iter_metric_complete",
    "C09_unproductive_refuted"
   ],
   "note": "Productivity condition shown necessary."
  },
  {
   "property": "C10",
   "status": "proved",
   "theorems": [
    "C10_base_lang_exactly_once",
    "C10_base_lang_grammar",
    "C10_unambiguous_no_duplicates"
   ],
   "note": "Exactly once for base_lang(k), every k, metric and bound; generalised to unambiguous grammars."
  },
  {
   "property": "C11",
   "status": "proved",
   "theorems": [
    "C11_pattern_match"
   ],
   "note": ""
  },
  {
   "property": "C12",
   "status": "proved",
   "theorems": [
    "C12_contains_excludes",
    "C12_filter_semantics"
   ],
   "note": ""
  },
  {
   "property": "C13",
   "status": "proved",
   "theorems": [
    "C13_canon_total",
    "C13_canon_renames",
    "C13_canon_classes",
    "C13_repeated_symbols_refuted"
   ],
   "note": "Distinctness of the symbols shown necessary."
  },
  {
   "property": "C14",
   "status": "proved",
   "theorems": [
    "C14_canon_filter_unique"
   ],
   "note": ""
  },
  {
   "property": "C15",
   "status": "proved",
   "theorems": [
    "C15_workload_file_roundtrip",
    "C15_atoms_with_spaces_refuted"
   ],
   "note": "Through the text of the file: printing, lines, reading. The condition on atoms is shown necessary."
  },
  {
   "property": "C16",
   "status": "proved",
   "theorems": [
    "C16_bv_arithmetic",
    "C16_bv_results_in_range",
    "C16_bv_large_shift",
    "C16_bv_constants",
    "C16_bv_samples"
   ],
   "note": "Stated in the integers modulo 2^w and bit by bit."
  },
  {
   "property": "C17",
   "status": "proved",
   "theorems": [
    "C17_bv_valid_rule_holds",
    "C17_bv_invalid_rule_fails",
    "C17_bv_interpreter_agrees",
    "C17_bv128_literal_truncated_refuted"
   ],
   "note": "The solver is a parameter whose unsat/sat answers are assumed right. The 64-bit condition on literals is shown necessary."
  },
  {
   "property": "C18",
   "status": "proved",
   "theorems": [
    "C18_rows_shape",
    "C18_rows_complete",
    "C18_rows_distinct",
    "C18_bool",
    "C18_bv",
    "C18_halide",
    "C18_rational"
   ],
   "note": "Shape, completeness and distinctness of the rows for all sample lists, and the exact samples of four domains. Natural numbers use random samples (C22)."
  },
  {
   "property": "C19",
   "status": "proved",
   "theorems": [
    "C19_bool_cvec_iff_equivalent",
    "C19_bool_init_total"
   ],
   "note": ""
  },
  {
   "property": "C20",
   "status": "proved",
   "theorems": [
    "C20_bv",
    "C20_bool",
    "C20_pos",
    "C20_rational",
    "C20_halide",
    "C20_rational_plain",
    "C20_halide_plain",
    "C20_closed_panics",
    "C20_refuted"
   ],
   "note": "C20_closed_panics and C20_refuted show where the plain claim fails. Natural numbers and the mixed bitvector/boolean language, which spell out constants as several nodes or attach linked terms to variables, are not covered by the totality theorems."
  },
  {
   "property": "C21",
   "status": "proved",
   "theorems": [
    "C21_bool_interval_total",
    "C21_bool_interval_sound",
    "C21_bool_interval_of_term",
    "C21_bool_folded_constant"
   ],
   "note": "Per operator and per term."
  },
  {
   "property": "C22",
   "status": "proved",
   "theorems": [
    "C22_nat_interval_total",
    "C22_nat_interval_sound",
    "C22_nat_interval_of_term",
    "C22_nat_folded_constant",
    "C22_nat_constant",
    "C22_nat_constant_negative_diverges"
   ],
   "note": "Stated over the natural numbers N."
  },
  {
   "property": "C23",
   "status": "proved",
   "theorems": [
    "C23_nat_validated_rule_holds",
    "C23_nat_rejected_rule_fails",
    "C23_nat_cvec"
   ],
   "note": "The solver is a parameter whose answers are assumed right. The integer/natural gap is closed by a polynomial identity argument."
  },
  {
   "property": "C24",
   "status": "proved",
   "theorems": [
    "C24_pos_constant",
    "C24_pos_exploratory_rules_sound",
    "C24_pos_nat_rules_sound"
   ],
   "note": "Constants are below 2^64 (usize)."
  },
  {
   "property": "C25",
   "status": "proved",
   "theorems": [
    "C25_bridge_rules_sound",
    "C25_guard_is_bitvector",
    "C25_bits_are_bv2",
    "C25_folding_sound"
   ],
   "note": "Folding is stated for any assignment of values to classes that agrees with their nodes."
  },
  {
   "property": "C26",
   "status": "proved",
   "theorems": [
    "C26_interval_helpers",
    "C26_recip_tight",
    "C26_abs_refuted",
    "C26_folding",
    "C26_folding_complete",
    "C26_cvec"
   ],
   "note": "Overflow of the checked rational operations is an arbitrary parameter; overflow of the unchecked arithmetic in the interval helpers is not modelled."
  },
  {
   "property": "C27",
   "status": "proved",
   "theorems": [
    "C27_values",
    "C27_errors",
    "C27_condition_errors_refuted",
    "C27_wide_literal_refuted"
   ],
   "note": "The solver is a parameter assumed right when it says unsat, over rational values with an arbitrary function for division by zero."
  },
  {
   "property": "C28",
   "status": "proved",
   "theorems": [
    "C28_interpreter",
    "C28_encoding",
    "C28_agree",
    "C28_validated",
    "C28_negative_dividend_refuted",
    "C28_neg_min_refuted"
   ],
   "note": "The solver is a parameter assumed right when it says unsat. i64 arithmetic follows debug builds (negation overflow panics)."
  },
  {
   "property": "C29",
   "status": "proved",
   "theorems": [
    "C29_merge",
    "C29_merge_panics",
    "C29_order_independent",
    "C29_flags_one_empty_refuted"
   ],
   "note": "Costs are assumed computable (the stored terms are well formed, C30)."
  },
  {
   "property": "C30",
   "status": "proved",
   "theorems": [
    "C30_simplest_is_the_node"
   ],
   "note": ""
  },
  {
   "property": "C31",
   "status": "proved",
   "theorems": [
    "C31_cost",
    "C31_finite_cost"
   ],
   "note": "Machine words are N bounded by 2^64 - 1."
  },
  {
   "property": "C32",
   "status": "proved",
   "theorems": [
    "C32_generalize",
    "C32_generalize_panics",
    "C32_terms_are_instances"
   ],
   "note": "A panic stands for the index out of bounds in letter."
  },
  {
   "property": "C33",
   "status": "proved",
   "theorems": [
    "C33_rule_new",
    "C33_candidates",
    "C33_added_candidates_are_rules"
   ],
   "note": ""
  },
  {
   "property": "C34",
   "status": "proved",
   "theorems": [
    "C34_name_identifies",
    "C34_reads_back",
    "C34_two_way",
    "C34_odd_spelling_refuted"
   ],
   "note": "The reader for operators is a parameter; pat_ok says which spellings are unambiguous. nat is the worked instance."
  },
  {
   "property": "C35",
   "status": "proved",
   "theorems": [
    "C35_file_round_trip",
    "C35_reads_lines",
    "C35_named_rule_lost_refuted"
   ],
   "note": ""
  },
  {
   "property": "C36",
   "status": "proved",
   "theorems": [
    "C36_history",
    "C36_contains",
    "C36_add_order",
    "C36_extend_order",
    "C36_equality",
    "C36_removal_keeps_order_refuted"
   ],
   "note": ""
  },
  {
   "property": "C37",
   "status": "proved",
   "theorems": [
    "C37_partition",
    "C37_partition_exact"
   ],
   "note": ""
  },
  {
   "property": "C38",
   "status": "proved",
   "theorems": [
    "C38_bidir_len",
    "C38_classes_unique",
    "C38_trivial_rule_refuted"
   ],
   "note": ""
  },
  {
   "property": "C39",
   "status": "proved",
   "theorems": [
    "C39_score_direction",
    "C39_score_counts",
    "C39_best_first"
   ],
   "note": "The i32 counters are unbounded integers in the model. The array representation of the two sides is the one the reader builds."
  },
  {
   "property": "C40",
   "status": "proved",
   "theorems": [
    "C40_terminates",
    "C40_returns_validated"
   ],
   "note": "The scheduler is the relation of C46: any behaviour of egg's Runner. A run that panics in the validator or in egg returns nothing."
  },
  {
   "property": "C41",
   "status": "proved",
   "theorems": [
    "C41_accounted",
    "C41_nothing_lost"
   ],
   "note": "Candidates are well-formed rulesets as the constructors build them (C33-C36). A prior rule under the name of a candidate must be an ordinary rule."
  },
  {
   "property": "C42",
   "status": "proved",
   "theorems": [
    "C42_invalid_origin",
    "C42_round",
    "C42_not_rejected_refuted"
   ],
   "note": "C42_not_rejected_refuted shows that a valid rule ends up in the set of invalid rules."
  },
  {
   "property": "C43",
   "status": "proved",
   "theorems": [
    "C43_cvec_match",
    "C43_reachable",
    "C43_common_sample_refuted"
   ],
   "note": "egg's Extractor and build_recexpr are modelled and proved to find smallest terms. Iteration orders of hash maps are arbitrary permutations. At most 26 variables (else it panics, C32)."
  },
  {
   "property": "C44",
   "status": "proved",
   "theorems": [
    "C44_fast_match",
    "C44_fast_within",
    "C44_within_refuted"
   ],
   "note": "Same setting as C43. C44_within_refuted is the case without samples."
  },
  {
   "property": "C45",
   "status": "proved",
   "theorems": [
    "C45_extract_candidates",
    "C45_allowed_terms"
   ],
   "note": "The first e-graph is congruence closed, as after every scheduler run (C46_one_run)."
  },
  {
   "property": "C46",
   "status": "proved",
   "theorems": [
    "C46_saturation_sound",
    "C46_one_run"
   ],
   "note": "egg's Runner is a transition relation that may search any rule, apply any found match, rebuild and stop at any point. A rule built by the reader without guard, with the custom pattern guard of bv-bool, and with the is_defined guard of apply_one are all covered."
  },
  {
   "property": "C47",
   "status": "proved",
   "theorems": [
    "C47_derivable_holds",
    "C47_bv_derivable_holds"
   ],
   "note": "The rule's own variables must be pattern variables (closed). Generic over languages and algebras, and instantiated for bitvectors."
  },
  {
   "property": "C48",
   "status": "proved",
   "theorems": [
    "C48_merges",
    "C48_exact",
    "C48_literal_domains",
    "C48_no_growth",
    "C48_single_node_domains",
    "C48_rational_no_growth",
    "C48_made_wf",
    "C48_growth_refuted"
   ],
   "note": "Growth in languages with multi-node constants is shown by C48_growth_refuted."
  },
  {
   "property": "C49",
   "status": "proved",
   "theorems": [
    "C49_classified",
    "C49_written",
    "C49_no_growth",
    "C49_total",
    "C49_domains",
    "C49_scheduler",
    "C49_undefined_refuted",
    "C49_variable_refuted",
    "C49_folding_refuted"
   ],
   "note": "C49_undefined_refuted, C49_variable_refuted, C49_folding_refuted: the classification is wrong in these cases."
  },
  {
   "property": "C50",
   "status": "proved",
   "theorems": [
    "C50_defined",
    "C50_exact",
    "C50_plain",
    "C50_every_language"
   ],
   "note": ""
  },
  {
   "property": "C51",
   "status": "proved",
   "theorems": [
    "C51_workload_present",
    "C51_exact",
    "C51_domains",
    "C51_folded_refuted"
   ],
   "note": "C51_folded_refuted: in folding languages distinct terms can be in one class."
  },
  {
   "property": "C52",
   "status": "proved",
   "theorems": [
    "C52_workload",
    "C52_fast_forwarding",
    "C52_recursive",
    "C52_recursive_learns",
    "C52_terms",
    "C52_zero_refuted",
    "C52_one_list_refuted"
   ],
   "note": "Statements are about runs that return. C52_zero_refuted and C52_one_list_refuted show the limits of the plain claim."
  },
  {
   "property": "C53",
   "status": "proved",
   "theorems": [
    "C53_appends",
    "C53_completes",
    "C53_crash",
    "C53_torn_file_kept",
    "C53_crash_refuted",
    "C53_concurrent_refuted"
   ],
   "note": "serde_json is a parameter with the stated assumption json_right; errors of the file system are not modelled. C53_crash_refuted and C53_concurrent_refuted hold for every log."
  },
  {
   "property": "C54",
   "status": "proved",
   "theorems": [
    "C54_bv_interval",
    "C54_bv_folded_constant"
   ],
   "note": ""
  },
  {
   "property": "C55",
   "status": "proved",
   "theorems": [
    "C55_terms_bv",
    "C55_terms_bool",
    "C55_terms_nat",
    "C55_terms_pos",
    "C55_terms_bv_bool",
    "C55_terms_halide",
    "C55_terms_rational",
    "C55_distinct",
    "C55_in_rules",
    "C55_bv_literals",
    "C55_integers",
    "C55_fractions",
    "C55_names_refuted"
   ],
   "note": "i64 and Ratio text (core, num-rational) are modelled in Number.v. Fractions with a negative denominator and numerator i64::MIN are excluded: the code overflows there."
  },
  {
   "property": "C56",
   "status": "proved",
   "theorems": [
    "C56_bv",
    "C56_nat",
    "C56_halide",
    "C56_bool",
    "C56_pos",
    "C56_bv_bool"
   ],
   "note": "Solvers are parameters assumed right when they say unsat. Literals of bitvector rules fit in the width and in 64 bits (see C17). Halide values use the division of the solver (see C28)."
  },
  {
   "property": "C57",
   "status": "proved",
   "theorems": [
    "C57_vectors",
    "C57_domains",
    "C57_merge"
   ],
   "note": ""
  },
  {
   "property": "C58",
   "status": "proved",
   "theorems": [
    "C58_split",
    "C58_bv_reported_holds",
    "C58_ported",
    "C58_baseline"
   ],
   "note": "Times are not modelled. The semantic half is stated for bitvectors; for other algebras combine C58_split with C47_derivable_holds."
  },
  {
   "property": "C59",
   "status": "proved",
   "theorems": [
    "C59_operators",
    "C59_more"
   ],
   "note": "C59_more has the languages of exponentials, trigonometry, solids, and maxima and minima."
  },
  {
   "property": "C60",
   "status": "proved",
   "theorems": [
    "C60_domains",
    "C60_vectors",
    "C60_one_class",
    "C60_boolean",
    "C60_workload",
    "C60_fast_forwarding",
    "C60_recursive",
    "C60_boolean_rules",
    "C60_boolean_sound",
    "C60_variables_refuted"
   ],
   "note": "Positives and bitvector-booleans have no samples and are not covered. Trigonometric and exponential rules are the subject of C66, C67 and C76."
  },
  {
   "property": "C61",
   "status": "proved",
   "theorems": [
    "C61_consequences",
    "C61_forbidden",
    "C61_phases"
   ],
   "note": "Rules read from text have right-hand sides that text can produce; rules made in code with other right-hand sides are not covered."
  },
  {
   "property": "C62",
   "status": "proved",
   "theorems": [
    "C62_text",
    "C62_saved",
    "C62_more"
   ],
   "note": "Rules files are modelled as text. C62_more has the languages of exponentials, trigonometry, solids, and maxima and minima."
  },
  {
   "property": "C63",
   "status": "proved",
   "theorems": [
    "C63_bitvectors",
    "C63_naturals",
    "C63_halide",
    "C63_rationals",
    "C63_rational_rewriting",
    "C63_undefined_refuted",
    "C63_booleans"
   ],
   "note": "Positives and the mixed language validate nothing."
  },
  {
   "property": "C64",
   "status": "proved",
   "theorems": [
    "C64_positives",
    "C64_pairs"
   ],
   "note": "For two-bit vectors a learned rule that mentions (bv x y) is only claimed to agree where both sides are well-formed."
  },
  {
   "property": "C65",
   "status": "proved",
   "theorems": [
    "C65_rewriting",
    "C65_forwarding",
    "C65_deriving"
   ],
   "note": "Learned rules are not themselves shown safe: they are true where the workload they were learned from has values."
  },
  {
   "property": "C66",
   "status": "proved",
   "theorems": [
    "C66_real",
    "C66_constants",
    "C66_rules",
    "C66_rules_refuted",
    "C66_rewriting",
    "C66_forwarding",
    "C66_forbidden",
    "C66_deriving",
    "C66_rewriting_refuted"
   ],
   "note": "Uses the axioms of the standard library's real numbers. The theorems about rewriting and learning leave the one unsafe rule out."
  },
  {
   "property": "C67",
   "status": "proved",
   "theorems": [
    "C67_constants",
    "C67_root",
    "C67_rules",
    "C67_rewriting",
    "C67_forwarding",
    "C67_deriving",
    "C67_division_refuted",
    "C67_chaining_refuted"
   ],
   "note": "Uses the axioms of the standard library's real numbers. Soundness is per call of run_fast_forwarding: chaining layers is refuted."
  },
  {
   "property": "C68",
   "status": "proved",
   "theorems": [
    "C68_condition",
    "C68_same",
    "C68_accepted",
    "C68_if_refuted",
    "C68_no_panic",
    "C68_learned",
    "C68_origin",
    "C68_accounted"
   ],
   "note": "Completeness of the solver is a hypothesis of C68_accepted and of the refutation only."
  },
  {
   "property": "C69",
   "status": "proved",
   "theorems": [
    "C69_workload",
    "C69_recursive",
    "C69_boolean",
    "C69_bitvectors",
    "C69_left_out_refuted"
   ],
   "note": "That the solver always answers and is right about sat are hypotheses of C69_bitvectors only."
  },
  {
   "property": "C70",
   "status": "proved",
   "theorems": [
    "C70_points",
    "C70_rules",
    "C70_expected",
    "C70_layers",
    "C70_forwarding",
    "C70_consequences",
    "C70_rewriting"
   ],
   "note": "The geometric meaning of the operators (SolidSpec.v) is ours: the repository has no interpreter for this domain."
  },
  {
   "property": "C71",
   "status": "proved",
   "theorems": [
    "C71_bool",
    "C71_bv",
    "C71_halide",
    "C71_rational",
    "C71_reports",
    "C71_contradictory_refuted"
   ],
   "note": "Baselines.v is a transcription of the files, line by line. herbie-trig.rules and herbie-exp.rules are the subject of C76."
  },
  {
   "property": "C72",
   "status": "proved",
   "theorems": [
    "C72_large",
    "C72_halide_terms",
    "C72_rational_terms",
    "C72_exponential_terms",
    "C72_log_refuted",
    "C72_trig_terms",
    "C72_read",
    "C72_bool",
    "C72_bv",
    "C72_halide",
    "C72_rational",
    "C72_exponential",
    "C72_exponential_kept",
    "C72_trig"
   ],
   "note": "C72_log_refuted shows the hole name that does not occur (\"bup\"). Truth of the exponential and trigonometric rules beyond the first layer is the subject of C66 and C67. C72_exponential_kept says what the exponential recipe keeps and does not add; that every rule its layers learn is returned is not claimed."
  },
  {
   "property": "C73",
   "status": "proved",
   "theorems": [
    "C73_booleans",
    "C73_bitvectors",
    "C73_any_rules",
    "C73_derivability",
    "C73_false_rule_refuted",
    "C73_exponentials"
   ],
   "note": "Rebuilding is a loop with fuel in the model, and running out of it is Panic; the theorems give fuel with which it ends and the same result for any more. In the language of exponentials the rebuild that initialize_vars makes after each link is left out (it is made when rules are run). C73_false_rule_refuted shows why the rules have to be true. Rationals and naturals (whose intervals can have infinitely many values) and the two domains with a hook of their own on classes (bv-bool, trig) are not covered."
  },
  {
   "property": "C74",
   "status": "proved",
   "theorems": [
    "C74_booleans",
    "C74_bitvectors",
    "C74_any_rules",
    "C74_recursive",
    "C74_exponentials",
    "C74_exponential_recipe"
   ],
   "note": "Fuel bounds loops in the model; each step has fuel with which it ends and the same result for any more. A run is a relation (matches, limits, hash orders are free), so the statements cover every intermediate state a run can be in, and say the next step is defined. Rationals, naturals, bv-bool and trig are not covered (see C73). C74_exponential_recipe is about the recipe of tests/recipes/exponential.rs with its rule files. That more than 26 variables panic is C32."
  },
  {
   "property": "C75",
   "status": "proved",
   "theorems": [
    "C75_lowering",
    "C75_forwarding",
    "C75_consequences",
    "C75_goes_on",
    "C75_rules_refuted",
    "C75_test_refuted"
   ],
   "note": "C75_rules_refuted and C75_test_refuted are the two violations by the test file, which calls itself \"very experimental\" and \"doesn't work\". The run of C75_test_refuted is one that the model allows (some matches are applied and others are not); the iteration limit of 3 in the test is not modelled. Variables may stand for anything in the meaning; what is not the value true counts as false."
  },
  {
   "property": "C76",
   "status": "proved",
   "theorems": [
    "C76_trig",
    "C76_trig_rewriting",
    "C76_trig_reports",
    "C76_powers",
    "C76_exp",
    "C76_exp_rewriting",
    "C76_exp_reports",
    "C76_contradictory_refuted"
   ],
   "note": "C76_contradictory_refuted is the violation: the prior knowledge that herbie-exp.rules stands for is unsound at 0 and at negative numbers. Real powers and third roots are defined in HerbieSpec.v; C76_powers relates them to the usual ones. The tests compare with these files but never rewrite with them as prior rules."
  },
  {
   "property": "C77",
   "status": "proved",
   "theorems": [
    "C77_consequences",
    "C77_found",
    "C77_forwarding",
    "C77_true",
    "C77_test",
    "C77_test_refuted"
   ],
   "note": "C77_test_refuted is the violation: the division rules of complex.rules and the rules that multiply by 0 make the sine 0. The elapsed time of the row is left out."
  },
  {
   "property": "C78",
   "status": "proved",
   "theorems": [
    "C78_terms",
    "C78_counts",
    "C78_learned",
    "C78_lifted",
    "C78_account",
    "C78_kept",
    "C78_given",
    "C78_finishes",
    "C78_expected"
   ],
   "note": "The numbers of rules that the tests assert at the end, and whether the expected rules are derived within the limits, depend on times and orders and are not claimed. Runs that insist on new rules (simple) are covered when they return."
  },
  {
   "property": "C79",
   "status": "proved",
   "theorems": [
    "C79_terms",
    "C79_learned",
    "C79_account",
    "C79_saved",
    "C79_finishes"
   ],
   "note": "The test itself has the depths 2 and 3. That the nine expected rules are derived within the limits depends on times and orders and is not claimed; that they keep the points is C70_expected."
  },
  {
   "property": "C80",
   "status": "proved",
   "theorems": [
    "C80_term",
    "C80_lines",
    "C80_learned",
    "C80_names_refuted"
   ],
   "note": "C80_names_refuted is the case of longer names, which learned rules never have (C80_learned). That different rules get different lines is not claimed: a literal 0 inside Lit and a bare literal 0 print alike."
  }
 ]
}