{
 "claims": [
  {
   "property": "C01",
   "status": "proved",
   "theorems": [
    "C01_bdd_add"
   ],
   "note": ""
  },
  {
   "property": "C02",
   "status": "proved",
   "theorems": [
    "C02_bdd_subtract"
   ],
   "note": ""
  },
  {
   "property": "C03",
   "status": "proved",
   "theorems": [
    "C03_bdd_abs"
   ],
   "note": ""
  },
  {
   "property": "C04",
   "status": "proved",
   "theorems": [
    "C04_absolute_difference_unsigned"
   ],
   "note": ""
  },
  {
   "property": "C05",
   "status": "partial",
   "theorems": [
    "C05_absolute_difference_signed_refuted",
    "C05_absolute_difference_signed_partial"
   ],
   "note": "The property is false of the code: the subtraction overflows when the distance exceeds half the word. The refutation gives the witness 1-(-2) on two bits; the partial theorem gives the exact value min(d, 2^n-d) for all inputs."
  },
  {
   "property": "C06",
   "status": "proved",
   "theorems": [
    "C06_bdd_shift"
   ],
   "note": ""
  },
  {
   "property": "C07",
   "status": "proved",
   "theorems": [
    "C07_multiply_constant_integer"
   ],
   "note": "ceil(log2(.)) is any function with z < 2^(clog2 z + 2)."
  },
  {
   "property": "C08",
   "status": "proved",
   "theorems": [
    "C08_multiply_constant_real",
    "C08_multiply_constant_small"
   ],
   "note": "Doubles are the rationals they represent; ceil(log2(.)) is any function with z < 2^(clog2 z + 2)."
  },
  {
   "property": "C09",
   "status": "proved",
   "theorems": [
    "C09_greater_equals",
    "C09_greater_than",
    "C09_well_formed"
   ],
   "note": ""
  },
  {
   "property": "C10",
   "status": "proved",
   "theorems": [
    "C10_exists_greater_equals"
   ],
   "note": ""
  },
  {
   "property": "C11",
   "status": "proved",
   "theorems": [
    "C11_bdd_max_one",
    "C11_bdd_max_one_empty"
   ],
   "note": ""
  },
  {
   "property": "C12",
   "status": "proved",
   "theorems": [
    "C12_bdd_divide"
   ],
   "note": ""
  },
  {
   "property": "C13",
   "status": "proved",
   "theorems": [
    "C13_number_to_bdds"
   ],
   "note": ""
  },
  {
   "property": "C14",
   "status": "proved",
   "theorems": [
    "C14_high",
    "C14_high_constant"
   ],
   "note": ""
  },
  {
   "property": "C15",
   "status": "partial",
   "theorems": [
    "C15_low_refuted",
    "C15_low_partial"
   ],
   "note": "The property is false of the code: low complements the cofactor when both the edge and the else edge are complemented, e.g. x0 xor x1. The partial theorem gives the value for every BDD."
  },
  {
   "property": "C16",
   "status": "proved",
   "theorems": [
    "C16_eval",
    "C16_eval_too_wide"
   ],
   "note": ""
  },
  {
   "property": "C17",
   "status": "proved",
   "theorems": [
    "C17_eval_adder",
    "C17_eval_adder_too_wide",
    "C17_eval_adder_32"
   ],
   "note": ""
  },
  {
   "property": "C18",
   "status": "proved",
   "theorems": [
    "C18_count_minterms"
   ],
   "note": "Doubles are the rationals they represent. The key set is exactly the set of reachable edges."
  },
  {
   "property": "C19",
   "status": "proved",
   "theorems": [
    "C19_count_solutions"
   ],
   "note": "Doubles are the rationals they represent; index order; terminal level as computed by the code."
  },
  {
   "property": "C20",
   "status": "partial",
   "theorems": [
    "C20_random_satisfying_input_refuted",
    "C20_random_satisfying_input_partial",
    "C20_wrong_exactly_on_zero_draws"
   ],
   "note": "The property is false of the code: rand() == 0 takes the then branch even when it has no solution (witness !x0). The partial theorem covers all draws in (0, RAND_MAX]; C20_wrong_exactly_on_zero_draws covers all draws and says exactly which of them give a wrong result."
  },
  {
   "property": "C21",
   "status": "proved",
   "theorems": [
    "C21_add_terminal_values"
   ],
   "note": "ADD leaves are rationals; CUDD's epsilon merging of leaves is not modelled."
  },
  {
   "property": "C22",
   "status": "proved",
   "theorems": [
    "C22_bdd_forest_to_add"
   ],
   "note": ""
  },
  {
   "property": "C23",
   "status": "proved",
   "theorems": [
    "C23_absolute_difference_add",
    "C23_xor_difference_add"
   ],
   "note": ""
  },
  {
   "property": "C24",
   "status": "proved",
   "theorems": [
    "C24_error_rate"
   ],
   "note": ""
  },
  {
   "property": "C25",
   "status": "proved",
   "theorems": [
    "C25_error_rate_add"
   ],
   "note": "Exact rationals for doubles; at most 63 variables in index order."
  },
  {
   "property": "C26",
   "status": "proved",
   "theorems": [
    "C26_average_bit_flip_error"
   ],
   "note": "The _add variant additionally needs at most 64 outputs and width*2^n < 2^64 (its 64 bit sum)."
  },
  {
   "property": "C27",
   "status": "proved",
   "theorems": [
    "C27_worst_case_bit_flip_error"
   ],
   "note": "Width below 2^32; the popcount variant at most 64 outputs."
  },
  {
   "property": "C28",
   "status": "proved",
   "theorems": [
    "C28_get_max_value"
   ],
   "note": "Also gives the value beyond 256 bits: the maximum modulo 2^256."
  },
  {
   "property": "C29",
   "status": "proved",
   "theorems": [
    "C29_worst_case_error"
   ],
   "note": ""
  },
  {
   "property": "C30",
   "status": "partial",
   "theorems": [
    "C30_worst_case_error_twos_refuted",
    "C30_worst_case_error_twos_partial"
   ],
   "note": "The property is false of the BDD variant (overflow, C05): witness 1 and -2 on two bits. The partial theorem gives the exact value max min(d, 2^w-d) and the exactness of the ADD variant."
  },
  {
   "property": "C31",
   "status": "proved",
   "theorems": [
    "C31_worst_case_error_percent"
   ],
   "note": "For more than 53 bits the double 2^n-1 rounds to 2^n; this rounding is modelled, the rounding of the quotient is not."
  },
  {
   "property": "C32",
   "status": "proved",
   "theorems": [
    "C32_approximate_worst_case_error",
    "C32_approximate_worst_case_error_value",
    "C32_bound_attained"
   ],
   "note": "Bounds and the exact value (maximum of the shifted values, scaled back). The upper bound is attained (constants 2^N and 2^N-1)."
  },
  {
   "property": "C33",
   "status": "partial",
   "theorems": [
    "C33_approximate_bound_refuted",
    "C33_approximate_bound_partial",
    "C33_bound_sharp"
   ],
   "note": "The documented bound is false: f=2, f_hat=1 constant, n=1 gives 3 for a worst case error of 1. The partial theorem gives relative error 4/2^n when the leading difference is not cancelled. Both are sharp: the relative error is unbounded in general (C32_bound_attained), and 4/2^n is approached by a family of constants (C33_bound_sharp)."
  },
  {
   "property": "C34",
   "status": "partial",
   "theorems": [
    "C34_approximate_twos_refuted",
    "C34_approximate_twos_partial",
    "C34_approximate_twos_value_partial",
    "C34_approximate_twos_wrapped_partial"
   ],
   "note": "False of the code: differences in the sign bit alone are not seen (result 0). The partial theorem covers functions with the same sign bit. A second theorem gives the exact value for any sign bits. A third one shows that the wrapped difference of C05 is never underestimated if some output besides the sign bit differs, nor is the true one if it does not exceed half the range."
  },
  {
   "property": "C35",
   "status": "proved",
   "theorems": [
    "C35_average_value"
   ],
   "note": ""
  },
  {
   "property": "C36",
   "status": "partial",
   "theorems": [
    "C36_mean_squared_value_refuted",
    "C36_mean_squared_value_partial",
    "C36_mean_squared_value_exact_partial",
    "C36_mean_squared_value_gap"
   ],
   "note": "False of the code: counts of conjunctions are truncated when their support exceeds the largest single support ({x0,x1} gives 2.5 instead of 3.5). The partial theorem gives a lower bound and exactness when one output depends on all variables. A second partial theorem gives the exact value: pair counts rounded down. The error is below (2^m-1)^2/2^s, and the result is exact iff the count of every pair is a multiple of 2^-s of all inputs (C36_mean_squared_value_gap)."
  },
  {
   "property": "C37",
   "status": "proved",
   "theorems": [
    "C37_average_case_error",
    "C37_average_case_error_wrapped"
   ],
   "note": "Width plus number of variables below 256. The two's complement BDD variant averages min(d, 2^w-d)."
  },
  {
   "property": "C38",
   "status": "partial",
   "theorems": [
    "C38_mean_squared_error_refuted",
    "C38_mean_squared_error_partial",
    "C38_mean_squared_error_exact_partial",
    "C38_mean_squared_error_add",
    "C38_mean_squared_error_gap"
   ],
   "note": "The BDD variant inherits C36; the ADD variant is exact for 2*width+n <= 256. The exact value of the BDD variant is stated as well. Its error is bounded and its exactness characterised like in C36."
  },
  {
   "property": "C39",
   "status": "proved",
   "theorems": [
    "C39_wcre_add",
    "C39_acre_add"
   ],
   "note": "Exact rationals for doubles; at most 63 variables in index order."
  },
  {
   "property": "C40",
   "status": "proved",
   "theorems": [
    "C40_wcre_bounds",
    "C40_wrel_unsigned"
   ],
   "note": "In two's complement the bracketed value uses the wrapped difference of C05."
  },
  {
   "property": "C41",
   "status": "proved",
   "theorems": [
    "C41_acre_bounds"
   ],
   "note": "Width plus number of variables below 256; wrapped difference of C05 in two's complement."
  },
  {
   "property": "C42",
   "status": "proved",
   "theorems": [
    "C42_wcre_symbolic_division",
    "C42_acre_symbolic_division",
    "C42_wcre_symbolic_division_value"
   ],
   "note": "Width plus extra bits (plus variables) at most 256 bits."
  },
  {
   "property": "C43",
   "status": "partial",
   "theorems": [
    "C43_wcre_search_refuted",
    "C43_wcre_search_partial"
   ],
   "note": "The property is false of the code: masked inputs look like an exact hit (constant 4 against 9/4 gives 1.5 instead of 1.25), and a worst case strictly between 0 and 1 is undefined behaviour. The partial theorem: within 142 rounds a value at most precision/2 too small and less than 50% too large. C174 gives the exact value that is returned and shows that the 50% cannot be improved."
  },
  {
   "property": "C44",
   "status": "proved",
   "theorems": [
    "C44_randomized_search_exact",
    "C44_randomized_search_terminates",
    "C44_randomized_search_no_samples"
   ],
   "note": "Widths up to 62 bits. Random draws are an arbitrary sequence; termination needs draws in (0, RAND_MAX] (C20)."
  },
  {
   "property": "C45",
   "status": "partial",
   "theorems": [
    "C45_efficient_sampling_refuted",
    "C45_efficient_sampling_ub",
    "C45_sampling_partial",
    "C45_efficient_sampling_exact",
    "C45_error_rate_sampling_value"
   ],
   "note": "Efficient sampling is undefined when it compares more than one output of which at most one is ever wrong (0/0 converted to long). Otherwise the range holds; exact in the nested and disjoint cases. Less than 2^31 samples (int counter). Plain sampling is shown to return exactly the share of wrong samples."
  },
  {
   "property": "C46",
   "status": "proved",
   "theorems": [
    "C46_subset_operators"
   ],
   "note": "All variable orders. Reference counting: C139, C140."
  },
  {
   "property": "C47",
   "status": "proved",
   "theorems": [
    "C47_superset_operators"
   ],
   "note": "All variable orders."
  },
  {
   "property": "C48",
   "status": "proved",
   "theorems": [
    "C48_one_level",
    "C48_level_range",
    "C48_outside_range",
    "C48_child_choice"
   ],
   "note": "One level: every order. Ranges of levels: index order, halving per level. The replaced child and the behaviour on ties are characterised by at_range."
  },
  {
   "property": "C49",
   "status": "proved",
   "theorems": [
    "C49_round_optimal"
   ],
   "note": "Index order (levels are variable indices in the code). Competitors are arbitrary functions of the variables below the level."
  },
  {
   "property": "C50",
   "status": "partial",
   "theorems": [
    "C50_round_best_levels",
    "C50_round_best_refuted",
    "C50_round_best_partial"
   ],
   "note": "False on ties: both children are replaced (x0 xor x1: error 1/2 instead of 1/4). Proved: at most twice the minimum, minimal without ties; C50_round_best_levels gives the result for every range of levels, ties included."
  },
  {
   "property": "C51",
   "status": "partial",
   "theorems": [
    "C51_round_down_refuted",
    "C51_round_up_refuted",
    "C51_round_partial",
    "C51_same_level_partial"
   ],
   "note": "False: count_solutions counts over the variables below each child, so skipped levels distort the comparison; round_up fills the lighter child. Proved: the exact criterion, and the stated one for round_down when children start at the same level."
  },
  {
   "property": "C52",
   "status": "proved",
   "theorems": [
    "C52_index_conversions",
    "C52_index_order",
    "C52_zero_grid"
   ],
   "note": "Grid sizes with product at most 2^64 (no wrap of size_t); a grid size of zero is a division by zero."
  },
  {
   "property": "C53",
   "status": "proved",
   "theorems": [
    "C53_buckets_sound",
    "C53_no_metrics"
   ],
   "note": "Metrics and operators are arbitrary functions; metric values are exact rationals."
  },
  {
   "property": "C54",
   "status": "proved",
   "theorems": [
    "C54_terminates",
    "C54_fuel_irrelevant",
    "C54_total",
    "C54_misuse"
   ],
   "note": "At most volume * nodeCount + 1 buckets are explored; totality if metrics and operators are total and the scaled errors fit size_t."
  },
  {
   "property": "C55",
   "status": "proved",
   "theorems": [
    "C55_looser_smaller",
    "C55_last_smallest"
   ],
   "note": "Also: the last bucket is a smallest one."
  },
  {
   "property": "C56",
   "status": "proved",
   "theorems": [
    "C56_apply_operator",
    "C56_single_operators",
    "C56_multi_operators"
   ],
   "note": "The light/heavy choice is stated by the replaced child as in C48-C51; ROUND optimality needs index order."
  },
  {
   "property": "C57",
   "status": "proved",
   "theorems": [
    "C57_pla_sum_of_cubes",
    "C57_pla_outcome"
   ],
   "note": ""
  },
  {
   "property": "C58",
   "status": "proved",
   "theorems": [
    "C58_aig_correct",
    "C58_aig_sound",
    "C58_aig_undeclared"
   ],
   "note": ""
  },
  {
   "property": "C59",
   "status": "partial",
   "theorems": [
    "C59_accesses_refuted",
    "C59_accesses_partial",
    "C59_header_partial"
   ],
   "note": "False: the assertions of on_input_name, on_output_name and on_and admit the index one past the end, and a header with m = 2^63-1 wraps to no literals. Proved: these are the only undefined accesses in any reachable state."
  },
  {
   "property": "C60",
   "status": "proved",
   "theorems": [
    "C60_regular_adder"
   ],
   "note": ""
  },
  {
   "property": "C61",
   "status": "proved",
   "theorems": [
    "C61_almost_correct_adder_1",
    "C61_almost_correct_adder_2",
    "C61_gracefully_degrading_adder",
    "C61_generic_accuracy_reconfigurable_adder"
   ],
   "note": "Parameters below 2^30 (no unsigned wrap). Admissible parameters are characterised exactly together with C66."
  },
  {
   "property": "C62",
   "status": "proved",
   "theorems": [
    "C62_almost_correct_adder_1",
    "C62_almost_correct_adder_2",
    "C62_gracefully_degrading_adder",
    "C62_generic_accuracy_reconfigurable_adder"
   ],
   "note": "Stronger than stated: an equivalence. Windows are given by the restart positions of each adder."
  },
  {
   "property": "C63",
   "status": "proved",
   "theorems": [
    "C63_and_bdd",
    "C63_or_bdd",
    "C63_xor_bdd",
    "C63_wf"
   ],
   "note": ""
  },
  {
   "property": "C64",
   "status": "proved",
   "theorems": [
    "C64_dump_dot",
    "C64_order",
    "C64_default_names",
    "C64_given_names",
    "C64_single"
   ],
   "note": "The text is modelled as a list of node and edge statements; presentation attributes are left out. Pointers are printed injectively and start with 0x. Complement edges are resolved, so a function and its complement are two nodes. Equal user given names are merged by dot (hence the NoDup condition)."
  },
  {
   "property": "C65",
   "status": "partial",
   "theorems": [
    "C65_compute_error_metric_refuted",
    "C65_compute_error_metric_partial"
   ],
   "note": "The property is false of the code: the two average case relative metrics are called with (approx, original) (benchmark_util.cpp 77, 79). The partial theorem gives every metric; the mean squared error and the binary search inherit C38 and C43."
  },
  {
   "property": "C66",
   "status": "proved",
   "theorems": [
    "C66_almost_correct_adder_1",
    "C66_almost_correct_adder_2",
    "C66_gracefully_degrading_adder",
    "C66_generic_accuracy_reconfigurable_adder"
   ],
   "note": "Findings: ACA2 with partition size 1 and GDA with more partitions than bits divide by zero; GeAr with sub adders longer than n + 1 bits reads out of bounds."
  },
  {
   "property": "C67",
   "status": "partial",
   "theorems": [
    "C67_full_partition_refuted",
    "C67_full_partition_partial"
   ],
   "note": "False: n = 1, 1 + 1 gives 0. Proved: only the carry out generated at bit 0 is lost."
  },
  {
   "property": "C68",
   "status": "proved",
   "theorems": [
    "C68_no_improvement"
   ],
   "note": "Fixpoint invariant of the work list, including early stopping on partial indices."
  },
  {
   "property": "C69",
   "status": "partial",
   "theorems": [
    "C69_error_bounds_refuted",
    "C69_error_bounds_partial",
    "C69_mean_squared_partial",
    "C69_helper_total_partial"
   ],
   "note": "False for MEAN_SQUARED (computed too small, C38): [x0;x1] with bound 3.25 yields [0;0] with mean squared error 3.5. Proved for the nine other metrics within the sizes for which they are exact, and for MEAN_SQUARED that the truncated value of C38 keeps the bound (the error itself if some bit of the difference depends on all its variables), with totality of the helper (in RANDOM mode with two draws per operator)."
  },
  {
   "property": "C70",
   "status": "partial",
   "theorems": [
    "C70_single_output_refuted",
    "C70_random_operators_partial",
    "C70_outcome_partial"
   ],
   "note": "False: operator and level are fixed at creation and applied to all outputs. Proved: number of operators, kind, level, and when the call is undefined (no kinds or no outputs)."
  },
  {
   "property": "C71",
   "status": "partial",
   "theorems": [
    "C71_pareto_front_refuted",
    "C71_same_size_partial"
   ],
   "note": "False with and without populate_all (error rate, cofactor operators on three outputs). Proved: with populate_all a dominated bucket has the same size as the one dominating it."
  },
  {
   "property": "C72",
   "status": "proved",
   "theorems": [
    "C72_function_operations",
    "C72_function_value",
    "C72_function_write",
    "C72_function_empty"
   ],
   "note": ""
  },
  {
   "property": "C73",
   "status": "proved",
   "theorems": [
    "C73_split_words"
   ],
   "note": ""
  },
  {
   "property": "C74",
   "status": "partial",
   "theorems": [
    "C74_variable_names_refuted",
    "C74_variable_names_partial",
    "C74_registered_names"
   ],
   "note": "False for several .ilb lines: every such line registers all previous input names again. Proved for at most one .ilb line; the stored names are right for all files. C74_registered_names gives the registered list for any number of lines: the names of all prefixes of the lines; it is right iff only the last line has names."
  },
  {
   "property": "C75",
   "status": "proved",
   "theorems": [
    "C75_names",
    "C75_adder_names"
   ],
   "note": ""
  },
  {
   "property": "C76",
   "status": "proved",
   "theorems": [
    "C76_get_approximate_adder",
    "C76_windows"
   ],
   "note": ""
  },
  {
   "property": "C77",
   "status": "proved",
   "theorems": [
    "C77_load_adder",
    "C77_load_input_adder",
    "C77_load_input_file"
   ],
   "note": "The callbacks of lorina for a parsable file are the input; reading aborts with the C59 outcomes for other files."
  },
  {
   "property": "C78",
   "status": "proved",
   "theorems": [
    "C78_format_time",
    "C78_integer_text"
   ],
   "note": ""
  },
  {
   "property": "C79",
   "status": "proved",
   "theorems": [
    "C79_vec_to_arr"
   ],
   "note": "new picks the next address that is not in use."
  },
  {
   "property": "C80",
   "status": "proved",
   "theorems": [
    "C80_positions"
   ],
   "note": ""
  },
  {
   "property": "C81",
   "status": "proved",
   "theorems": [
    "C81_function_from_individuum"
   ],
   "note": ""
  },
  {
   "property": "C82",
   "status": "proved",
   "theorems": [
    "C82_fitness",
    "C82_limit_rounding"
   ],
   "note": "Finding: the comment says functions greater than the original are skipped, but the test is >=, so the original itself is penalised. Doubles are rationals; the limits are rounded to float as in the code."
  },
  {
   "property": "C83",
   "status": "proved",
   "theorems": [
    "C83_make_population",
    "C83_bounds"
   ],
   "note": "Dimension 0 is undefined behaviour; run_genetic_minimization throws before (mutation probability 0.3/0)."
  },
  {
   "property": "C84",
   "status": "partial",
   "theorems": [
    "C84_run_refuted",
    "C84_run_partial",
    "C84_run_any_limits_partial"
   ],
   "note": "The property is false of the code: the limits are stored as float, so an error between the rounded and the given limit is penalised in fitness but accepted in the run, and the penalised node count is reported. The partial theorem covers all functions whose errors are exact floats. pagmo is an arbitrary function on populations. A second theorem covers any limits: the reported errors belong to a function that was found, the reported node count is its penalised size, and no function that was found has a smaller penalised size."
  },
  {
   "property": "C85",
   "status": "proved",
   "theorems": [
    "C85_run_ends"
   ],
   "note": "2^64 rounds suffice in general; nodeCount + 1 in the setting of C84."
  },
  {
   "property": "C86",
   "status": "proved",
   "theorems": [
    "C86_rates_and_maxima",
    "C86_squares",
    "C86_relative"
   ],
   "note": ""
  },
  {
   "property": "C87",
   "status": "proved",
   "theorems": [
    "C87_metric_laws"
   ],
   "note": ""
  },
  {
   "property": "C88",
   "status": "proved",
   "theorems": [
    "C88_single_function",
    "C88_rates",
    "C88_arithmetic",
    "C88_approximate",
    "C88_division"
   ],
   "note": ""
  },
  {
   "property": "C89",
   "status": "proved",
   "theorems": [
    "C89_values",
    "C89_rounding"
   ],
   "note": ""
  },
  {
   "property": "C90",
   "status": "proved",
   "theorems": [
    "C90_terminal_level"
   ],
   "note": ""
  },
  {
   "property": "C91",
   "status": "proved",
   "theorems": [
    "C91_minterms_exact",
    "C91_solutions_exact",
    "C91_metrics_exact",
    "C91_minterms_relative",
    "C91_metrics_relative",
    "C91_error_rate_zero",
    "C91_double_rounding"
   ],
   "note": "`Rounded.v` models the operations of the listed functions again with rounding; overflow and underflow (over 1000 variables) are not modelled."
  },
  {
   "property": "C92",
   "status": "proved",
   "theorems": [
    "C92_operators",
    "C92_round_up_down",
    "C92_differs_beyond"
   ],
   "note": ""
  },
  {
   "property": "C93",
   "status": "proved",
   "theorems": [
    "C93_value"
   ],
   "note": ""
  },
  {
   "property": "C94",
   "status": "proved",
   "theorems": [
    "C94_average_case_error",
    "C94_almost_correct_adder_1",
    "C94_gracefully_degrading_adder",
    "C94_gear",
    "C94_average_bit_flip_error",
    "C94_gda_all_parameters",
    "C94_aca2_all_parameters",
    "C94_gear_all_parameters"
   ],
   "note": ""
  },
  {
   "property": "C95",
   "status": "proved",
   "theorems": [
    "C95_worst_case_error",
    "C95_almost_correct_adder_1",
    "C95_gda",
    "C95_aca2",
    "C95_gear"
   ],
   "note": ""
  },
  {
   "property": "C96",
   "status": "proved",
   "theorems": [
    "C96_error_rate"
   ],
   "note": ""
  },
  {
   "property": "C97",
   "status": "partial",
   "theorems": [
    "C97_longer_sub_adders_refuted",
    "C97_longer_sub_adders_partial"
   ],
   "note": "False on single inputs: 7 + 1 is 6 with sub adders of 1 bit and 4 with sub adders of 2 bits. What holds: exact sums stay exact, and error rate, bit flip error, worst and average case error never get worse; C178 has the squared and relative errors."
  },
  {
   "property": "C98",
   "status": "proved",
   "theorems": [
    "C98_support"
   ],
   "note": ""
  },
  {
   "property": "C99",
   "status": "partial",
   "theorems": [
    "C99_size_refuted",
    "C99_size_partial"
   ],
   "note": "False: on the parity of three variables subset_light_child at level 1 gives 5 nodes instead of 4, since the node below is reached with and without complement. What holds: at most twice the nodes in index order, at most three times in any order. C163 shows that the factor two cannot be improved."
  },
  {
   "property": "C100",
   "status": "partial",
   "theorems": [
    "C100_idempotent_refuted",
    "C100_idempotent_partial",
    "C100_twice_then_stable"
   ],
   "note": "False for superset_light_child, subset_heavy_child and round_up, which then replace the other child. Proved for subset_light_child, superset_heavy_child, round_bdd, round_best and (index order) round_down. C100_twice_then_stable: the second application of subset_heavy_child/superset_light_child turns every node of the range into the constant, the third changes nothing."
  },
  {
   "property": "C101",
   "status": "partial",
   "theorems": [
    "C101_complement_refuted",
    "C101_complement_partial"
   ],
   "note": "False on ties (x0 xor x1): the light variants replace the then child, the heavy variants the else child. Proved when no node in the range has children of equal density (round: no node of density 1/2 at or below the level; round_best: no node whose children both have density 1/2)."
  },
  {
   "property": "C102",
   "status": "proved",
   "theorems": [
    "C102_operators",
    "C102_iscas85",
    "C102_iscas85_error"
   ],
   "note": ""
  },
  {
   "property": "C103",
   "status": "proved",
   "theorems": [
    "C103_average_case_error",
    "C103_ace_steps"
   ],
   "note": ""
  },
  {
   "property": "C104",
   "status": "proved",
   "theorems": [
    "C104_generate_adders",
    "C104_benchmark_adders"
   ],
   "note": ""
  },
  {
   "property": "C105",
   "status": "partial",
   "theorems": [
    "C105_aca1_gear_refuted",
    "C105_aca1_gear_partial"
   ],
   "note": "False as stated: the carry out differs. The partial theorem shows that all sum bits are identical BDDs; C162 shows that the carry out differs for all parameters."
  },
  {
   "property": "C106",
   "status": "partial",
   "theorems": [
    "C106_aca2_gear_refuted",
    "C106_gda_gear_refuted",
    "C106_aca2_gear_partial",
    "C106_gda_gear_partial"
   ],
   "note": "False as stated: for N = 8 and partition size 6 the blocks of ACA2 have 4 instead of 3 bits, and GDA with a lookback that is no multiple of the block length restarts at other positions. The partial theorems show identical BDDs under N/(N/2h + 1) = h and (N/p) | P; C162 gives the conditions in necessary and sufficient form."
  },
  {
   "property": "C107",
   "status": "proved",
   "theorems": [
    "C107_error_rate_sampling"
   ],
   "note": ""
  },
  {
   "property": "C108",
   "status": "proved",
   "theorems": [
    "C108_nearly_uniform",
    "C108_wrong_inputs"
   ],
   "note": ""
  },
  {
   "property": "C109",
   "status": "proved",
   "theorems": [
    "C109_efficient_sampling"
   ],
   "note": ""
  },
  {
   "property": "C110",
   "status": "proved",
   "theorems": [
    "C110_sampling_methods",
    "C110_improved_sampling"
   ],
   "note": ""
  },
  {
   "property": "C111",
   "status": "proved",
   "theorems": [
    "C111_gate_cofactors"
   ],
   "note": ""
  },
  {
   "property": "C112",
   "status": "proved",
   "theorems": [
    "C112_exact",
    "C112_error_rate",
    "C112_average_bit_flip",
    "C112_wcre",
    "C112_acre",
    "C112_more_outputs"
   ],
   "note": ""
  },
  {
   "property": "C113",
   "status": "proved",
   "theorems": [
    "C113_dot_text",
    "C113_picture",
    "C113_quote_unreadable"
   ],
   "note": ""
  },
  {
   "property": "C114",
   "status": "proved",
   "theorems": [
    "C114_adder_size",
    "C114_sum_size"
   ],
   "note": ""
  },
  {
   "property": "C115",
   "status": "proved",
   "theorems": [
    "C115_limit",
    "C115_adders",
    "C115_row",
    "C115_circuits"
   ],
   "note": ""
  },
  {
   "property": "C116",
   "status": "partial",
   "theorems": [
    "C116_epfl_loader_refuted",
    "C116_epfl_loader_partial",
    "C116_iscas_loader"
   ],
   "note": "False for load_epfl_benchmark_file, which ignores the return code of lorina: a missing file gives the empty vector, a file cut off after its header constant functions. Proved for load_iscas_85_file; the partial theorem says what the EPFL loader does in these cases and that it is right for correct files."
  },
  {
   "property": "C117",
   "status": "proved",
   "theorems": [
    "C117_adder_rows",
    "C117_adders",
    "C117_circuits"
   ],
   "note": ""
  },
  {
   "property": "C118",
   "status": "proved",
   "theorems": [
    "C118_single_steps",
    "C118_within_bounds"
   ],
   "note": ""
  },
  {
   "property": "C119",
   "status": "partial",
   "theorems": [
    "C119_reachable_refuted",
    "C119_duplicated_outputs"
   ],
   "note": "False: an operator changes only one of two equal outputs, which makes nothing smaller, so the step is rejected although the next one would pay off. Proved: if every output occurs twice, nothing is ever found."
  },
  {
   "property": "C120",
   "status": "proved",
   "theorems": [
    "C120_leaf",
    "C120_integers",
    "C120_wcre",
    "C120_acre",
    "C120_zero",
    "C120_hidden"
   ],
   "note": "the constants table of CUDD is modelled from its documentation of ddEqualVal; the table is an arbitrary function of the two operands of a division"
  },
  {
   "property": "C121",
   "status": "proved",
   "theorems": [
    "C121_worst_case_bit_flip_error",
    "C121_almost_correct_adder_1",
    "C121_gda",
    "C121_aca2",
    "C121_gear"
   ],
   "note": ""
  },
  {
   "property": "C122",
   "status": "proved",
   "theorems": [
    "C122_relative_error",
    "C122_metrics"
   ],
   "note": ""
  },
  {
   "property": "C123",
   "status": "proved",
   "theorems": [
    "C123_mean_squared_error"
   ],
   "note": ""
  },
  {
   "property": "C124",
   "status": "proved",
   "theorems": [
    "C124_double_rounding",
    "C124_averages",
    "C124_percent"
   ],
   "note": ""
  },
  {
   "property": "C125",
   "status": "partial",
   "theorems": [
    "C125_strict_bound_refuted",
    "C125_buckets_partial",
    "C125_terminates",
    "C125_error_bounds_partial",
    "C125_mean_squared_partial",
    "C125_mean_squared_wide_partial",
    "C125_helper_total_partial"
   ],
   "note": "The strict bound is refuted (worst case error 1/3, bound the double next to 1/3, grid 7). The partial theorems give: the value of the metric is at most the bound, strictly below it for grids that are powers of two, and the exact error exceeds the bound at most by the roundings in the metric; the mean squared error has the defect of C69 in addition (beyond 53 variables its bound is shown only if an output of the difference depends on all of its variables), and the relative metrics need at most 53 outputs."
  },
  {
   "property": "C126",
   "status": "proved",
   "theorems": [
    "C126_subset",
    "C126_superset",
    "C126_rounding",
    "C126_child"
   ],
   "note": ""
  },
  {
   "property": "C127",
   "status": "proved",
   "theorems": [
    "C127_order",
    "C127_rounds"
   ],
   "note": ""
  },
  {
   "property": "C128",
   "status": "proved",
   "theorems": [
    "C128_search_failures",
    "C128_helper_failures",
    "C128_genetic_failures"
   ],
   "note": ""
  },
  {
   "property": "C129",
   "status": "proved",
   "theorems": [
    "C129_add_terminal_values_wide",
    "C129_no_long_edge"
   ],
   "note": ""
  },
  {
   "property": "C130",
   "status": "proved",
   "theorems": [
    "C130_worst_case_error_add_wide",
    "C130_worst_case_bit_flip_error_add_wide",
    "C130_wcre_add_wide"
   ],
   "note": ""
  },
  {
   "property": "C131",
   "status": "proved",
   "theorems": [
    "C131_average_add_64",
    "C131_no_total",
    "C131_average_add_65"
   ],
   "note": "The exact averages need width plus variables (squares: twice the width) of at most 256; C131_average_add_65 is the wrong number with 65 variables."
  },
  {
   "property": "C132",
   "status": "proved",
   "theorems": [
    "C132_wcre_search",
    "C132_same_search"
   ],
   "note": ""
  },
  {
   "property": "C133",
   "status": "partial",
   "theorems": [
    "C133_wcre_search_ends_refuted",
    "C133_wcre_search_never"
   ],
   "note": "refuted: constant functions with 41 outputs keep the bisection running for ever"
  },
  {
   "property": "C134",
   "status": "proved",
   "theorems": [
    "C134_randomized_search_exact",
    "C134_randomized_search_terminates",
    "C134_random_satisfying_input"
   ],
   "note": ""
  },
  {
   "property": "C135",
   "status": "proved",
   "theorems": [
    "C135_wcre_bounds",
    "C135_acre_bounds",
    "C135_wcre_symbolic_division",
    "C135_acre_symbolic_division"
   ],
   "note": ""
  },
  {
   "property": "C136",
   "status": "proved",
   "theorems": [
    "C136_error_rate_sampling",
    "C136_efficient_sampling",
    "C136_efficient_sampling_exact",
    "C136_more_failures"
   ],
   "note": "C136_more_failures: with 55 variables rounding makes efficient sampling fail for functions on which it succeeds with exact numbers."
  },
  {
   "property": "C137",
   "status": "proved",
   "theorems": [
    "C137_given_up_operators"
   ],
   "note": ""
  },
  {
   "property": "C138",
   "status": "proved",
   "theorems": [
    "C138_metric_failures",
    "C138_failed_assertions",
    "C138_other_metrics",
    "C138_approximate"
   ],
   "note": ""
  },
  {
   "property": "C139",
   "status": "proved",
   "theorems": [
    "C139_no_dangling_nodes"
   ],
   "note": ""
  },
  {
   "property": "C140",
   "status": "partial",
   "theorems": [
    "C140_references_released_refuted",
    "C140_references_left_partial"
   ],
   "note": "False of the code: every rebuilt subfunction keeps one reference for ever. The partial theorem gives the exact set of references left behind. On the other hand this reference is what keeps the result of the first recursive call alive during the second one (C139)."
  },
  {
   "property": "C141",
   "status": "partial",
   "theorems": [
    "C141_memory_exhaustion_reported_refuted",
    "C141_memory_exhaustion_partial"
   ],
   "note": ""
  },
  {
   "property": "C142",
   "status": "partial",
   "theorems": [
    "C142_dynamic_reordering_refuted",
    "C142_dynamic_reordering_partial"
   ],
   "note": ""
  },
  {
   "property": "C143",
   "status": "proved",
   "theorems": [
    "C143_minterms",
    "C143_solutions",
    "C143_operators",
    "C143_operators_exact",
    "C143_round_up_down",
    "C143_round_up_down_exact",
    "C143_random_satisfying_input",
    "C143_to_double",
    "C143_to_double_overflow",
    "C143_standard_add",
    "C143_standard_sub",
    "C143_standard_mul",
    "C143_standard_div",
    "C143_standard_compare"
   ],
   "note": ""
  },
  {
   "property": "C144",
   "status": "partial",
   "theorems": [
    "C144_random_satisfying_input_refuted",
    "C144_underflow",
    "C144_error_rate",
    "C144_round_down_refuted"
   ],
   "note": ""
  },
  {
   "property": "C145",
   "status": "partial",
   "theorems": [
    "C145_operators_robust",
    "C145_round_down_heavier_refuted"
   ],
   "note": ""
  },
  {
   "property": "C146",
   "status": "proved",
   "theorems": [
    "C146_range"
   ],
   "note": ""
  },
  {
   "property": "C147",
   "status": "proved",
   "theorems": [
    "C147_range_error",
    "C147_no_constant_is_better"
   ],
   "note": ""
  },
  {
   "property": "C148",
   "status": "proved",
   "theorems": [
    "C148_range_metrics"
   ],
   "note": ""
  },
  {
   "property": "C149",
   "status": "proved",
   "theorems": [
    "C149_rounds",
    "C149_number_of_rounds"
   ],
   "note": ""
  },
  {
   "property": "C150",
   "status": "proved",
   "theorems": [
    "C150_const_ADD_value"
   ],
   "note": ""
  },
  {
   "property": "C151",
   "status": "proved",
   "theorems": [
    "C151_wcre_bounds_value",
    "C151_acre_bounds_value",
    "C151_acre_division_value"
   ],
   "note": ""
  },
  {
   "property": "C152",
   "status": "proved",
   "theorems": [
    "C152_range_relative"
   ],
   "note": ""
  },
  {
   "property": "C153",
   "status": "proved",
   "theorems": [
    "C153_average_value",
    "C153_mean_squared_value",
    "C153_errors"
   ],
   "note": ""
  },
  {
   "property": "C154",
   "status": "proved",
   "theorems": [
    "C154_operator_work",
    "C154_maps"
   ],
   "note": ""
  },
  {
   "property": "C155",
   "status": "partial",
   "theorems": [
    "C155_count_refuted",
    "C155_counts",
    "C155_rounding",
    "C155_everything_lost",
    "C155_conjunction"
   ],
   "note": "C155_count_refuted is the witness with 1025 levels; C155_counts gives the exact condition, C155_rounding and C155_everything_lost the consequences."
  },
  {
   "property": "C156",
   "status": "proved",
   "theorems": [
    "C156_nearly_uniform",
    "C156_wrong_inputs"
   ],
   "note": ""
  },
  {
   "property": "C157",
   "status": "proved",
   "theorems": [
    "C157_reading"
   ],
   "note": ""
  },
  {
   "property": "C158",
   "status": "proved",
   "theorems": [
    "C158_genetic",
    "C158_bucket",
    "C158_loaders"
   ],
   "note": ""
  },
  {
   "property": "C159",
   "status": "proved",
   "theorems": [
    "C159_value",
    "C159_probability",
    "C159_total",
    "C159_missing",
    "C159_other_order"
   ],
   "note": "C159_other_order is the witness of a variable order other than the index order; the other theorems give the exact conditions."
  },
  {
   "property": "C160",
   "status": "proved",
   "theorems": [
    "C160_undefined",
    "C160_one_output",
    "C160_empty_manager"
   ],
   "note": "C160_empty_manager is the witness of the wrong rate without variables; C160_undefined and C160_one_output give the exact behaviour."
  },
  {
   "property": "C161",
   "status": "proved",
   "theorems": [
    "C161_efficient_sampling",
    "C161_efficient_sampling_exact",
    "C161_counts"
   ],
   "note": ""
  },
  {
   "property": "C162",
   "status": "proved",
   "theorems": [
    "C162_same_adders",
    "C162_same_bits",
    "C162_aca1_gear",
    "C162_aca2_gear",
    "C162_gda_gear",
    "C162_aca1_exact",
    "C162_aca2_exact",
    "C162_gda_exact",
    "C162_gear_exact"
   ],
   "note": ""
  },
  {
   "property": "C163",
   "status": "proved",
   "theorems": [
    "C163_gates",
    "C163_growth",
    "C163_growth_round",
    "C163_sharp"
   ],
   "note": ""
  },
  {
   "property": "C164",
   "status": "proved",
   "theorems": [
    "C164_nearest",
    "C164_text",
    "C164_exact",
    "C164_monotone",
    "C164_again",
    "C164_same",
    "C164_length"
   ],
   "note": ""
  },
  {
   "property": "C165",
   "status": "proved",
   "theorems": [
    "C165_bucket_circuits",
    "C165_bucket_adders",
    "C165_genetic_circuits",
    "C165_genetic_adders",
    "C165_bucket_limit",
    "C165_genetic_limit",
    "C165_adder_comparison"
   ],
   "note": ""
  },
  {
   "property": "C166",
   "status": "proved",
   "theorems": [
    "C166_single",
    "C166_multi",
    "C166_random",
    "C166_random_exact",
    "C166_search_failures",
    "C166_misuse",
    "C166_helper_failures"
   ],
   "note": ""
  },
  {
   "property": "C167",
   "status": "proved",
   "theorems": [
    "C167_vectors",
    "C167_multiply_double"
   ],
   "note": ""
  },
  {
   "property": "C168",
   "status": "proved",
   "theorems": [
    "C168_metrics",
    "C168_sampling",
    "C168_rounded",
    "C168_searches"
   ],
   "note": ""
  },
  {
   "property": "C169",
   "status": "proved",
   "theorems": [
    "C169_zero_draws",
    "C169_zero_draws_double",
    "C169_search_endless"
   ],
   "note": ""
  },
  {
   "property": "C170",
   "status": "proved",
   "theorems": [
    "C170_rounds",
    "C170_number_of_rounds"
   ],
   "note": ""
  },
  {
   "property": "C171",
   "status": "proved",
   "theorems": [
    "C171_counts",
    "C171_replaced_child"
   ],
   "note": ""
  },
  {
   "property": "C172",
   "status": "proved",
   "theorems": [
    "C172_densities",
    "C172_replaced_child"
   ],
   "note": ""
  },
  {
   "property": "C173",
   "status": "proved",
   "theorems": [
    "C173_testing",
    "C173_improved_sampling",
    "C173_file"
   ],
   "note": ""
  },
  {
   "property": "C174",
   "status": "proved",
   "theorems": [
    "C174_wcre_search_value",
    "C174_correct_input",
    "C174_bound_is_sharp",
    "C174_with_doubles"
   ],
   "note": ""
  },
  {
   "property": "C175",
   "status": "proved",
   "theorems": [
    "C175_in_range",
    "C175_overflow",
    "C175_division_by_infinity"
   ],
   "note": ""
  },
  {
   "property": "C176",
   "status": "proved",
   "theorems": [
    "C176_size",
    "C176_never_larger",
    "C176_almost_correct_1",
    "C176_no_carry",
    "C176_gracefully_degrading"
   ],
   "note": ""
  },
  {
   "property": "C177",
   "status": "proved",
   "theorems": [
    "C177_round",
    "C177_sharp"
   ],
   "note": "For round_down and round_up the weights of the nodes above the cut raise two to a difference of levels which wraps in this order; the model keeps the value exact. Only the weights of the last node of the chain are compared, and they are small."
  },
  {
   "property": "C178",
   "status": "proved",
   "theorems": [
    "C178_averages",
    "C178_metrics"
   ],
   "note": ""
  },
  {
   "property": "C179",
   "status": "proved",
   "theorems": [
    "C179_gracefully_degrading_adder",
    "C179_gear",
    "C179_same_restarts"
   ],
   "note": ""
  },
  {
   "property": "C180",
   "status": "proved",
   "theorems": [
    "C180_at_most",
    "C180_product"
   ],
   "note": ""
  },
  {
   "property": "C181",
   "status": "proved",
   "theorems": [
    "C181_upper",
    "C181_lower",
    "C181_gda",
    "C181_gear"
   ],
   "note": ""
  },
  {
   "property": "C182",
   "status": "proved",
   "theorems": [
    "C182_add_commutes",
    "C182_add_associates",
    "C182_subtract_inverts_add",
    "C182_subtract_self",
    "C182_add_zero",
    "C182_add_self_is_shift",
    "C182_shifts_compose",
    "C182_divide_inverts_multiply"
   ],
   "note": ""
  },
  {
   "property": "C183",
   "status": "proved",
   "theorems": [
    "C183_absolute_difference",
    "C183_worst_case_error",
    "C183_approximate_worst_case_error",
    "C183_average_case_error",
    "C183_mean_squared_error",
    "C183_average_bit_flip_error",
    "C183_average_bit_flip_error_doubles",
    "C183_worst_case_bit_flip_error",
    "C183_error_rate",
    "C183_error_rate_doubles",
    "C183_error_rate_needs_lengths"
   ],
   "note": ""
  },
  {
   "property": "C184",
   "status": "proved",
   "theorems": [
    "C184_worst_case_error",
    "C184_average_case_error",
    "C184_needs_equal_lengths"
   ],
   "note": ""
  },
  {
   "property": "C185",
   "status": "proved",
   "theorems": [
    "C185_complemented_outputs",
    "C185_complemented_numbers",
    "C185_reordered_outputs"
   ],
   "note": ""
  },
  {
   "property": "C186",
   "status": "proved",
   "theorems": [
    "C186_worst_case_error",
    "C186_average_case_error",
    "C186_approximate_worst_case_error"
   ],
   "note": ""
  },
  {
   "property": "C187",
   "status": "proved",
   "theorems": [
    "C187_error_rate",
    "C187_average_bit_flip_error",
    "C187_worst_case_bit_flip_error",
    "C187_worst_case_error",
    "C187_average_case_error"
   ],
   "note": ""
  },
  {
   "property": "C188",
   "status": "proved",
   "theorems": [
    "C188_arithmetic_add",
    "C188_relative_add",
    "C188_bitwise_add",
    "C188_add_64",
    "C188_worst_case_bit_flip_error",
    "C188_doubles"
   ],
   "note": ""
  },
  {
   "property": "C189",
   "status": "partial",
   "theorems": [
    "C189_near_optimal",
    "C189_near_optimal_simple",
    "C189_optimal_refuted",
    "C189_round_best",
    "C189_round_best_simple"
   ],
   "note": ""
  },
  {
   "property": "C190",
   "status": "partial",
   "theorems": [
    "C190_one_level",
    "C190_level_range",
    "C190_half_refuted"
   ],
   "note": ""
  },
  {
   "property": "C191",
   "status": "proved",
   "theorems": [
    "C191_parity"
   ],
   "note": ""
  },
  {
   "property": "C192",
   "status": "proved",
   "theorems": [
    "C192_average_loss",
    "C192_bit_flips",
    "C192_attained"
   ],
   "note": ""
  },
  {
   "property": "C193",
   "status": "partial",
   "theorems": [
    "C193_fewest_flips",
    "C193_other_metrics_refuted"
   ],
   "note": "True for the average bit flip error (C193_fewest_flips). False for the error rate, the average-case error and the worst-case error: for the values 3, 2, 1 on 2, 3, 3 of eight inputs, round at level 0 gives the constant 3, while the constant 2 is better in all three."
  },
  {
   "property": "C194",
   "status": "proved",
   "theorems": [
    "C194_twice_fewest_flips",
    "C194_attained"
   ],
   "note": ""
  },
  {
   "property": "C195",
   "status": "proved",
   "theorems": [
    "C195_near_best"
   ],
   "note": ""
  }
 ]
}