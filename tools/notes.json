{
 "C05": "The property is false of the code: the subtraction overflows when the distance exceeds half the word. The refutation gives the witness 1-(-2) on two bits; the partial theorem gives the exact value min(d, 2^n-d) for all inputs.",
 "C08": "Doubles are the rationals they represent; ceil(log2(.)) is any function with z < 2^(clog2 z + 2).",
 "C07": "ceil(log2(.)) is any function with z < 2^(clog2 z + 2).",
 "C15": "The property is false of the code: low complements the cofactor when both the edge and the else edge are complemented, e.g. x0 xor x1. The partial theorem gives the value for every BDD.",
 "C18": "Doubles are the rationals they represent. The key set is exactly the set of reachable edges.",
 "C19": "Doubles are the rationals they represent; index order; terminal level as computed by the code.",
 "C20": "The property is false of the code: rand() == 0 takes the then branch even when it has no solution (witness !x0). The partial theorem covers all draws in (0, RAND_MAX]; C20_wrong_exactly_on_zero_draws covers all draws and says exactly which of them give a wrong result.",
 "C21": "ADD leaves are rationals; CUDD's epsilon merging of leaves is not modelled.",
 "C25": "Exact rationals for doubles; at most 63 variables in index order.",
 "C26": "The _add variant additionally needs at most 64 outputs and width*2^n < 2^64 (its 64 bit sum).",
 "C27": "Width below 2^32; the popcount variant at most 64 outputs.",
 "C28": "Also gives the value beyond 256 bits: the maximum modulo 2^256.",
 "C30": "The property is false of the BDD variant (overflow, C05): witness 1 and -2 on two bits. The partial theorem gives the exact value max min(d, 2^w-d) and the exactness of the ADD variant.",
 "C31": "For more than 53 bits the double 2^n-1 rounds to 2^n; this rounding is modelled, the rounding of the quotient is not.",
 "C33": "The documented bound is false: f=2, f_hat=1 constant, n=1 gives 3 for a worst case error of 1. The partial theorem gives relative error 4/2^n when the leading difference is not cancelled. Both are sharp: the relative error is unbounded in general (C32_bound_attained), and 4/2^n is approached by a family of constants (C33_bound_sharp).",
 "C34": "False of the code: differences in the sign bit alone are not seen (result 0). The partial theorem covers functions with the same sign bit. A second theorem gives the exact value for any sign bits. A third one shows that the wrapped difference of C05 is never underestimated if some output besides the sign bit differs, nor is the true one if it does not exceed half the range.",
 "C36": "False of the code: counts of conjunctions are truncated when their support exceeds the largest single support ({x0,x1} gives 2.5 instead of 3.5). The partial theorem gives a lower bound and exactness when one output depends on all variables. A second partial theorem gives the exact value: pair counts rounded down. The error is below (2^m-1)^2/2^s, and the result is exact iff the count of every pair is a multiple of 2^-s of all inputs (C36_mean_squared_value_gap).",
 "C37": "Width plus number of variables below 256. The two's complement BDD variant averages min(d, 2^w-d).",
 "C38": "The BDD variant inherits C36; the ADD variant is exact for 2*width+n <= 256. The exact value of the BDD variant is stated as well. Its error is bounded and its exactness characterised like in C36.",
 "C39": "Exact rationals for doubles; at most 63 variables in index order.",
 "C40": "In two's complement the bracketed value uses the wrapped difference of C05.",
 "C41": "Width plus number of variables below 256; wrapped difference of C05 in two's complement.",
 "C42": "Width plus extra bits (plus variables) at most 256 bits.",
 "C43": "The property is false of the code: masked inputs look like an exact hit (constant 4 against 9/4 gives 1.5 instead of 1.25), and a worst case strictly between 0 and 1 is undefined behaviour. The partial theorem: within 142 rounds a value at most precision/2 too small and less than 50% too large. C174 gives the exact value that is returned and shows that the 50% cannot be improved.",
 "C44": "Widths up to 62 bits. Random draws are an arbitrary sequence; termination needs draws in (0, RAND_MAX] (C20).",
 "C45": "Efficient sampling is undefined when it compares more than one output of which at most one is ever wrong (0/0 converted to long). Otherwise the range holds; exact in the nested and disjoint cases. Less than 2^31 samples (int counter). Plain sampling is shown to return exactly the share of wrong samples.",
 "C46": "All variable orders. Reference counting: C139, C140.",
 "C47": "All variable orders.",
 "C48": "One level: every order. Ranges of levels: index order, halving per level. The replaced child and the behaviour on ties are characterised by at_range.",
 "C49": "Index order (levels are variable indices in the code). Competitors are arbitrary functions of the variables below the level.",
 "C50": "False on ties: both children are replaced (x0 xor x1: error 1/2 instead of 1/4). Proved: at most twice the minimum, minimal without ties; C50_round_best_levels gives the result for every range of levels, ties included.",
 "C51": "False: count_solutions counts over the variables below each child, so skipped levels distort the comparison; round_up fills the lighter child. Proved: the exact criterion, and the stated one for round_down when children start at the same level.",
 "C60": "",
 "C61": "Parameters below 2^30 (no unsigned wrap). Admissible parameters are characterised exactly together with C66.",
 "C62": "Stronger than stated: an equivalence. Windows are given by the restart positions of each adder.",
 "C66": "Findings: ACA2 with partition size 1 and GDA with more partitions than bits divide by zero; GeAr with sub adders longer than n + 1 bits reads out of bounds.",
 "C67": "False: n = 1, 1 + 1 gives 0. Proved: only the carry out generated at bit 0 is lost.",
 "C52": "Grid sizes with product at most 2^64 (no wrap of size_t); a grid size of zero is a division by zero.",
 "C53": "Metrics and operators are arbitrary functions; metric values are exact rationals.",
 "C54": "At most volume * nodeCount + 1 buckets are explored; totality if metrics and operators are total and the scaled errors fit size_t.",
 "C55": "Also: the last bucket is a smallest one.",
 "C56": "The light/heavy choice is stated by the replaced child as in C48-C51; ROUND optimality needs index order.",
 "C68": "Fixpoint invariant of the work list, including early stopping on partial indices.",
 "C69": "False for MEAN_SQUARED (computed too small, C38): [x0;x1] with bound 3.25 yields [0;0] with mean squared error 3.5. Proved for the nine other metrics within the sizes for which they are exact, and for MEAN_SQUARED that the truncated value of C38 keeps the bound (the error itself if some bit of the difference depends on all its variables), with totality of the helper (in RANDOM mode with two draws per operator).",
 "C70": "False: operator and level are fixed at creation and applied to all outputs. Proved: number of operators, kind, level, and when the call is undefined (no kinds or no outputs).",
 "C71": "False with and without populate_all (error rate, cofactor operators on three outputs). Proved: with populate_all a dominated bucket has the same size as the one dominating it.",
 "C59": "False: the assertions of on_input_name, on_output_name and on_and admit the index one past the end, and a header with m = 2^63-1 wraps to no literals. Proved: these are the only undefined accesses in any reachable state.",
 "C74": "False for several .ilb lines: every such line registers all previous input names again. Proved for at most one .ilb line; the stored names are right for all files. C74_registered_names gives the registered list for any number of lines: the names of all prefixes of the lines; it is right iff only the last line has names.",
 "C65": "The property is false of the code: the two average case relative metrics are called with (approx, original) (benchmark_util.cpp 77, 79). The partial theorem gives every metric; the mean squared error and the binary search inherit C38 and C43.",
 "C77": "The callbacks of lorina for a parsable file are the input; reading aborts with the C59 outcomes for other files.",
 "C79": "new picks the next address that is not in use.",
 "C82": "Finding: the comment says functions greater than the original are skipped, but the test is >=, so the original itself is penalised. Doubles are rationals; the limits are rounded to float as in the code.",
 "C83": "Dimension 0 is undefined behaviour; run_genetic_minimization throws before (mutation probability 0.3/0).",
 "C84": "The property is false of the code: the limits are stored as float, so an error between the rounded and the given limit is penalised in fitness but accepted in the run, and the penalised node count is reported. The partial theorem covers all functions whose errors are exact floats. pagmo is an arbitrary function on populations. A second theorem covers any limits: the reported errors belong to a function that was found, the reported node count is its penalised size, and no function that was found has a smaller penalised size.",
 "C85": "2^64 rounds suffice in general; nodeCount + 1 in the setting of C84.",
 "C64": "The text is modelled as a list of node and edge statements; presentation attributes are left out. Pointers are printed injectively and start with 0x. Complement edges are resolved, so a function and its complement are two nodes. Equal user given names are merged by dot (hence the NoDup condition).",
 "C32": "Bounds and the exact value (maximum of the shifted values, scaled back). The upper bound is attained (constants 2^N and 2^N-1).",
 "C91": "`Rounded.v` models the operations of the listed functions again with rounding; overflow and underflow (over 1000 variables) are not modelled.",
 "C97": "False on single inputs: 7 + 1 is 6 with sub adders of 1 bit and 4 with sub adders of 2 bits. What holds: exact sums stay exact, and error rate, bit flip error, worst and average case error never get worse; C178 has the squared and relative errors.",
 "C99": "False: on the parity of three variables subset_light_child at level 1 gives 5 nodes instead of 4, since the node below is reached with and without complement. What holds: at most twice the nodes in index order, at most three times in any order. C163 shows that the factor two cannot be improved.",
 "C100": "False for superset_light_child, subset_heavy_child and round_up, which then replace the other child. Proved for subset_light_child, superset_heavy_child, round_bdd, round_best and (index order) round_down. C100_twice_then_stable: the second application of subset_heavy_child/superset_light_child turns every node of the range into the constant, the third changes nothing.",
 "C101": "False on ties (x0 xor x1): the light variants replace the then child, the heavy variants the else child. Proved when no node in the range has children of equal density (round: no node of density 1/2 at or below the level; round_best: no node whose children both have density 1/2).",
 "C105": "False as stated: the carry out differs. The partial theorem shows that all sum bits are identical BDDs; C162 shows that the carry out differs for all parameters.",
 "C106": "False as stated: for N = 8 and partition size 6 the blocks of ACA2 have 4 instead of 3 bits, and GDA with a lookback that is no multiple of the block length restarts at other positions. The partial theorems show identical BDDs under N/(N/2h + 1) = h and (N/p) | P; C162 gives the conditions in necessary and sufficient form.",
 "C116": "False for load_epfl_benchmark_file, which ignores the return code of lorina: a missing file gives the empty vector, a file cut off after its header constant functions. Proved for load_iscas_85_file; the partial theorem says what the EPFL loader does in these cases and that it is right for correct files.",
 "C120": "the constants table of CUDD is modelled from its documentation of ddEqualVal; the table is an arbitrary function of the two operands of a division",
 "C125": "The strict bound is refuted (worst case error 1/3, bound the double next to 1/3, grid 7). The partial theorems give: the value of the metric is at most the bound, strictly below it for grids that are powers of two, and the exact error exceeds the bound at most by the roundings in the metric; the mean squared error has the defect of C69 in addition (beyond 53 variables its bound is shown only if an output of the difference depends on all of its variables), and the relative metrics need at most 53 outputs.",
 "C133": "refuted: constant functions with 41 outputs keep the bisection running for ever",
 "C136": "C136_more_failures: with 55 variables rounding makes efficient sampling fail for functions on which it succeeds with exact numbers.",
 "C140": "False of the code: every rebuilt subfunction keeps one reference for ever. The partial theorem gives the exact set of references left behind. On the other hand this reference is what keeps the result of the first recursive call alive during the second one (C139).",
 "C155": "C155_count_refuted is the witness with 1025 levels; C155_counts gives the exact condition, C155_rounding and C155_everything_lost the consequences.",
 "C159": "C159_other_order is the witness of a variable order other than the index order; the other theorems give the exact conditions.",
 "C160": "C160_empty_manager is the witness of the wrong rate without variables; C160_undefined and C160_one_output give the exact behaviour.",
 "C119": "False: an operator changes only one of two equal outputs, which makes nothing smaller, so the step is rejected although the next one would pay off. Proved: if every output occurs twice, nothing is ever found.",
 "C131": "The exact averages need width plus variables (squares: twice the width) of at most 256; C131_average_add_65 is the wrong number with 65 variables.",
 "C177": "For round_down and round_up the weights of the nodes above the cut raise two to a difference of levels which wraps in this order; the model keeps the value exact. Only the weights of the last node of the chain are compared, and they are small.",
 "C193": "True for the average bit flip error (C193_fewest_flips). False for the error rate, the average-case error and the worst-case error: for the values 3, 2, 1 on 2, 3, 3 of eight inputs, round at level 0 gives the constant 3, while the constant 2 is better in all three."
}