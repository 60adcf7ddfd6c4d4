{
"C01":"`bdd_add` against `uval`; ripple carry invariant by induction on the width.",
"C02":"`bdd_subtract`; same loop with negated subtrahend and carry 1.",
"C03":"`bdd_abs` against |`sval`|; xor with the sign and subtraction of the mask, case split on the sign.",
"C04":"`bdd_absolute_difference`; C02 and C03 after zero extension.",
"C05":"`bdd_absolute_difference` on signed vectors; C02 and C03 modulo 2^n.",
"C06":"`bdd_shift`; case split on the direction, `firstn`/`skipn` arithmetic of `uval`.",
"C07":"`bdd_multiply_constant_u256`; induction over the bits of the factor.",
"C08":"`bdd_multiply_constant_double`; integer part as C07, induction over the fractional bits for the truncation error.",
"C09":"`greater_equals`, `greater_than`; invariant of the comparison from the most significant bit.",
"C10":"`exists_greater_equals`; invariant on the inputs on which all higher bits agree, canonicity for the zero test.",
"C11":"`bdd_max_one`; all higher bits zero.",
"C12":"`bdd_divide`; long division invariant.",
"C13":"`number_to_bdds`; induction on the binary digits.",
"C14":"`high`; case analysis on the complement flag.",
"C15":"`low`; case analysis on both complement flags.",
"C16":"`eval`; induction over the outputs and the BDD.",
"C17":"`eval_adder`; C16 on the interleaved input vector.",
"C18":"`count_minterms`; induction over the BDD with an invariant on the memo map (sound, closed under children).",
"C19":"`count_solutions`; invariant on weighted paths from the root.",
"C20":"`random_satisfying_input`; induction over the path, positive weight of the chosen child.",
"C21":"`add_terminal_values`; conserved weighted path count (`PathFacts.v`).",
"C22":"`bdd_forest_to_add`; induction on the width, semantics of ADD `apply`.",
"C23":"`absolute_difference_add`, `xor_difference_add`; C22 and semantics of ADD `apply`.",
"C24":"`error_rate` against the average of `differ`; semantics of the miter, `CountMinterm` as an average.",
"C25":"`error_rate_add`; C21 and C23, no wrap of the 64 bit sums.",
"C26":"`average_bit_flip_error` and `_add`; linearity of the average, popcount of the xor.",
"C27":"`worst_case_bit_flip_error` and `_add`; maximum leaf of the ADD, C21.",
"C28":"`get_max_value`; greedy choice from the most significant bit is the maximum.",
"C29":"`worst_case_error`, `_add`; C04 and C28, C21 and C23.",
"C30":"the same in two's complement; C05 and C28.",
"C31":"`worst_case_error_percent`; C29, range of the quotient.",
"C32":"`approximate_worst_case_error`; position of the top difference, error of dropping low bits.",
"C33":"same; relative form.",
"C34":"same with the sign bit appended.",
"C35":"`average_value`; integrality of the counts within the support, no wrap in 256 bits.",
"C36":"`mean_squared_value`; truncated counts of the conjunctions.",
"C37":"`average_case_error`, `_add`; C04 and C35, C21 and C23.",
"C38":"`mean_squared_error`, `_add`; C04 and C36, C21 and C23.",
"C39":"`wcre_add`, `acre_add`; C21 to C23 and the ADD division.",
"C40":"`wcre_bounds`; partition of the inputs by the highest bit of |f|.",
"C41":"`acre_bounds`; same partition for sums.",
"C42":"`wcre_symbolic_division`, `acre_symbolic_division`; C12 and C28 or C35.",
"C43":"`wcre_search`; invariant of the bisection.",
"C44":"`wcre_randomized_search`; the candidate is always attained and at the end not exceeded; strictly increasing fractions.",
"C45":"`error_rate_sampling`, `error_rate_efficient_sampling`; counting over an arbitrary draw sequence.",
"C46":"`subset_light_child`, `subset_heavy_child`, `round_down`; induction over the BDD with a memo map invariant.",
"C47":"`superset_light_child`, `superset_heavy_child`, `round_up`; same.",
"C48":"same functions on one level; structural description of the result (`at_range`) and counting.",
"C49":"`round_bdd`; majority value per cofactor is optimal.",
"C50":"`round_best`; comparison of the four candidate replacements per node.",
"C51":"`round_down`, `round_up`; C19 for the compared counts.",
"C52":"`create_multi_dim_index`, `reduce_multi_dim_index`; row major arithmetic.",
"C53":"`bucket_greedy_minimize`; invariant of the search.",
"C54":"same; decreasing sum of the bucket sizes.",
"C55":"same; invariant on pairs of buckets.",
"C56":"`generate_single_bdd_operators`, `generate_multi_bdd_operators`, `apply_operator`; C46 to C51 and cofactor semantics.",
"C57":"`pla_run`; induction over the events.",
"C58":"`aig_file`; invariant: every stored literal has its and-inverter value.",
"C59":"same; table lengths never change.",
"C60":"`regular_adder`; C01 style induction.",
"C61":"four approximate adders; carry of a window never exceeds the exact carry.",
"C62":"same; a sum bit is exact iff the carry into it is generated inside its window.",
"C63":"`and_bdd`, `or_bdd`, `xor_bdd`; induction on the number of variables.",
"C64":"`dump_dot_readable`; the traversal visits every reachable edge once, graph semantics `graph_value`.",
"C65":"`compute_error_metric`; the theorems of the single metrics.",
"C66":"the adders with arbitrary parameters; outcome by case analysis.",
"C67":"`almost_correct_adder_1` with a full partition; C62.",
"C68":"`bucket_greedy_minimize`; invariant of the work list.",
"C69":"`bucket_minimize_helper`; C53 with the theorems of the metrics.",
"C70":"`generate_random_operators`; induction on the count.",
"C71":"returned buckets; C55.",
"C72":"`Function_`; pointwise.",
"C73":"`split` against `words_of`; induction over the string.",
"C74":"`pla_run`; induction over the events.",
"C75":"name tables and `approximate_adder_name`; enumeration, injectivity of decimal printing.",
"C76":"`get_approximate_adder`; C61 and C66.",
"C77":"`load_input`; C60 and C58.",
"C78":"`format_time`; truncation of the quotient.",
"C79":"`vec_to_arr`, `del_arr` on a store; induction over the vector.",
"C80":"`compute_support_positions`; canonicity: variables of a reduced BDD are essential.",
"C81":"`function_from_individuum`; cofactor semantics, induction over the positions.",
"C82":"`fitness`; C81, C24, C37.",
"C83":"`make_population`; induction over the draws.",
"C84":"`run_genetic_minimization`; invariant of the best result.",
"C85":"same; the best size decreases.",
"C86":"the value theorems of C24-C45; induction over the sums of all inputs, Cauchy-Schwarz for the squares.",
"C87":"the value theorems of C24-C38; pointwise inequality summed over all inputs.",
"C88":"both results are determined by the values of the functions (C24-C45).",
"C89":"semantics of the BDD operations, case distinction over the inputs; computation.",
"C90":"induction over the lists; the maximum of the support indices.",
"C91":"second model with a rounding function after every operation; the exact values are multiples of 2^-n with numerator at most 2^n; induction over the BDD for the relative error.",
"C92":"equal weights lead to equal decisions (induction over the BDD); witness by computation.",
"C93":"per-bit carry equations of C66; induction over the positions.",
"C94":"density of a generated carry by induction; linearity of the average; telescoping sum.",
"C95":"bound by induction over positions, attained by constructed operands.",
"C96":"recursion by the first propagate run below the top position; independence of disjoint bit ranges.",
"C97":"witness by computation; monotonicity of the closed forms of C94 to C96.",
"C98":"the result ignores a variable the argument has no node for (induction); the support consists of the essential variables.",
"C99":"witness by computation; every node of the result is the root of the image of an edge (or, without index order, a node of the argument).",
"C100":"every node of the result in the range has a constant child, which is the one that is replaced again (induction); witnesses by computation.",
"C101":"density of the complement; induction over the BDD; witness by computation.",
"C102":"induction over the vector from C46, C47, C49, C98 and the cofactor.",
"C103":"one-sidedness (C102) and linearity of the average; C01 to C17 for the steps.",
"C104":"C94 to C96; the table by evaluation of the closed forms.",
"C105":"witness by computation; equality of the windows of C62 for all bits but the carry out, canonicity of BDDs.",
"C106":"witnesses by computation; equality of the windows and canonicity of BDDs.",
"C107":"expectation over consecutive groups of draws; variance of a sum of independent indicators; Chebyshev's inequality.",
"C108":"induction on the levels with the weight of the node as a factor; the number of draws that take the then branch is within 1 of its share.",
"C109":"the loop is a sum over independent groups of draws; bias by C108 and the skipped outputs, variance by the number of samples per output, telescoping of the shares.",
"C110":"C107, C109, C45; one-sidedness of subset_light_child.",
"C111":"Probability that a set of variables has given values by conditioning on one variable after the other; the parity flips with the first fixed variable.",
"C112":"second model of the ADD functions with a rounding function at every double operation; ADDs are canonical, so equal values give equal diagrams; values of vectors with at most 53 outputs are doubles; relative error bounds by induction over the outputs",
"C113":"the lexer is a transducer, so runs compose along concatenation; every line is read for arbitrary names and what follows; statements compose with a fuel bound; styles and ranks by the defaults in force",
"C114":"The nodes of the sum and carry diagrams are written down explicitly and shown to be the adder by canonicity; counting of a duplicate free list.",
"C115":"C84 for the constants of the programs (limits that rounding to float does not decrease), C58 for the files, C114 for the sizes; induction over the rows.",
"C116":"Case analysis; C58 for complete files; witness by computation.",
"C117":"C52, C53 and C69 for the constants of the programs, with the values of the metrics (C24, C31); induction over the rows.",
"C118":"First round of the search: every operator is still possible; sizes of buckets only decrease afterwards.",
"C119":"Refuted: for [x0; x0] no single step reduces the number of nodes, two steps do. In general nothing is found by SINGLE_BDD if every output occurs twice (`C119_duplicated_outputs`).",
"C120":"model of the lookup of constants with an arbitrary hash function and an arbitrary table per division; the error of a leaf is below epsilon by induction over the chain; bounds carried through maximum and mean; smallest non-zero relative error for 39 outputs against epsilon",
"C121":"an output is wrong iff the carry from position 0 differs from the carry of its chain; operands 2^N - 1 and 1 make all candidates wrong at once",
"C122":"for a restart at k with lookback P the operands 2^(k+1) - 2^(k-P) and 2^(k-P) lose exactly 2^(k+1); the loss never exceeds the sum",
"C123":"the square grows by the cross terms of the newly forgotten carry; given the generating position g only carries below g are forgotten besides it and they are independent of it; the mean below g is C94",
"C124":"all counts stay multiples of 2^(s - height), which rounding keeps up to 53 bits, so that the conversion to uint256_t truncates nothing; relative errors add up along paths",
"C125":"the run with doubles equals a run of the exact model with adjusted metrics; between a bound and a larger double there is a gap that the two roundings cannot bridge; the accuracy of each metric by C91, C112, C124",
"C126":"the recursion with memoisation equals a pure recursion for any map of counts; induction on the diagram",
"C127":"Sorted-list invariant of the std::set model with a separately defined lexicographic order; invariant of one round (sizes, pending set) through populate, op_step and replace_loop; induction over rounds.",
"C128":"Failure propagation through the monadic loops with the search invariants; exception-freedom of every metric and operator by structural induction.",
"C129":"The level by level traversal keeps the sum over pending nodes of count times weight, modulo 2^64; every visited node up to the current level has been treated, so an undefined shift occurs exactly if some reachable edge is long.",
"C130":"The histogram of C129 has exactly the values of the function as keys; the maxima ignore the counts.",
"C131":"Distinct reduced ADDs differ on some input, so a count of 64 levels is below 2^64; the counts modulo 2^64 add up to 2^t modulo 2^64, which is 0 from t = 64 on; the wrong average is compared with the BDD variant of C37.",
"C132":"the middles are multiples of 2^-s below 2^outputs, hence floats; simulation of the exact loop",
"C133":"invariant: the limits are doubles around the true value, the middle rounds to one of them, the interval never gets shorter than the distance of doubles",
"C134":"rounding to nearest keeps 0, signs and the order relative to 1; loop invariant parametric in the sampler",
"C135":"error propagation per operation against the exact model; all terms are nonnegative",
"C136":"all rates and sums are multiples of 2^-n below the number of outputs; loop lemmas shared with the exact model",
"C137":"invariant over the operator loop relating the flags of the explored bucket to the operators seen so far",
"C138":"every helper is shown to fail with undefined behaviour only, by induction over the loops",
"C139":"invariant over the recursion: the references are those of the caller plus one for every rebuilt entry of round_map",
"C140":"exact multiset of references after the call; witness x0 and x1 by vm_compute",
"C141":"operators with an oracle for failing calls; induction over the recursion, the failing call is located in the list of subfunctions built anew; witness by vm_compute",
"C142":"operators over a state of order, call number and references; simulation of the pure recursion as long as the order is unchanged; witnesses by vm_compute",
"C143":"all intermediate results are 0 or multiples of 2^-1022 below 2^1024, where IEEE rounding is round_float 53; to_double is proved to be the nearest double or infinity. For the standard library the shift register with its round and sticky bits is shown to hold the exact quotient by the unit, so that its rounding is round_half_even",
"C144":"induction over the chain of nodes: the density of n variables is 2^-n down to 2^-1074, then ties to even give 0; witness for round_down by vm_compute",
"C145":"relation between argument and result that ignores the comparisons of the counts; witness by vm_compute (majority of three, reversed order)",
"C146":"simultaneous induction over both recursions, whose decisions use the same counts",
"C147":"the error of a node is the mean of the errors of its children; induction with the bound min(p, 1-p) on the error of the rounding operators",
"C148":"C146 and C147 with the exact values of the metrics (C24, C26, C27, C29, C37)",
"C149":"simulation of the loop by an inductive relation over rounds; the values above the bound decrease strictly",
"C150":"case analysis with Z.quot against Qfloor",
"C151":"both loops generalised to an arbitrary divisor per leading bit; the leading bit is the binary logarithm",
"C152":"pointwise comparison of the distances and the exact values of the metrics",
"C153":"sums modulo 2^256 related to the exact mean; remainder of rationals",
"C154":"the calls correspond to distinct subfunctions (C141); every node has two edges, the root only one",
"C155":"Values of the recursion with IEEE numbers as a plain recursion; induction over the BDD separates NaN, zero and counts of at least one; comparison with NaN in the operators.",
"C156":"Rounded weights lie within 2h roundings of the shares; the number of draws that take the then branch is enclosed by two floors; induction over the levels; transfer to doubles without overflow.",
"C157":"Invariant of the literal table; the outcome of each line is a function of the lines before it; first failing line is unique.",
"C158":"Rows lemma of the printing loop, outcome of reading (C157).",
"C159":"The conjunction is a chain by canonicity; induction over the levels; the expectation over parities of draws; induction over the loop with an arbitrary map.",
"C160":"Every rate is 0 or NaN, which the sums, differences and products keep, so that the quotient is NaN.",
"C161":"simulation: the computation with bounded doubles equals the one with rounding of unbounded range, because every intermediate value is 0 or between 2^-200 and 2^200; then C136",
"C162":"a carry generated at the first position of the longer window separates two adders; arithmetic of the restart positions",
"C163":"The parity BDD is a chain; the result at every level has two functions which are neither equal nor complementary, so two nodes. For round and round_best the chain ends in a tie which is rounded to zero under both complements.",
"C164":"The digits are the half-even rounding of the number scaled by its decimal exponent; a reader of numbers is defined separately and applied to the text.",
"C165":"No printed name, number or time contains a separator, so splitting the text gives the cells that were put together; rates by monotonicity of printing (C164).",
"C166":"The rounded search follows an exact search with adjusted metric values, which transfers the failures of C128; induction over the draws for the random operators.",
"C167":"Induction over the vectors with the lengths of all intermediate vectors as invariant; case distinction on the factor.",
"C168":"Composition of the outcomes of the vector functions (C167); an upper bound 2^128 on both ends of the bisection, kept by rounding to nearest.",
"C169":"Induction over the levels: the then branch is taken with an empty then child only for the draw 0, because rounding to nearest keeps positive quotients positive; the else branch is never empty. The endless search is a fixed point of the loop state for constant draws 0, by induction on the number of rounds.",
"C170":"The lemmas about the loop behind C149 hold for every sampler that is total (and sound); instantiated with the rounded sampler of C134.",
"C171":"Induction over the traversal with an invariant 'near' (infinite, or within k roundings) for the IEEE operations; the operators rewritten as a rebuild for an arbitrary comparison of the children",
"C172":"Invariant 'close' (relative factor and absolute distance) for the IEEE additions, halvings and complements; the operators rewritten as a rebuild for an arbitrary comparison of the children",
"C173":"Texts with pointers compared by reflection (concatenations flattened to characters and pointers); the rows from the exact value of plain sampling (C45), the range of efficient sampling (C45) and the facts about printed numbers (C164)",
"C174":"Induction over the halvings with the invariant that last_greater is exactly the set of inputs above the lower end; a separate inductive description of the search on numbers only.",
"C175":"the counts are multiples of a power of two below 2^1024, so every operation is in the normal range and the results are those of `Rounded.v` (C91); the sum of the counts of the constant 1 is followed exactly until it overflows",
"C176":"The diagrams of a cut adder are written down explicitly and identified with the outputs by canonicity; their nodes are listed and shown to be distinct by the variable at the top and the last variable on the path of then edges.",
"C177":"A variable with a large index is placed second in the order: below it a parity chain is returned unchanged since its index is past level_end, while a copy of the chain reached around it is cut and needs two nodes per level. The nodes of both are distinct. For round every node of the result is the result for a node and a complement.",
"C178":"a lost carry that travels one position further pairs with lost carries of the shorter adder with sums at most twice as large; squares by the closed form of C123.",
"C179":"every carry the adder with more lookback forgets is forgotten at some restart of the other; the k-th lost carry from the top of a restart moves down, which lowers its weight (C178); closed forms of C94 to C96 and C123.",
"C180":"C20_wrong_exactly_on_zero_draws reduces the claim to zero draws at negative literals; the probability that these draws are all positive is computed by induction over the draws.",
"C181":"Induction over the positions with the recursion of C96 for the number of exact pairs; geometric sums.",
"C182":"canonicity: vectors of equal length that encode the same number at every input are equal",
"C183":"canonicity of the difference and of the exclusive or; symmetry of the loops",
"C184":"the value computed at an input is the distance on a circle of 2^w points; canonicity for equality",
"C185":"canonicity of the exclusive or, of the miter and of the difference",
"C186":"the unsigned number with complemented sign bit is the signed number plus 2^(w-1)",
"C187":"pointwise bounds at every input and the value theorems of the metrics",
"C188":"the histogram of an ADD with any number of levels (C129) gives the values that are reached; a fold over these values is defined exactly if the conversion is defined for each",
"C189":"the rounded recursion is the exact one with other weights; weights off by e cost at most 2e at each replaced node (`NearFacts.v`), densities as in C172",
"C190":"Each density computed on doubles is within a bound of the exact one; induction over the nodes carries the comparison error of at most one bound per replaced level; the counterexample is computed.",
"C191":"Induction over the levels: both children of a node of parity are true on half of the inputs, so the result does not depend on which of them the counts select.",
"C192":"The average value is the sum of the weighted densities; each density keeps its share by C48, the differences have one sign since the operators are one-sided, and C191 gives the case of equality.",
"C193":"The flipped bits add up over the outputs, and C49 makes each summand smallest; the counterexample for the other metrics is computed.",
"C194":"The flipped bits add up over the outputs, and C50 bounds each summand; copies of the exclusive or attain the factor.",
"C195":"Both errors lie between a weighted sum of the flipped bits, which round minimises, and that sum divided by the factor."
}
