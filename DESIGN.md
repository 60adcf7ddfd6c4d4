# Formal model of keszocze/abo in Rocq (Coq 8.16.1)

Build: `cd rocq && coq_makefile -f _CoqProject -o Makefile && make -j4`.
`properties.jsonl` has the claims, `MANIFEST.json` maps them to theorems (regenerate it with `python3 tools/manifest.py`),
`seeded/LOG.jsonl` lists the wrong programs the theorems were tested against: `failing_proofs` are the proofs that no longer
check with the edit, `theorems_failed` the property theorems that depend on them.

## 1 Layers

| layer | files (rocq/theories) | content |
|---|---|---|
| outcomes | `Res` | `Ok`, `UB` (undefined behaviour), `Throw` (C++ exception), `Abort` (failed `assert`) |
| CUDD | `Cudd` | BDDs with complement edges in normal form, `ite`, cofactor, support, minterm count, ADDs |
| model | `Helpers`, `Counting`, `Metrics`, `RelMetrics`, `Operators`, `Examples`, `FromPapers`, `Minimize`, `Parsing`, `Benchmark`, `Genetic`, `DumpDot`, `DotText`, `Float`, `Rounded`, `RoundedAdd`, `RoundedMinimize`, `RoundedRel`, `Experiments`, `MinimizeMains`, `Printing`, `MainText`, `RefCount`, `OutOfMemory`, `Reordering`, `Ieee`, `Ieee2`, `Ieee3` | /repo function by function, every definition cites file and lines |
| spec | `Spec`, `SpecMinimize`, `SpecParsing`, `SpecBenchmark`, `SpecGenetic`, `SpecDot`, `SpecDotText`, `SpecFloat`, `SpecAdder`, `SpecOperators`, `SpecExperiments`, `SpecSampling`, `SpecMains`, `SpecPaths`, `SpecRefs`, `SpecSearch`, `SpecBounds`, `SpecWide`, `SpecNan`, `SpecReading`, `SpecProduct`, `SpecOrder`, `SpecEfficient`, `SpecPrinting`, `SpecTables`, `SpecRoundedMinimize`, `SpecOutcomes`, `SpecExact`, `SpecPartial`, `SpecLimited`, `SpecPrograms`, `SpecBisect`, `SpecAdderSize`, `SpecIeee`, `SpecLookback`, `SpecLaws` | what the statements mean; built from evaluation of a BDD at an input (`ev`), integers and rationals, not from the functions under test |
| proofs | `*Facts*`, `AdderSize*`, `IeeeStd*`, `ParsingCases`, `MainsCases` | lemmas |
| tests | `RepoTests` | the assertions of /repo/tests, evaluated on the model |
| claims | `Prop*` | the property theorems, each closed by `exact lemma` and followed by `Print Assumptions` and an `Example` |

Model files contain no proofs, claim files contain nothing but claims and their examples.

## 2 Trusted base

* Coq's kernel (8.16.1), including `vm_compute` which is used in examples and refutations.
* Axioms: none. `Print Assumptions` says "Closed under the global context" for every theorem in `Prop*.v`.
  `coqchk -o` over the whole library lists seven axioms of `Coq.ssr.ssrunder`, loaded with the standard library and not
  used by any theorem.
* The reading of the C++ code, that is the definitions of the model layer and of `Cudd.v`.
* The spec layer and the statements in `Prop*.v`.

## 3 Model of CUDD (external code, modelled and not verified)

* A BDD is an edge `(complement flag, regular node)`. A regular node is `One` or `Nd v then c else`; the then edge is
  never complemented. Equality of `DdNode*` is structural equality, as the unique table guarantees.
* The manager `M` has an arbitrary injective order of the variables (`lv`). Theorems hold for every order, thus also
  after reordering, unless they assume `index_order M` (level = index).
* `bnot band bor bxor ite cofactor`, evaluation, support, `CountMinterm`, `nodeCount`, `Leq`, ADD `apply` are computable functions.
  `CuddFacts.v` proves their semantics and that equal functions are equal BDDs (`canonical`).
* `wf M f`: `f` is reduced and ordered for `M`. All model functions keep it.
* ADDs are trees with rational leaves. CUDD merges leaves closer than 1e-12 that share a hash chain; this is modelled for the quotients of the relative errors only (`unique_const`, C120), where leaves are not integers.
* Reference counts and garbage collection are modelled for the approximation operators (`RefCount`, C139, C140): a node may be used as long as it is reachable from an external reference. Elsewhere BDD objects hold the references.
* Failing node allocations (`OutOfMemory`, C141) and reordering during a call (`Reordering`, C142) are modelled for the approximation operators: any call of `Cudd_bddIte` may return null, or leave the manager with another order. `reorder k` is the order after call number k; a node read later is the node of the same function in the present order.
* Not modelled: reordering and failing allocations in other functions, saturation of the counters, the computed table, `CountMinterm` above
  1023 variables (overflow of `double`; an arbitrary function in C144 and C160; excluded by m * 2^n <= 2^53 in C161). `ReadSize() == 0` is covered for `error_rate_efficient_sampling`, the only function that computes `ReadSize() - 1` (`Ieee2`, C160).

## 4 Numbers

* `size_t`, `unsigned`, `int`, `uint256_t` are integers with an explicit wrap or an explicit undefined outcome where the code can
  reach the limit; loop counters over vectors are `nat` (vectors are shorter than 2^31).
* `double`, `float`, `cpp_dec_float_100` are exact rationals. Rounding is modelled in six places: the counts, error rates and operators of `Rounded.v` (C91, C92 relate them to the exact model), the ADDs and the metrics computed with them in `RoundedAdd.v` (C112; with CUDD's merging of leaves C120), the average metrics and the bucket minimisation in `RoundedMinimize.v` (C124, C125, C166; the operators there are those of `Rounded.v`, C126), the relative error metrics and the sampling in `RoundedRel.v` (C132-C136, C168; `cpp_dec_float_100` is a rounding with relative error u), `pow(2,n) - 1`
  (`pow_minus_one`) and the `float` limits of the genetic minimisation (`to_float`, round to nearest even with 24 bits, unbounded exponent). Infinities and NaN are `NonFin`. Subnormal numbers, overflow and NaN of `double` are modelled in `Ieee.v` for the counts of cudd_helpers.cpp, `random_satisfying_input`, `error_rate` and the operators: up to 1022 variables the results are those of `Rounded.v` (C143), beyond they are not (C144). The operations of `Ieee.v` are proved equal to those of the standard library's `Floats/SpecFloat.v` on all doubles, except for the sign of zero (`C143_standard_*`; `SpecIeee.v` gives the values), so that IEEE 754 is not part of the trusted base beyond that specification. `Ieee2.v` does the same for `error_rate_efficient_sampling` (C160, C161), `Ieee3.v` for `average_bit_flip_error` (C175). In the other functions, and for `float`, they are not modelled. In orders other than that of the indices `pow_levels` is a power with a huge exponent in `Counting.v`, and infinity in `Ieee.v`.
* `ceil(log2(x))` in the multiplications is any function with `z < 2^(clog2 z + 2)`.
* `rand()` is an arbitrary sequence; where the claim needs it, its values lie in `[0, RAND_MAX]` or `(0, RAND_MAX]`. C107 to C110, C156 and C159 count over all sequences of draws, that is, they take the draws as independent and uniform on `[0, RAND_MAX]` with `RAND_MAX` odd.
* Loops without a static bound take `fuel`. `None` means "still running"; termination is a theorem.

## 5 What is modelled

| code | model | lines |
|---|---|---|
| src/util/cudd_helpers.cpp | `Helpers`, `Counting` | all |
| src/util/function.cpp, string_helpers.* | `Parsing`, `Benchmark` | all |
| src/util/dump_dot.cpp | `DumpDot`, `DotText` | all but the overloads that open a file; `DumpDot` has the statements without presentation attributes, `DotText` the text to the character (numbers of the configuration as printed). `SpecDotText` reads it: Graphviz's language without subgraph names, undirected edges and concatenated strings; keywords are not rejected as attribute values |
| src/error_metrics/*.cpp | `Metrics`, `RelMetrics` | all |
| src/approximation_operators/*.cpp | `Operators` | all |
| src/example_bdds/*.cpp | `Examples`, `FromPapers` | all |
| src/minimization/*.cpp | `Minimize`, `Benchmark` | all but time measurement |
| src/parsing/*.cpp | `Parsing` | all; lorina is the source of the event list |
| experiments/util/benchmark_util.cpp | `Benchmark` | all; file reading as in `Parsing` |
| experiments/minimization/nsga2/bddminimizationproblem.cpp, nsga2_minimization_helper.cpp | `Genetic` | all but time measurement; pagmo is an arbitrary function on populations |
| experiments/runtime/{operators,iscas85,average_case_error,ace_steps,approximate_adder_error_metrics,acr_approx,sampling_methods}.cpp, experiments/misc/{er_ace_adder_comparison,improved_sampling}.cpp, experiments/testing.cpp | `Experiments` | the computations; not the repetition, time measurement and printing (printing of er_ace_adder_comparison.cpp: `MainText`; output of testing.cpp and improved_sampling.cpp: `ProgramText`, to the character, the level arguments 52 and 10000000 as parameters) |

| experiments/minimization/bucket/*.cpp, experiments/minimization/nsga2/nsga2_minimize_*.cpp | `MinimizeMains`, `MainText` | all; `MinimizeMains` has the numbers printed and how the program ends, `MainText` the text to the character. The times are arbitrary results of `format_time`; the rates are the exact rationals, and `cpp_dec_float` is assumed to print as a double does |
| operator<< for double (C++ library) | `Printing` | finite numbers in the default format, i.e. %g with six digits, exact value rounded to nearest, ties to even (glibc); not negative zero, infinities and NaN |

Not modelled: the printing in the other `main` functions, lorina, pagmo, google benchmark, CMake files. The assertions of /repo/tests are evaluated on the model in
`RepoTests.v`; all of them hold (these are tests of the model, not proofs).

Further simplifications, also noted in the files:

* Operators and metrics given to the greedy minimisation are arbitrary functions without state.
* `std::accumulate(..., 0.)` of bucket coordinates is exact in `Minimize.v`; `RoundedMinimize.v` rounds it.
* A file is the list of reader callbacks; `bddVar(int(index))` for an index of 2^31 or more is not modelled; the names of the manager
  are empty at first. `load_file` sees the callbacks only for files lorina accepts.
* `new` returns the next free address.
* Adder parameters are below 2^30.
* A non-finite average case error inside `fitness` is reported as `UB` (it cannot occur for well-formed functions).
* Comparisons of `size_t` with `double` are exact.

## 6 Disagreements between code and expectation

Each is a theorem `..._refuted` with a concrete witness, or part of the theorem of the property named.

| property | finding |
|---|---|
| C05, C30 | `bdd_absolute_difference` in two's complement subtracts without an extra bit: 1 - (-2) on two bits gives 1 |
| C15 | `low` complements twice wrongly: `low(x0 xor x1)` is wrong |
| C20 | `random_satisfying_input` can return an input outside the function when `rand()` returns 0 |
| C33 | `approximate_worst_case_error` exceeds its documented bound |
| C34 | in two's complement it ignores a difference in the sign bit alone |
| C36, C38 | `mean_squared_value` truncates the counts of conjunctions: `{x0,x1}` gives 2.5 instead of 3.5 |
| C43 | `wcre_search` stops at a wrong "exact" hit; undefined for errors strictly between 0 and 1 |
| C45 | `error_rate_efficient_sampling` converts 0/0 to an integer when no sample is drawn |
| C50 | `round_best` replaces both children on a tie |
| C51 | `round_down`, `round_up` compare solution counts over different numbers of variables; `round_up` fills the lighter child |
| C59 | off-by-one assertions in `on_input_name`, `on_output_name`, `on_and`; the header size wraps for m = 2^63-1 |
| C65 | `compute_error_metric` swaps the arguments of the two average relative metrics (benchmark_util.cpp 77, 79) |
| C66 | ACA2 with partition size 1 and GDA with more partitions than bits divide by zero; GeAr can read out of bounds |
| C67 | ACA1 with a full partition loses the carry out generated at bit 0 |
| C69 | the helper can exceed the MEAN_SQUARED bound (C36) |
| C70 | random operators act on all outputs, not on one as documented |
| C71 | the buckets are not a Pareto front |
| C119 | SINGLE_BDD never changes a function in which every output occurs twice: one step changes only one of the copies and the number of nodes does not drop |
| C74 | a second `.ilb` line registers the earlier names again |
| C82 | functions of the same size as the original are penalised although the comment says "greater" |
| C83 | a constant function leads to a modulo by 0 in `make_population` |
| C84 | limits rounded to `float`: an error between the rounded and the given limit reports the penalised size |
| C64 | equal user-given function names are merged by dot; the invisible chain follows variable indices, not levels |
| C113 | names are written without escaping: a quote in a function name makes the text unreadable, unbalanced `<` `>` in a name ends the label early; `edge [dir = non]` is not a value of `dir` (should be `none`) and is only harmless because solid edges also set `arrowhead = none` |
| C97 | ACA1 with longer sub adders can be worse on single inputs: 7 + 1 is 6 with sub adders of 1 bit, 4 with 2 bits |
| C99 | an operator can increase the size: nodes shared with and without complement are split |
| C100 | `superset_light_child`, `subset_heavy_child`, `round_up` are not idempotent |
| C101 | ties are resolved differently for a function and its complement |
| C105 | the carry out of ACA1 is computed from a window like every other carry, that of GeAr continues the chain of the last sub adder |
| C106 | ACA2 uses blocks of N/(N/Q + 1) instead of Q/2 bits (also in the 16 bit configurations of the experiments); GDA restarts at multiples of the block length whatever the lookback |
| C112 | beyond 53 outputs the ADD variants are wrong in doubles: 54 wrong outputs give 2^54 - 1, rounded to 2^54, that is, one flipped bit |
| C115 | the genetic programs print 18446744073709551615 nodes and error 0 if no acceptable function was found; a missing file gives an empty function and ends the program with an exception of pagmo (nsga2_minimize_iscas.cpp 22-27 ignores the return code of lorina) |
| C116 | `load_epfl_benchmark_file` ignores the return code: a missing file is the empty vector, a file cut off after the header gives constant functions |
| C117 | `sift = true` has no effect for the adders, they are built without reordering |
| C153 | the 256-bit sums of `average_value` and `mean_squared_value` wrap around for functions with many outputs and variables: the average case error of the example of C153 is 2^56 instead of 2^60; an output that depends on 256 or more variables makes both divide by zero (possible for `hyp` and `max` among the circuits of the experiments) |
| C125 | with doubles a bucket may hold a function whose error equals or (by one rounding) exceeds the bound, if the grid size is no power of two: bound 1/3, grid 7, worst case error of one third |
| C133 | with doubles the bisection of `wcre_search` loops forever for constant functions with 41 outputs and the default parameters: the middle of two neighbouring doubles is one of them, and they are further apart than the precision |
| C136 | with doubles efficient sampling fails for functions on which it succeeds with exact numbers: 55 variables, one output wrong everywhere, one wrong on a single input; the sum of the rates rounds to 1, the quotient divides by 0 |
| C129, C131 | `count_paths` shifts by the number of levels an edge passes over, undefined from 64 on, and counts modulo 2^64; with 64 or more levels the 64-bit total is 0, so `error_rate_add` and `average_bit_flip_error_add` divide by 0; with 65 `average_case_error_add` can give a wrong number |
| C140 | every operator keeps one reference to each intermediate result (lines 189, 245, 364, "is this necessary?"): their nodes are never collected |
| C141 | the operators do not check the result of `Cudd_bddIte`: without memory they reference a null pointer or return a BDD without a node |
| C142 | dynamic reordering in an operator invalidates the children read before the first recursive call and the entries of the map of node counts: dangling node, exception or another result. The programs disable reordering before they approximate ("it can cause problems", nsga2_minimize_epfl.cpp 27) |
| C144 | with 1076 or more variables densities underflow: `subset_light_child` turns the conjunction of all variables into the constant 0 and `random_satisfying_input` returns inputs outside the function, for all draws (C20 and C134 hold up to 1022 variables); `round_down` compares infinities from about 1030 levels on; `error_rate` is 0 or NaN for functions with a variable of index 1024 or more (EPFL's mem_ctrl has 1204 inputs) |
| C145 | in other variable orders the level difference in `count_solutions` wraps around: the count is infinite and `round_down` of the majority of three keeps the lighter child |
| C155 | with more than 1024 levels `count_solutions` multiplies 0 by infinity; the count of such a node and of all nodes above it is NaN, and `round_down` and `round_up` replace the then child whatever it is (`round_down` gives 0 for the conjunction of 1026 or more variables) |
| C159 | `random_satisfying_input` compares the index of a node with a counter documented as a level: when the variables come in the opposite order, the conjunction of n variables gets n - 1 coin flips and the result satisfies it with probability 1/2^(n-1) |
| C160 | `error_rate_efficient_sampling` divides by 2^(ReadSize() - 1), which is infinite without variables (the unsigned subtraction wraps around) and with more than 1024: it converts NaN to `long` unless there is exactly one output, for which it returns 0 or 1; the constants 1 and 0 get the rate 0 |
| C162 | `almost_correct_adder_1` is not exact for any partition size, not even one partition of all bits; `almost_correct_adder_2` with one partition of all bits is exact only for an even number of bits (or one bit) |
| C17 | `eval_adder` with 32 bits reads bit 31 with the mask `1 << 31`, a negative int: the bit is one exactly from 2^31 on, so it is wrong for negative operands and for operands from 2^32 on whose bit 31 is zero |
| C189, C190 | densities that differ only beyond the 53rd bit count as equal: `round` and `subset_light_child` can then pick the worse constant or child; the loss is at most n * 2^-49 |
| C193 | `round` on every output minimises the flipped bits only; another vector below the level can have a smaller error rate, average-case and worst-case error |
| C75 | unknown file and metric numbers are reported with `throw new std::logic_error` (benchmark_util.cpp 83, 95, 133, 172, 188): a pointer is thrown, which `catch (const std::exception&)` does not catch; the model only says `Throw` |
| C92 | beyond 53 variables rounding can change which child an operator replaces |
| C48, C49, C51 | operators compare the variable index with levels: after reordering the recursion stops at the first index past the range |

## 7 Properties

Format: what is modelled and compared; proof method. Status "refuted in part" means: the property as stated is false of the code
(witness given), the `_partial` theorem states what does hold for all inputs.

* **C01** Bitwise addition of function vectors is addition modulo 2^width (proved). `bdd_add` against `uval`; ripple carry invariant by induction on the width.
* **C02** Bitwise subtraction of function vectors is subtraction modulo 2^width (proved). `bdd_subtract`; same loop with negated subtrahend and carry 1.
* **C03** bdd_abs computes the absolute value in both representations (proved). `bdd_abs` against |`sval`|; xor with the sign and subtraction of the mask, case split on the sign.
* **C04** Absolute difference of unsigned functions (proved). `bdd_absolute_difference`; C02 and C03 after zero extension.
* **C05** Absolute difference of two's complement functions (refuted in part). `bdd_absolute_difference` on signed vectors; C02 and C03 modulo 2^n. The property is false of the code: the subtraction overflows when the distance exceeds half the word. The refutation gives the witness 1-(-2) on two bits; the partial theorem gives the exact value min(d, 2^n-d) for all inputs.
* **C06** Shifting a function vector (proved). `bdd_shift`; case split on the direction, `firstn`/`skipn` arithmetic of `uval`.
* **C07** Multiplication by an integer constant is exact (proved). `bdd_multiply_constant_u256`; induction over the bits of the factor. ceil(log2(.)) is any function with z < 2^(clog2 z + 2).
* **C08** Multiplication by a real constant truncates from below with a known error (proved). `bdd_multiply_constant_double`; integer part as C07, induction over the fractional bits for the truncation error. Doubles are the rationals they represent; ceil(log2(.)) is any function with z < 2^(clog2 z + 2).
* **C09** Symbolic comparison of functions (proved). `greater_equals`, `greater_than`; invariant of the comparison from the most significant bit.
* **C10** exists_greater_equals classifies the pair of functions (proved). `exists_greater_equals`; invariant on the inputs on which all higher bits agree, canonicity for the zero test.
* **C11** bdd_max_one is max(1, f) (proved). `bdd_max_one`; all higher bits zero.
* **C12** Symbolic division (proved). `bdd_divide`; long division invariant.
* **C13** Number to constant function (proved). `number_to_bdds`; induction on the binary digits.
* **C14** high is the positive cofactor of the top variable (proved). `high`; case analysis on the complement flag.
* **C15** low is the negative cofactor of the top variable (refuted in part). `low`; case analysis on both complement flags. The property is false of the code: low complements the cofactor when both the edge and the else edge are complemented, e.g. x0 xor x1. The partial theorem gives the value for every BDD.
* **C16** eval reads the number encoded by the outputs (proved). `eval`; induction over the outputs and the BDD.
* **C17** eval_adder feeds interleaved operands (proved). `eval_adder`; C16 on the interleaved input vector.
* **C18** count_minterms maps every reachable node to its density (proved). `count_minterms`; induction over the BDD with an invariant on the memo map (sound, closed under children). Doubles are the rationals they represent. The key set is exactly the set of reachable edges.
* **C19** count_solutions maps every reachable node to its number of solutions below its own level (proved). `count_solutions`; invariant on weighted paths from the root. Doubles are the rationals they represent; index order; terminal level as computed by the code.
* **C20** random_satisfying_input always satisfies the function (refuted in part). `random_satisfying_input`; induction over the path, positive weight of the chosen child. The property is false of the code: rand() == 0 takes the then branch even when it has no solution (witness !x0). The partial theorem covers all draws in (0, RAND_MAX]; C20_wrong_exactly_on_zero_draws covers all draws and says exactly which of them give a wrong result.
* **C21** add_terminal_values is the value histogram of an ADD (proved). `add_terminal_values`; conserved weighted path count (`PathFacts.v`). ADD leaves are rationals; CUDD's epsilon merging of leaves is not modelled.
* **C22** bdd_forest_to_add preserves the represented number (proved). `bdd_forest_to_add`; induction on the width, semantics of ADD `apply`.
* **C23** Difference ADDs (proved). `absolute_difference_add`, `xor_difference_add`; C22 and semantics of ADD `apply`.
* **C24** error_rate is the fraction of inputs with a wrong output (proved). `error_rate` against the average of `differ`; semantics of the miter, `CountMinterm` as an average.
* **C25** error_rate_add agrees with error_rate (proved). `error_rate_add`; C21 and C23, no wrap of the 64 bit sums. Exact rationals for doubles; at most 63 variables in index order.
* **C26** average_bit_flip_error is the mean Hamming distance (proved). `average_bit_flip_error` and `_add`; linearity of the average, popcount of the xor. The _add variant additionally needs at most 64 outputs and width*2^n < 2^64 (its 64 bit sum).
* **C27** worst_case_bit_flip_error is the maximal Hamming distance (proved). `worst_case_bit_flip_error` and `_add`; maximum leaf of the ADD, C21. Width below 2^32; the popcount variant at most 64 outputs.
* **C28** get_max_value is the maximum of the function (proved). `get_max_value`; greedy choice from the most significant bit is the maximum. Also gives the value beyond 256 bits: the maximum modulo 2^256.
* **C29** worst_case_error is the maximal arithmetic error (unsigned) (proved). `worst_case_error`, `_add`; C04 and C28, C21 and C23.
* **C30** worst_case_error is the maximal arithmetic error (two's complement) (refuted in part). the same in two's complement; C05 and C28. The property is false of the BDD variant (overflow, C05): witness 1 and -2 on two bits. The partial theorem gives the exact value max min(d, 2^w-d) and the exactness of the ADD variant.
* **C31** worst_case_error_percent lies in [0,1] (proved). `worst_case_error_percent`; C29, range of the quotient. For more than 53 bits the double 2^n-1 rounds to 2^n; this rounding is modelled, the rounding of the quotient is not.
* **C32** approximate_worst_case_error never underestimates (unsigned) (proved). `approximate_worst_case_error`; position of the top difference, error of dropping low bits. Bounds and the exact value (maximum of the shifted values, scaled back). The upper bound is attained (constants 2^N and 2^N-1).
* **C33** approximate_worst_case_error obeys its documented relative bound (refuted in part). same; relative form. The documented bound is false: f=2, f_hat=1 constant, n=1 gives 3 for a worst case error of 1. The partial theorem gives relative error 4/2^n when the leading difference is not cancelled. Both are sharp: the relative error is unbounded in general (C32_bound_attained), and 4/2^n is approached by a family of constants (C33_bound_sharp).
* **C34** approximate_worst_case_error never underestimates (two's complement) (refuted in part). same with the sign bit appended. False of the code: differences in the sign bit alone are not seen (result 0). The partial theorem covers functions with the same sign bit. A second theorem gives the exact value for any sign bits. A third one shows that the wrapped difference of C05 is never underestimated if some output besides the sign bit differs, nor is the true one if it does not exceed half the range.
* **C35** average_value is the mean of the function (proved). `average_value`; integrality of the counts within the support, no wrap in 256 bits.
* **C36** mean_squared_value is the mean of the squared function (refuted in part). `mean_squared_value`; truncated counts of the conjunctions. False of the code: counts of conjunctions are truncated when their support exceeds the largest single support ({x0,x1} gives 2.5 instead of 3.5). The partial theorem gives a lower bound and exactness when one output depends on all variables. A second partial theorem gives the exact value: pair counts rounded down. The error is below (2^m-1)^2/2^s, and the result is exact iff the count of every pair is a multiple of 2^-s of all inputs (C36_mean_squared_value_gap).
* **C37** average_case_error is the mean arithmetic error (proved). `average_case_error`, `_add`; C04 and C35, C21 and C23. Width plus number of variables below 256. The two's complement BDD variant averages min(d, 2^w-d).
* **C38** mean_squared_error is the mean squared error (refuted in part). `mean_squared_error`, `_add`; C04 and C36, C21 and C23. The BDD variant inherits C36; the ADD variant is exact for 2*width+n <= 256. The exact value of the BDD variant is stated as well. Its error is bounded and its exactness characterised like in C36.
* **C39** Exact relative error metrics via ADDs (proved). `wcre_add`, `acre_add`; C21 to C23 and the ADD division. Exact rationals for doubles; at most 63 variables in index order.
* **C40** wcre_bounds brackets the worst-case relative error within a factor of two (proved). `wcre_bounds`; partition of the inputs by the highest bit of |f|. In two's complement the bracketed value uses the wrapped difference of C05.
* **C41** acre_bounds brackets the average relative error within a factor of two (proved). `acre_bounds`; same partition for sums. Width plus number of variables below 256; wrapped difference of C05 in two's complement.
* **C42** Symbolic-division relative errors are accurate to 2^-e from below (proved). `wcre_symbolic_division`, `acre_symbolic_division`; C12 and C28 or C35. Width plus extra bits (plus variables) at most 256 bits.
* **C43** wcre_search converges to the worst-case relative error (refuted in part). `wcre_search`; invariant of the bisection. The property is false of the code: masked inputs look like an exact hit (constant 4 against 9/4 gives 1.5 instead of 1.25), and a worst case strictly between 0 and 1 is undefined behaviour. The partial theorem: within 142 rounds a value at most precision/2 too small and less than 50% too large. C174 gives the exact value that is returned and shows that the 50% cannot be improved.
* **C44** wcre_randomized_search is exact for every random sequence (proved). `wcre_randomized_search`; the candidate is always attained and at the end not exceeded; strictly increasing fractions. Widths up to 62 bits. Random draws are an arbitrary sequence; termination needs draws in (0, RAND_MAX] (C20).
* **C45** Sampling estimates of the error rate stay in range (refuted in part). `error_rate_sampling`, `error_rate_efficient_sampling`; counting over an arbitrary draw sequence. Efficient sampling is undefined when it compares more than one output of which at most one is ever wrong (0/0 converted to long). Otherwise the range holds; exact in the nested and disjoint cases. Less than 2^31 samples (int counter). Plain sampling is shown to return exactly the share of wrong samples.
* **C46** Subset operators only remove inputs (proved). `subset_light_child`, `subset_heavy_child`, `round_down`; induction over the BDD with a memo map invariant. All variable orders. Reference counting: C139, C140.
* **C47** Superset operators only add inputs (proved). `superset_light_child`, `superset_heavy_child`, `round_up`; same. All variable orders.
* **C48** One-level child replacement loses at most half (proved). same functions on one level; structural description of the result (`at_range`) and counting. One level: every order. Ranges of levels: index order, halving per level. The replaced child and the behaviour on ties are characterised by at_range.
* **C49** round_bdd (round) is the optimal approximation above a level (proved). `round_bdd`; majority value per cofactor is optimal. Index order (levels are variable indices in the code). Competitors are arbitrary functions of the variables below the level.
* **C50** round_best replaces one child with minimal error (refuted in part). `round_best`; comparison of the four candidate replacements per node. False on ties: both children are replaced (x0 xor x1: error 1/2 instead of 1/4). Proved: at most twice the minimum, minimal without ties; C50_round_best_levels gives the result for every range of levels, ties included.
* **C51** round_down/round_up select the child by the number of solutions (refuted in part). `round_down`, `round_up`; C19 for the compared counts. False: count_solutions counts over the variables below each child, so skipped levels distort the comparison; round_up fills the lighter child. Proved: the exact criterion, and the stated one for round_down when children start at the same level.
* **C52** Bucket index conversions are mutually inverse (proved). `create_multi_dim_index`, `reduce_multi_dim_index`; row major arithmetic. Grid sizes with product at most 2^64 (no wrap of size_t); a grid size of zero is a division by zero.
* **C53** Buckets returned by the greedy minimisation are sound (proved). `bucket_greedy_minimize`; invariant of the search. Metrics and operators are arbitrary functions; metric values are exact rationals.
* **C54** The greedy minimisation terminates (proved). same; decreasing sum of the bucket sizes. At most volume * nodeCount + 1 buckets are explored; totality if metrics and operators are total and the scaled errors fit size_t.
* **C55** With populate_all looser buckets are never worse (proved). same; invariant on pairs of buckets. Also: the last bucket is a smallest one.
* **C56** Generated operators do what their kind says (proved). `generate_single_bdd_operators`, `generate_multi_bdd_operators`, `apply_operator`; C46 to C51 and cofactor semantics. The light/heavy choice is stated by the replaced child as in C48-C51; ROUND optimality needs index order.
* **C57** PLA parsing yields the sum of the cubes (proved). `pla_run`; induction over the events.
* **C58** AIGER parsing yields the functions of the and-inverter graph (proved). `aig_file`; invariant: every stored literal has its and-inverter value.
* **C59** AIGER parser accesses stay in bounds (refuted in part). same; table lengths never change. False: the assertions of on_input_name, on_output_name and on_and admit the index one past the end, and a header with m = 2^63-1 wraps to no literals. Proved: these are the only undefined accesses in any reachable state.
* **C60** regular_adder adds (proved). `regular_adder`; C01 style induction.
* **C61** Approximate adders never overestimate (proved). four approximate adders; carry of a window never exceeds the exact carry. Parameters below 2^30 (no unsigned wrap). Admissible parameters are characterised exactly together with C66.
* **C62** Approximate adders are exact when no carry is cut (proved). same; a sum bit is exact iff the carry into it is generated inside its window. Stronger than stated: an equivalence. Windows are given by the restart positions of each adder.
* **C63** n-ary gate constructors (proved). `and_bdd`, `or_bdd`, `xor_bdd`; induction on the number of variables.
* **C64** dump_dot_readable emits the BDD (proved). `dump_dot_readable`; the traversal visits every reachable edge once, graph semantics `graph_value`. The text is modelled as a list of node and edge statements; presentation attributes are left out. Pointers are printed injectively and start with 0x. Complement edges are resolved, so a function and its complement are two nodes. Equal user given names are merged by dot (hence the NoDup condition).
* **C65** compute_error_metric passes the original function first (refuted in part). `compute_error_metric`; the theorems of the single metrics. The property is false of the code: the two average case relative metrics are called with (approx, original) (benchmark_util.cpp 77, 79). The partial theorem gives every metric; the mean squared error and the binary search inherit C38 and C43.
* **C66** Adder parameters outside the admissible range never go unnoticed as a result (proved). the adders with arbitrary parameters; outcome by case analysis. Findings: ACA2 with partition size 1 and GDA with more partitions than bits divide by zero; GeAr with sub adders longer than n + 1 bits reads out of bounds.
* **C67** ACA1 with a full-width partition is the exact adder (refuted in part). `almost_correct_adder_1` with a full partition; C62. False: n = 1, 1 + 1 gives 0. Proved: only the carry out generated at bit 0 is lost.
* **C68** The result of the greedy minimisation cannot be improved by a possible operator (proved). `bucket_greedy_minimize`; invariant of the work list. Fixpoint invariant of the work list, including early stopping on partial indices.
* **C69** bucket_minimize_helper keeps the requested error bounds (refuted in part). `bucket_minimize_helper`; C53 with the theorems of the metrics. False for MEAN_SQUARED (computed too small, C38): [x0;x1] with bound 3.25 yields [0;0] with mean squared error 3.5. Proved for the nine other metrics within the sizes for which they are exact, and for MEAN_SQUARED that the truncated value of C38 keeps the bound (the error itself if some bit of the difference depends on all its variables), with totality of the helper (in RANDOM mode with two draws per operator).
* **C70** Random operators change a single output (refuted in part). `generate_random_operators`; induction on the count. False: operator and level are fixed at creation and applied to all outputs. Proved: number of operators, kind, level, and when the call is undefined (no kinds or no outputs).
* **C71** The returned buckets form a Pareto front (refuted in part). returned buckets; C55. False with and without populate_all (error rate, cofactor operators on three outputs). Proved: with populate_all a dominated bucket has the same size as the one dominating it.
* **C72** Function operators act on every bit (proved). `Function_`; pointwise.
* **C73** split yields the white space separated words (proved). `split` against `words_of`; induction over the string.
* **C74** PLA input and output names (refuted in part). `pla_run`; induction over the events. False for several .ilb lines: every such line registers all previous input names again. Proved for at most one .ilb line; the stored names are right for all files. C74_registered_names gives the registered list for any number of lines: the names of all prefixes of the lines; it is right iff only the last line has names.
* **C75** Names identify metrics, benchmark files and adder configurations (proved). name tables and `approximate_adder_name`; enumeration, injectivity of decimal printing.
* **C76** get_approximate_adder builds the configured adder (proved). `get_approximate_adder`; C61 and C66.
* **C77** load_input loads what was asked for (proved). `load_input`; C60 and C58. The callbacks of lorina for a parsable file are the input; reading aborts with the C59 outcomes for other files.
* **C78** format_time truncates to the chosen unit (proved). `format_time`; truncation of the quotient.
* **C79** vec_to_arr copies the strings and del_arr frees exactly them (proved). `vec_to_arr`, `del_arr` on a store; induction over the vector. new picks the next address that is not in use.
* **C80** The genes are the essential variables of the outputs (proved). `compute_support_positions`; canonicity: variables of a reduced BDD are essential.
* **C81** An individual fixes variables of outputs to constants (proved). `function_from_individuum`; cofactor semantics, induction over the positions.
* **C82** The fitness is the size and the errors, or a penalty (proved). `fitness`; C81, C24, C37. Finding: the comment says functions greater than the original are skipped, but the test is >=, so the original itself is penalised. Doubles are rationals; the limits are rounded to float as in the code.
* **C83** The initial population is well formed (proved). `make_population`; induction over the draws. Dimension 0 is undefined behaviour; run_genetic_minimization throws before (mutation probability 0.3/0).
* **C84** run_genetic_minimization reports a smallest acceptable function (refuted in part). `run_genetic_minimization`; invariant of the best result. The property is false of the code: the limits are stored as float, so an error between the rounded and the given limit is penalised in fitness but accepted in the run, and the penalised node count is reported. The partial theorem covers all functions whose errors are exact floats. pagmo is an arbitrary function on populations. A second theorem covers any limits: the reported errors belong to a function that was found, the reported node count is its penalised size, and no function that was found has a smaller penalised size.
* **C85** run_genetic_minimization terminates (proved). same; the best size decreases. 2^64 rounds suffice in general; nodeCount + 1 in the setting of C84.
* **C86** The metrics bound each other (proved). the value theorems of C24-C45; induction over the sums of all inputs, Cauchy-Schwarz for the squares.
* **C87** error_rate, bit flip errors and average_case_error are pseudometrics (proved). the value theorems of C24-C38; pointwise inequality summed over all inputs.
* **C88** The metrics do not depend on the variable order (proved). both results are determined by the values of the functions (C24-C45).
* **C89** The functions from the papers (proved). semantics of the BDD operations, case distinction over the inputs; computation.
* **C90** terminal_level is the first unused index (proved). induction over the lists; the maximum of the support indices.
* **C91** Rounding of doubles in the counts and in error_rate, average_bit_flip_error (proved). second model with a rounding function after every operation; the exact values are multiples of 2^-n with numerator at most 2^n; induction over the BDD for the relative error. `Rounded.v` models the operations of the listed functions again with rounding; overflow and underflow (over 1000 variables) are not modelled.
* **C92** The operators are not affected by rounding for up to 53 variables (proved). equal weights lead to equal decisions (induction over the BDD); witness by computation.
* **C93** What an approximate adder returns (proved). per-bit carry equations of C66; induction over the positions.
* **C94** Average errors of the approximate adders in closed form (proved). density of a generated carry by induction; linearity of the average; telescoping sum.
* **C95** Worst case error of the approximate adders (proved). bound by induction over positions, attained by constructed operands.
* **C96** Error rate of the approximate adders (proved). recursion by the first propagate run below the top position; independence of disjoint bit ranges.
* **C97** Longer sub adders are better (refuted in part). witness by computation; monotonicity of the closed forms of C94 to C96. False on single inputs: 7 + 1 is 6 with sub adders of 1 bit and 4 with sub adders of 2 bits. What holds: exact sums stay exact, and error rate, bit flip error, worst and average case error never get worse; C178 has the squared and relative errors.
* **C98** No operator introduces a variable (proved). the result ignores a variable the argument has no node for (induction); the support consists of the essential variables.
* **C99** Operators reduce the size (refuted in part). witness by computation; every node of the result is the root of the image of an edge (or, without index order, a node of the argument). False: on the parity of three variables subset_light_child at level 1 gives 5 nodes instead of 4, since the node below is reached with and without complement. What holds: at most twice the nodes in index order, at most three times in any order. C163 shows that the factor two cannot be improved.
* **C100** Applying an operator twice (refuted in part). every node of the result in the range has a constant child, which is the one that is replaced again (induction); witnesses by computation. False for superset_light_child, subset_heavy_child and round_up, which then replace the other child. Proved for subset_light_child, superset_heavy_child, round_bdd, round_best and (index order) round_down. C100_twice_then_stable: the second application of subset_heavy_child/superset_light_child turns every node of the range into the constant, the third changes nothing.
* **C101** Operators and complement (refuted in part). density of the complement; induction over the BDD; witness by computation. False on ties (x0 xor x1): the light variants replace the then child, the heavy variants the else child. Proved when no node in the range has children of equal density (round: no node of density 1/2 at or below the level; round_best: no node whose children both have density 1/2).
* **C102** Operator benchmarks compute bounded approximations (proved). induction over the vector from C46, C47, C49, C98 and the cofactor.
* **C103** Average case error benchmarks (proved). one-sidedness (C102) and linearity of the average; C01 to C17 for the steps.
* **C104** Table of adder errors (proved). C94 to C96; the table by evaluation of the closed forms.
* **C105** ACA1 is a GeAr configuration (refuted in part). witness by computation; equality of the windows of C62 for all bits but the carry out, canonicity of BDDs. False as stated: the carry out differs. The partial theorem shows that all sum bits are identical BDDs; C162 shows that the carry out differs for all parameters.
* **C106** ACA2 and GDA are GeAr configurations (refuted in part). witnesses by computation; equality of the windows and canonicity of BDDs. False as stated: for N = 8 and partition size 6 the blocks of ACA2 have 4 instead of 3 bits, and GDA with a lookback that is no multiple of the block length restarts at other positions. The partial theorems show identical BDDs under N/(N/2h + 1) = h and (N/p) | P; C162 gives the conditions in necessary and sufficient form.
* **C107** Plain sampling is unbiased (proved). expectation over consecutive groups of draws; variance of a sum of independent indicators; Chebyshev's inequality.
* **C108** Random satisfying inputs are nearly uniform (proved). induction on the levels with the weight of the node as a factor; the number of draws that take the then branch is within 1 of its share.
* **C109** Efficient sampling is close to the error rate (proved). the loop is a sum over independent groups of draws; bias by C108 and the skipped outputs, variance by the number of samples per output, telescoping of the shares.
* **C110** The sampling experiments estimate the error rate (proved). C107, C109, C45; one-sidedness of subset_light_child.
* **C111** Error rates of gates under cofactors (proved). Probability that a set of variables has given values by conditioning on one variable after the other; the parity flips with the first fixed variable.
* **C112** Rounding in the ADD variants of the metrics (proved). second model of the ADD functions with a rounding function at every double operation; ADDs are canonical, so equal values give equal diagrams; values of vectors with at most 53 outputs are doubles; relative error bounds by induction over the outputs
* **C113** Text of the dot output (proved). the lexer is a transducer, so runs compose along concatenation; every line is read for arbitrary names and what follows; statements compose with a fuel bound; styles and ranks by the defaults in force
* **C114** Size of the exact adder (proved). The nodes of the sum and carry diagrams are written down explicitly and shown to be the adder by canonicity; counting of a duplicate free list.
* **C115** Tables of the genetic minimisation (proved). C84 for the constants of the programs (limits that rounding to float does not decrease), C58 for the files, C114 for the sizes; induction over the rows.
* **C116** Loaders report unreadable files (refuted in part). Case analysis; C58 for complete files; witness by computation. False for load_epfl_benchmark_file, which ignores the return code of lorina: a missing file gives the empty vector, a file cut off after its header constant functions. Proved for load_iscas_85_file; the partial theorem says what the EPFL loader does in these cases and that it is right for correct files.
* **C117** Tables of the bucket minimisation (proved). C52, C53 and C69 for the constants of the programs, with the values of the metrics (C24, C31); induction over the rows.
* **C118** The bucket minimisation is not worse than a single step (proved). First round of the search: every operator is still possible; sizes of buckets only decrease afterwards.
* **C119** The bucket minimisation finds the smallest function its operators reach (refuted in part). Refuted: for [x0; x0] no single step reduces the number of nodes, two steps do. In general nothing is found by SINGLE_BDD if every output occurs twice (`C119_duplicated_outputs`). False: an operator changes only one of two equal outputs, which makes nothing smaller, so the step is rejected although the next one would pay off. Proved: if every output occurs twice, nothing is ever found.
* **C120** Leaves closer than epsilon in the relative errors (proved). model of the lookup of constants with an arbitrary hash function and an arbitrary table per division; the error of a leaf is below epsilon by induction over the chain; bounds carried through maximum and mean; smallest non-zero relative error for 39 outputs against epsilon the constants table of CUDD is modelled from its documentation of ddEqualVal; the table is an arbitrary function of the two operands of a division
* **C121** Worst case bit flips of the approximate adders (proved). an output is wrong iff the carry from position 0 differs from the carry of its chain; operands 2^N - 1 and 1 make all candidates wrong at once
* **C122** Worst case relative error of the approximate adders (proved). for a restart at k with lookback P the operands 2^(k+1) - 2^(k-P) and 2^(k-P) lose exactly 2^(k+1); the loss never exceeds the sum
* **C123** Mean squared error of the approximate adders (proved). the square grows by the cross terms of the newly forgotten carry; given the generating position g only carries below g are forgotten besides it and they are independent of it; the mean below g is C94
* **C124** Average metrics with rounded counts (proved). all counts stay multiples of 2^(s - height), which rounding keeps up to 53 bits, so that the conversion to uint256_t truncates nothing; relative errors add up along paths
* **C125** Bucket minimisation with doubles keeps its bounds (refuted in part). the run with doubles equals a run of the exact model with adjusted metrics; between a bound and a larger double there is a gap that the two roundings cannot bridge; the accuracy of each metric by C91, C112, C124 The strict bound is refuted (worst case error 1/3, bound the double next to 1/3, grid 7). The partial theorems give: the value of the metric is at most the bound, strictly below it for grids that are powers of two, and the exact error exceeds the bound at most by the roundings in the metric; the mean squared error has the defect of C69 in addition (beyond 53 variables its bound is shown only if an output of the difference depends on all of its variables), and the relative metrics need at most 53 outputs.
* **C126** Operators with rounded counts (proved). the recursion with memoisation equals a pure recursion for any map of counts; induction on the diagram
* **C127** Order of the bucket search (proved). Sorted-list invariant of the std::set model with a separately defined lexicographic order; invariant of one round (sizes, pending set) through populate, op_step and replace_loop; induction over rounds.
* **C128** Failures of the minimisations (proved). Failure propagation through the monadic loops with the search invariants; exception-freedom of every metric and operator by structural induction.
* **C129** Histograms with any number of levels (proved). The level by level traversal keeps the sum over pending nodes of count times weight, modulo 2^64; every visited node up to the current level has been treated, so an undefined shift occurs exactly if some reachable edge is long.
* **C130** ADD based maxima with any number of variables (proved). The histogram of C129 has exactly the values of the function as keys; the maxima ignore the counts.
* **C131** ADD based averages with 64 and more variables (proved). Distinct reduced ADDs differ on some input, so a count of 64 levels is below 2^64; the counts modulo 2^64 add up to 2^t modulo 2^64, which is 0 from t = 64 on; the wrong average is compared with the BDD variant of C37. The exact averages need width plus variables (squares: twice the width) of at most 256; C131_average_add_65 is the wrong number with 65 variables.
* **C132** Bisection for the worst case relative error with doubles (proved). the middles are multiples of 2^-s below 2^outputs, hence floats; simulation of the exact loop
* **C133** Bisection with doubles need not end (refuted in part). invariant: the limits are doubles around the true value, the middle rounds to one of them, the interval never gets shorter than the distance of doubles refuted: constant functions with 41 outputs keep the bisection running for ever
* **C134** Randomized search and random satisfying inputs with doubles (proved). rounding to nearest keeps 0, signs and the order relative to 1; loop invariant parametric in the sampler
* **C135** Relative error metrics in decimal arithmetic (proved). error propagation per operation against the exact model; all terms are nonnegative
* **C136** Sampling of the error rate with doubles (proved). all rates and sums are multiples of 2^-n below the number of outputs; loop lemmas shared with the exact model C136_more_failures: with 55 variables rounding makes efficient sampling fail for functions on which it succeeds with exact numbers.
* **C137** Operators given up by the bucket search (proved). invariant over the operator loop relating the flags of the explored bucket to the operators seen so far
* **C138** Failures of the error metrics (proved). every helper is shown to fail with undefined behaviour only, by induction over the loops
* **C139** No dangling nodes in the operators (proved). invariant over the recursion: the references are those of the caller plus one for every rebuilt entry of round_map
* **C140** Operators release their references (refuted in part). exact multiset of references after the call; witness x0 and x1 by vm_compute False of the code: every rebuilt subfunction keeps one reference for ever. The partial theorem gives the exact set of references left behind. On the other hand this reference is what keeps the result of the first recursive call alive during the second one (C139).
* **C141** Operators when memory is exhausted (refuted in part). operators with an oracle for failing calls; induction over the recursion, the failing call is located in the list of subfunctions built anew; witness by vm_compute
* **C142** Operators while variables are reordered (refuted in part). operators over a state of order, call number and references; simulation of the pure recursion as long as the order is unchanged; witnesses by vm_compute
* **C143** Range of doubles does not matter up to 1022 variables (proved). all intermediate results are 0 or multiples of 2^-1022 below 2^1024, where IEEE rounding is round_float 53; to_double is proved to be the nearest double or infinity. For the standard library the shift register with its round and sticky bits is shown to hold the exact quotient by the unit, so that its rounding is round_half_even
* **C144** Underflow and overflow beyond 1022 variables (refuted in part). induction over the chain of nodes: the density of n variables is 2^-n down to 2^-1074, then ties to even give 0; witness for round_down by vm_compute
* **C145** Operators never fail, whatever the counts (refuted in part). relation between argument and result that ignores the comparisons of the counts; witness by vm_compute (majority of three, reversed order)
* **C146** A larger level range removes more (proved). simultaneous induction over both recursions, whose decisions use the same counts
* **C147** Larger ranges are never more precise; rounding beats constants (proved). the error of a node is the mean of the errors of its children; induction with the bound min(p, 1-p) on the error of the rounding operators
* **C148** Metrics grow with the level range (proved). C146 and C147 with the exact values of the metrics (C24, C26, C27, C29, C37)
* **C149** Rounds of the randomized search (proved). simulation of the loop by an inductive relation over rounds; the values above the bound decrease strictly
* **C150** Value of a constant ADD (proved). case analysis with Z.quot against Qfloor
* **C151** Exact values of the relative error bounds and of the average symbolic division (proved). both loops generalised to an arbitrary divisor per leading bit; the leading bit is the binary logarithm
* **C152** Larger level ranges never reduce the relative error (proved). pointwise comparison of the distances and the exact values of the metrics
* **C153** Average metrics of wide functions (proved). sums modulo 2^256 related to the exact mean; remainder of rationals
* **C154** Work of the operators is linear in the size of the BDD (proved). the calls correspond to distinct subfunctions (C141); every node has two edges, the root only one
* **C155** NaN among the numbers of solutions (refuted in part). Values of the recursion with IEEE numbers as a plain recursion; induction over the BDD separates NaN, zero and counts of at least one; comparison with NaN in the operators. C155_count_refuted is the witness with 1025 levels; C155_counts gives the exact condition, C155_rounding and C155_everything_lost the consequences.
* **C156** Nearly uniform sampling with doubles (proved). Rounded weights lie within 2h roundings of the shares; the number of draws that take the then branch is enclosed by two floors; induction over the levels; transfer to doubles without overflow.
* **C157** How reading an and-inverter graph ends (proved). Invariant of the literal table; the outcome of each line is a function of the lines before it; first failing line is unique.
* **C158** The programs end like the reader (proved). Rows lemma of the printing loop, outcome of reading (C157).
* **C159** random_satisfying_input in other variable orders and with other maps (proved). The conjunction is a chain by canonicity; induction over the levels; the expectation over parities of draws; induction over the loop with an arbitrary map. C159_other_order is the witness of a variable order other than the index order; the other theorems give the exact conditions.
* **C160** Efficient sampling when 2^(ReadSize() - 1) is not a finite double (proved). Every rate is 0 or NaN, which the sums, differences and products keep, so that the quotient is NaN. C160_empty_manager is the witness of the wrong rate without variables; C160_undefined and C160_one_output give the exact behaviour.
* **C161** Efficient sampling with doubles of limited range (proved). simulation: the computation with bounded doubles equals the one with rounding of unbounded range, because every intermediate value is 0 or between 2^-200 and 2^200; then C136
* **C162** When two approximate adders are the same circuit and when they are exact (proved). a carry generated at the first position of the longer window separates two adders; arithmetic of the restart positions
* **C163** The operators can nearly double a BDD, and no smaller factor bounds the growth (proved). The parity BDD is a chain; the result at every level has two functions which are neither equal nor complementary, so two nodes. For round and round_best the chain ends in a tie which is rounded to zero under both complements.
* **C164** Printed numbers are the nearest numbers with six digits (proved). The digits are the half-even rounding of the number scaled by its decimal exponent; a reader of numbers is defined separately and applied to the text.
* **C165** The tables printed by the programs can be read back without loss of structure (proved). No printed name, number or time contains a separator, so splitting the text gives the cells that were put together; rates by monotonicity of printing (C164).
* **C166** Operators and failures of the minimisation with doubles (proved). The rounded search follows an exact search with adjusted metric values, which transfers the failures of C128; induction over the draws for the random operators.
* **C167** Exactly when the functions on vectors fail (proved). Induction over the vectors with the lengths of all intermediate vectors as invariant; case distinction on the factor.
* **C168** Exactly when the error metrics fail, exact and rounded (proved). Composition of the outcomes of the vector functions (C167); an upper bound 2^128 on both ends of the bisection, kept by rounding to nearest.
* **C169** Random inputs with draws of zero, with doubles (proved). Induction over the levels: the then branch is taken with an empty then child only for the draw 0, because rounding to nearest keeps positive quotients positive; the else branch is never empty. The endless search is a fixed point of the loop state for constant draws 0, by induction on the number of rounds.
* **C170** Rounds of the randomized search with doubles (proved). The lemmas about the loop behind C149 hold for every sampler that is total (and sound); instantiated with the rounded sampler of C134.
* **C171** The child that round_down and round_up replace, with doubles and any number of variables (proved). Induction over the traversal with an invariant 'near' (infinite, or within k roundings) for the IEEE operations; the operators rewritten as a rebuild for an arbitrary comparison of the children
* **C172** The child that the four density operators replace, with doubles and any number of variables (proved). Invariant 'close' (relative factor and absolute distance) for the IEEE additions, halvings and complements; the operators rewritten as a rebuild for an arbitrary comparison of the children
* **C173** The output of the programs testing and improved_sampling (proved). Texts with pointers compared by reflection (concatenations flattened to characters and pointers); the rows from the exact value of plain sampling (C45), the range of efficient sampling (C45) and the facts about printed numbers (C164)
* **C174** The value of wcre_search is determined by the smallest and the largest relative error (proved). Induction over the halvings with the invariant that last_greater is exactly the set of inputs above the lower end; a separate inductive description of the search on numbers only.
* **C175** Range of doubles in error_rate and average_bit_flip_error (proved). the counts are multiples of a power of two below 2^1024, so every operation is in the normal range and the results are those of `Rounded.v` (C91); the sum of the counts of the constant 1 is followed exactly until it overflows
* **C176** Sizes of the approximate adders (proved). The diagrams of a cut adder are written down explicitly and identified with the outputs by canonicity; their nodes are listed and shown to be distinct by the variable at the top and the last variable on the path of then edges.
* **C177** In other variable orders the factor is three, except for round (proved). A variable with a large index is placed second in the order: below it a parity chain is returned unchanged since its index is past level_end, while a copy of the chain reached around it is cut and needs two nodes per level. The nodes of both are distinct. For round every node of the result is the result for a node and a complement. For round_down and round_up the weights of the nodes above the cut raise two to a difference of levels which wraps in this order; the model keeps the value exact. Only the weights of the last node of the chain are compared, and they are small.
* **C178** Longer sub adders: squared and relative errors (proved). a lost carry that travels one position further pairs with lost carries of the shorter adder with sums at most twice as large; squares by the closed form of C123.
* **C179** More lookback never makes an approximate adder worse (proved). every carry the adder with more lookback forgets is forgotten at some restart of the other; the k-th lost carry from the top of a restart moves down, which lowers its weight (C178); closed forms of C94 to C96 and C123.
* **C180** How often random_satisfying_input returns a wrong input (proved). C20_wrong_exactly_on_zero_draws reduces the claim to zero draws at negative literals; the probability that these draws are all positive is computed by induction over the draws.
* **C181** How large the error rate of the approximate adders is (proved). Induction over the positions with the recursion of C96 for the number of exact pairs; geometric sums.
* **C182** The vector operations obey the laws of arithmetic as identical diagrams (proved). canonicity: vectors of equal length that encode the same number at every input are equal
* **C183** Exchanging the arguments of a metric gives the identical result (proved). canonicity of the difference and of the exclusive or; symmetry of the loops
* **C184** The two's complement errors are still a metric (proved). the value computed at an input is the distance on a circle of 2^w points; canonicity for equality
* **C185** Complementing or reordering the outputs of both functions (proved). canonicity of the exclusive or, of the miter and of the difference
* **C186** Signed errors without overflow (proved). the unsigned number with complemented sign bit is the signed number plus 2^(w-1)
* **C187** Metrics of functions built from a low and a high part (proved). pointwise bounds at every input and the value theorems of the metrics
* **C188** Exactly when the ADD variants of the metrics fail (proved). the histogram of an ADD with any number of levels (C129) gives the values that are reached; a fold over these values is defined exactly if the conversion is defined for each
* **C189** round_bdd and round_best on doubles are optimal up to the rounding (refuted in part). the rounded recursion is the exact one with other weights; weights off by e cost at most 2e at each replaced node (`NearFacts.v`), densities as in C172
* **C190** Child replacement on doubles keeps half per level up to the rounding (refuted in part). Each density computed on doubles is within a bound of the exact one; induction over the nodes carries the comparison error of at most one bound per replaced level; the counterexample is computed.
* **C191** Child replacement loses exactly half of parity per level (proved). Induction over the levels: both children of a node of parity are true on half of the inputs, so the result does not depend on which of them the counts select.
* **C192** Child replacement changes the average value by a bounded share (proved). The average value is the sum of the weighted densities; each density keeps its share by C48, the differences have one sign since the operators are one-sided, and C191 gives the case of equality.
* **C193** round on every output minimises the flipped bits only (refuted in part). The flipped bits add up over the outputs, and C49 makes each summand smallest; the counterexample for the other metrics is computed. True for the average bit flip error (C193_fewest_flips). False for the error rate, the average-case error and the worst-case error: for the values 3, 2, 1 on 2, 3, 3 of eight inputs, round at level 0 gives the constant 3, while the constant 2 is better in all three.
* **C194** round_best on every output flips at most twice the fewest bits (proved). The flipped bits add up over the outputs, and C50 bounds each summand; copies of the exclusive or attain the factor.
* **C195** round on every output is near the best error rate and average-case error (proved). Both errors lie between a weighted sum of the flipped bits, which round minimises, and that sum divided by the factor.
