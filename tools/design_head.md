# Formal model of keszocze/abo in Rocq (Coq 8.16.1)

Build: `cd rocq && coq_makefile -f _CoqProject -o Makefile && make -j4`.
`properties.jsonl` has the claims, `MANIFEST.json` maps them to theorems (regenerate it with `python3 tools/manifest.py`),
`seeded/LOG.jsonl` lists the wrong programs the theorems were tested against: `failing_proofs` are the proofs that no longer
check with the edit, `theorems_failed` the property theorems that depend on them.

## 1 Layers

| layer | files (rocq/theories) | content |
|---|---|---|
| outcomes | `Res` | `Ok`, `UB` (undefined behaviour), `Throw` (C++ exception), `Abort` (failed `assert`) |
| CUDD | `Cudd` | BDDs with complement edges in normal form, `ite`, cofactor, support, minterm count, ADDs |
| model | `Helpers`, `Counting`, `Metrics`, `RelMetrics`, `Operators`, `Examples`, `FromPapers`, `Minimize`, `Parsing`, `Benchmark`, `Genetic`, `DumpDot`, `DotText`, `Float`, `Rounded`, `RoundedAdd`, `RoundedMinimize`, `RoundedRel`, `Experiments`, `MinimizeMains`, `Printing`, `MainText`, `RefCount`, `OutOfMemory`, `Reordering`, `Ieee`, `Ieee2`, `Ieee3` | /repo function by function, every definition cites file and lines |
| spec | `Spec`, `SpecMinimize`, `SpecParsing`, `SpecBenchmark`, `SpecGenetic`, `SpecDot`, `SpecDotText`, `SpecFloat`, `SpecAdder`, `SpecOperators`, `SpecExperiments`, `SpecSampling`, `SpecMains`, `SpecPaths`, `SpecRefs`, `SpecSearch`, `SpecBounds`, `SpecWide`, `SpecNan`, `SpecReading`, `SpecProduct`, `SpecOrder`, `SpecEfficient`, `SpecPrinting`, `SpecTables`, `SpecRoundedMinimize`, `SpecOutcomes`, `SpecExact`, `SpecPartial`, `SpecLimited`, `SpecPrograms`, `SpecBisect`, `SpecAdderSize`, `SpecIeee`, `SpecLookback`, `SpecLaws` | what the statements mean; built from evaluation of a BDD at an input (`ev`), integers and rationals, not from the functions under test |
| proofs | `*Facts*`, `AdderSize*`, `IeeeStd*`, `ParsingCases`, `MainsCases` | lemmas |
| tests | `RepoTests` | the assertions of /repo/tests, evaluated on the model |
| claims | `Prop*` | the property theorems, each closed by `exact lemma` and followed by `Print Assumptions` and an `Example` |

Model files contain no proofs, claim files contain nothing but claims and their examples.

## 2 Trusted base

* Coq's kernel (8.16.1), including `vm_compute` which is used in examples and refutations.
* Axioms: none. `Print Assumptions` says "Closed under the global context" for every theorem in `Prop*.v`.
  `coqchk -o` over the whole library lists seven axioms of `Coq.ssr.ssrunder`, loaded with the standard library and not
  used by any theorem.
* The reading of the C++ code, that is the definitions of the model layer and of `Cudd.v`.
* The spec layer and the statements in `Prop*.v`.

## 3 Model of CUDD (external code, modelled and not verified)

* A BDD is an edge `(complement flag, regular node)`. A regular node is `One` or `Nd v then c else`; the then edge is
  never complemented. Equality of `DdNode*` is structural equality, as the unique table guarantees.
* The manager `M` has an arbitrary injective order of the variables (`lv`). Theorems hold for every order, thus also
  after reordering, unless they assume `index_order M` (level = index).
* `bnot band bor bxor ite cofactor`, evaluation, support, `CountMinterm`, `nodeCount`, `Leq`, ADD `apply` are computable functions.
  `CuddFacts.v` proves their semantics and that equal functions are equal BDDs (`canonical`).
* `wf M f`: `f` is reduced and ordered for `M`. All model functions keep it.
* ADDs are trees with rational leaves. CUDD merges leaves closer than 1e-12 that share a hash chain; this is modelled for the quotients of the relative errors only (`unique_const`, C120), where leaves are not integers.
* Reference counts and garbage collection are modelled for the approximation operators (`RefCount`, C139, C140): a node may be used as long as it is reachable from an external reference. Elsewhere BDD objects hold the references.
* Failing node allocations (`OutOfMemory`, C141) and reordering during a call (`Reordering`, C142) are modelled for the approximation operators: any call of `Cudd_bddIte` may return null, or leave the manager with another order. `reorder k` is the order after call number k; a node read later is the node of the same function in the present order.
* Not modelled: reordering and failing allocations in other functions, saturation of the counters, the computed table, `CountMinterm` above
  1023 variables (overflow of `double`; an arbitrary function in C144 and C160; excluded by m * 2^n <= 2^53 in C161). `ReadSize() == 0` is covered for `error_rate_efficient_sampling`, the only function that computes `ReadSize() - 1` (`Ieee2`, C160).

## 4 Numbers

* `size_t`, `unsigned`, `int`, `uint256_t` are integers with an explicit wrap or an explicit undefined outcome where the code can
  reach the limit; loop counters over vectors are `nat` (vectors are shorter than 2^31).
* `double`, `float`, `cpp_dec_float_100` are exact rationals. Rounding is modelled in six places: the counts, error rates and operators of `Rounded.v` (C91, C92 relate them to the exact model), the ADDs and the metrics computed with them in `RoundedAdd.v` (C112; with CUDD's merging of leaves C120), the average metrics and the bucket minimisation in `RoundedMinimize.v` (C124, C125, C166; the operators there are those of `Rounded.v`, C126), the relative error metrics and the sampling in `RoundedRel.v` (C132-C136, C168; `cpp_dec_float_100` is a rounding with relative error u), `pow(2,n) - 1`
  (`pow_minus_one`) and the `float` limits of the genetic minimisation (`to_float`, round to nearest even with 24 bits, unbounded exponent). Infinities and NaN are `NonFin`. Subnormal numbers, overflow and NaN of `double` are modelled in `Ieee.v` for the counts of cudd_helpers.cpp, `random_satisfying_input`, `error_rate` and the operators: up to 1022 variables the results are those of `Rounded.v` (C143), beyond they are not (C144). The operations of `Ieee.v` are proved equal to those of the standard library's `Floats/SpecFloat.v` on all doubles, except for the sign of zero (`C143_standard_*`; `SpecIeee.v` gives the values), so that IEEE 754 is not part of the trusted base beyond that specification. `Ieee2.v` does the same for `error_rate_efficient_sampling` (C160, C161), `Ieee3.v` for `average_bit_flip_error` (C175). In the other functions, and for `float`, they are not modelled. In orders other than that of the indices `pow_levels` is a power with a huge exponent in `Counting.v`, and infinity in `Ieee.v`.
* `ceil(log2(x))` in the multiplications is any function with `z < 2^(clog2 z + 2)`.
* `rand()` is an arbitrary sequence; where the claim needs it, its values lie in `[0, RAND_MAX]` or `(0, RAND_MAX]`. C107 to C110, C156 and C159 count over all sequences of draws, that is, they take the draws as independent and uniform on `[0, RAND_MAX]` with `RAND_MAX` odd.
* Loops without a static bound take `fuel`. `None` means "still running"; termination is a theorem.

## 5 What is modelled

| code | model | lines |
|---|---|---|
| src/util/cudd_helpers.cpp | `Helpers`, `Counting` | all |
| src/util/function.cpp, string_helpers.* | `Parsing`, `Benchmark` | all |
| src/util/dump_dot.cpp | `DumpDot`, `DotText` | all but the overloads that open a file; `DumpDot` has the statements without presentation attributes, `DotText` the text to the character (numbers of the configuration as printed). `SpecDotText` reads it: Graphviz's language without subgraph names, undirected edges and concatenated strings; keywords are not rejected as attribute values |
| src/error_metrics/*.cpp | `Metrics`, `RelMetrics` | all |
| src/approximation_operators/*.cpp | `Operators` | all |
| src/example_bdds/*.cpp | `Examples`, `FromPapers` | all |
| src/minimization/*.cpp | `Minimize`, `Benchmark` | all but time measurement |
| src/parsing/*.cpp | `Parsing` | all; lorina is the source of the event list |
| experiments/util/benchmark_util.cpp | `Benchmark` | all; file reading as in `Parsing` |
| experiments/minimization/nsga2/bddminimizationproblem.cpp, nsga2_minimization_helper.cpp | `Genetic` | all but time measurement; pagmo is an arbitrary function on populations |
| experiments/runtime/{operators,iscas85,average_case_error,ace_steps,approximate_adder_error_metrics,acr_approx,sampling_methods}.cpp, experiments/misc/{er_ace_adder_comparison,improved_sampling}.cpp, experiments/testing.cpp | `Experiments` | the computations; not the repetition, time measurement and printing (printing of er_ace_adder_comparison.cpp: `MainText`; output of testing.cpp and improved_sampling.cpp: `ProgramText`, to the character, the level arguments 52 and 10000000 as parameters) |

| experiments/minimization/bucket/*.cpp, experiments/minimization/nsga2/nsga2_minimize_*.cpp | `MinimizeMains`, `MainText` | all; `MinimizeMains` has the numbers printed and how the program ends, `MainText` the text to the character. The times are arbitrary results of `format_time`; the rates are the exact rationals, and `cpp_dec_float` is assumed to print as a double does |
| operator<< for double (C++ library) | `Printing` | finite numbers in the default format, i.e. %g with six digits, exact value rounded to nearest, ties to even (glibc); not negative zero, infinities and NaN |

Not modelled: the printing in the other `main` functions, lorina, pagmo, google benchmark, CMake files. The assertions of /repo/tests are evaluated on the model in
`RepoTests.v`; all of them hold (these are tests of the model, not proofs).

Further simplifications, also noted in the files:

* Operators and metrics given to the greedy minimisation are arbitrary functions without state.
* `std::accumulate(..., 0.)` of bucket coordinates is exact in `Minimize.v`; `RoundedMinimize.v` rounds it.
* A file is the list of reader callbacks; `bddVar(int(index))` for an index of 2^31 or more is not modelled; the names of the manager
  are empty at first. `load_file` sees the callbacks only for files lorina accepts.
* `new` returns the next free address.
* Adder parameters are below 2^30.
* A non-finite average case error inside `fitness` is reported as `UB` (it cannot occur for well-formed functions).
* Comparisons of `size_t` with `double` are exact.

## 6 Disagreements between code and expectation

Each is a theorem `..._refuted` with a concrete witness, or part of the theorem of the property named.

| property | finding |
|---|---|
| C05, C30 | `bdd_absolute_difference` in two's complement subtracts without an extra bit: 1 - (-2) on two bits gives 1 |
| C15 | `low` complements twice wrongly: `low(x0 xor x1)` is wrong |
| C20 | `random_satisfying_input` can return an input outside the function when `rand()` returns 0 |
| C33 | `approximate_worst_case_error` exceeds its documented bound |
| C34 | in two's complement it ignores a difference in the sign bit alone |
| C36, C38 | `mean_squared_value` truncates the counts of conjunctions: `{x0,x1}` gives 2.5 instead of 3.5 |
| C43 | `wcre_search` stops at a wrong "exact" hit; undefined for errors strictly between 0 and 1 |
| C45 | `error_rate_efficient_sampling` converts 0/0 to an integer when no sample is drawn |
| C50 | `round_best` replaces both children on a tie |
| C51 | `round_down`, `round_up` compare solution counts over different numbers of variables; `round_up` fills the lighter child |
| C59 | off-by-one assertions in `on_input_name`, `on_output_name`, `on_and`; the header size wraps for m = 2^63-1 |
| C65 | `compute_error_metric` swaps the arguments of the two average relative metrics (benchmark_util.cpp 77, 79) |
| C66 | ACA2 with partition size 1 and GDA with more partitions than bits divide by zero; GeAr can read out of bounds |
| C67 | ACA1 with a full partition loses the carry out generated at bit 0 |
| C69 | the helper can exceed the MEAN_SQUARED bound (C36) |
| C70 | random operators act on all outputs, not on one as documented |
| C71 | the buckets are not a Pareto front |
| C119 | SINGLE_BDD never changes a function in which every output occurs twice: one step changes only one of the copies and the number of nodes does not drop |
| C74 | a second `.ilb` line registers the earlier names again |
| C82 | functions of the same size as the original are penalised although the comment says "greater" |
| C83 | a constant function leads to a modulo by 0 in `make_population` |
| C84 | limits rounded to `float`: an error between the rounded and the given limit reports the penalised size |
| C64 | equal user-given function names are merged by dot; the invisible chain follows variable indices, not levels |
| C113 | names are written without escaping: a quote in a function name makes the text unreadable, unbalanced `<` `>` in a name ends the label early; `edge [dir = non]` is not a value of `dir` (should be `none`) and is only harmless because solid edges also set `arrowhead = none` |
| C97 | ACA1 with longer sub adders can be worse on single inputs: 7 + 1 is 6 with sub adders of 1 bit, 4 with 2 bits |
| C99 | an operator can increase the size: nodes shared with and without complement are split |
| C100 | `superset_light_child`, `subset_heavy_child`, `round_up` are not idempotent |
| C101 | ties are resolved differently for a function and its complement |
| C105 | the carry out of ACA1 is computed from a window like every other carry, that of GeAr continues the chain of the last sub adder |
| C106 | ACA2 uses blocks of N/(N/Q + 1) instead of Q/2 bits (also in the 16 bit configurations of the experiments); GDA restarts at multiples of the block length whatever the lookback |
| C112 | beyond 53 outputs the ADD variants are wrong in doubles: 54 wrong outputs give 2^54 - 1, rounded to 2^54, that is, one flipped bit |
| C115 | the genetic programs print 18446744073709551615 nodes and error 0 if no acceptable function was found; a missing file gives an empty function and ends the program with an exception of pagmo (nsga2_minimize_iscas.cpp 22-27 ignores the return code of lorina) |
| C116 | `load_epfl_benchmark_file` ignores the return code: a missing file is the empty vector, a file cut off after the header gives constant functions |
| C117 | `sift = true` has no effect for the adders, they are built without reordering |
| C153 | the 256-bit sums of `average_value` and `mean_squared_value` wrap around for functions with many outputs and variables: the average case error of the example of C153 is 2^56 instead of 2^60; an output that depends on 256 or more variables makes both divide by zero (possible for `hyp` and `max` among the circuits of the experiments) |
| C125 | with doubles a bucket may hold a function whose error equals or (by one rounding) exceeds the bound, if the grid size is no power of two: bound 1/3, grid 7, worst case error of one third |
| C133 | with doubles the bisection of `wcre_search` loops forever for constant functions with 41 outputs and the default parameters: the middle of two neighbouring doubles is one of them, and they are further apart than the precision |
| C136 | with doubles efficient sampling fails for functions on which it succeeds with exact numbers: 55 variables, one output wrong everywhere, one wrong on a single input; the sum of the rates rounds to 1, the quotient divides by 0 |
| C129, C131 | `count_paths` shifts by the number of levels an edge passes over, undefined from 64 on, and counts modulo 2^64; with 64 or more levels the 64-bit total is 0, so `error_rate_add` and `average_bit_flip_error_add` divide by 0; with 65 `average_case_error_add` can give a wrong number |
| C140 | every operator keeps one reference to each intermediate result (lines 189, 245, 364, "is this necessary?"): their nodes are never collected |
| C141 | the operators do not check the result of `Cudd_bddIte`: without memory they reference a null pointer or return a BDD without a node |
| C142 | dynamic reordering in an operator invalidates the children read before the first recursive call and the entries of the map of node counts: dangling node, exception or another result. The programs disable reordering before they approximate ("it can cause problems", nsga2_minimize_epfl.cpp 27) |
| C144 | with 1076 or more variables densities underflow: `subset_light_child` turns the conjunction of all variables into the constant 0 and `random_satisfying_input` returns inputs outside the function, for all draws (C20 and C134 hold up to 1022 variables); `round_down` compares infinities from about 1030 levels on; `error_rate` is 0 or NaN for functions with a variable of index 1024 or more (EPFL's mem_ctrl has 1204 inputs) |
| C145 | in other variable orders the level difference in `count_solutions` wraps around: the count is infinite and `round_down` of the majority of three keeps the lighter child |
| C155 | with more than 1024 levels `count_solutions` multiplies 0 by infinity; the count of such a node and of all nodes above it is NaN, and `round_down` and `round_up` replace the then child whatever it is (`round_down` gives 0 for the conjunction of 1026 or more variables) |
| C159 | `random_satisfying_input` compares the index of a node with a counter documented as a level: when the variables come in the opposite order, the conjunction of n variables gets n - 1 coin flips and the result satisfies it with probability 1/2^(n-1) |
| C160 | `error_rate_efficient_sampling` divides by 2^(ReadSize() - 1), which is infinite without variables (the unsigned subtraction wraps around) and with more than 1024: it converts NaN to `long` unless there is exactly one output, for which it returns 0 or 1; the constants 1 and 0 get the rate 0 |
| C162 | `almost_correct_adder_1` is not exact for any partition size, not even one partition of all bits; `almost_correct_adder_2` with one partition of all bits is exact only for an even number of bits (or one bit) |
| C17 | `eval_adder` with 32 bits reads bit 31 with the mask `1 << 31`, a negative int: the bit is one exactly from 2^31 on, so it is wrong for negative operands and for operands from 2^32 on whose bit 31 is zero |
| C189, C190 | densities that differ only beyond the 53rd bit count as equal: `round` and `subset_light_child` can then pick the worse constant or child; the loss is at most n * 2^-49 |
| C193 | `round` on every output minimises the flipped bits only; another vector below the level can have a smaller error rate, average-case and worst-case error |
| C75 | unknown file and metric numbers are reported with `throw new std::logic_error` (benchmark_util.cpp 83, 95, 133, 172, 188): a pointer is thrown, which `catch (const std::exception&)` does not catch; the model only says `Throw` |
| C92 | beyond 53 variables rounding can change which child an operator replaces |
| C48, C49, C51 | operators compare the variable index with levels: after reordering the recursion stops at the first index past the range |

## 7 Properties

Format: what is modelled and compared; proof method. Status "refuted in part" means: the property as stated is false of the code
(witness given), the `_partial` theorem states what does hold for all inputs.

