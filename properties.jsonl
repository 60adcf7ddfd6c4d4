{"id": "C01", "title": "Bitwise addition of function vectors is addition modulo 2^width", "statement": "For every input assignment the unsigned value of bdd_add(mgr,f,g) is (value f + value of the low |f| bits of g) mod 2^|f|; the result has |f| bits; if g has fewer bits than f the call is undefined behaviour (out-of-bounds vector read).", "quantifier": "all BDD vectors f, g of any width, all assignments, all variable orders", "why_tests_cant": "A test evaluates a handful of bit vectors; the claim ranges over every width and every Boolean function in every bit, i.e. unboundedly many functions of unboundedly many inputs.", "anchors": ["src/util/cudd_helpers.cpp:bdd_add", "src/util/cudd_helpers.cpp:full_adder"]}
{"id": "C02", "title": "Bitwise subtraction of function vectors is subtraction modulo 2^width", "statement": "For every assignment, bdd_subtract(mgr,m,s) has |m| bits and its value is (value m - value of the low |m| bits of s) mod 2^|m|; it is undefined behaviour exactly when s has fewer bits than m.", "quantifier": "all BDD vectors of any width, all assignments, all variable orders", "why_tests_cant": "A test evaluates a handful of bit vectors; the claim ranges over every width and every Boolean function in every bit, i.e. unboundedly many functions of unboundedly many inputs.", "anchors": ["src/util/cudd_helpers.cpp:bdd_subtract"]}
{"id": "C03", "title": "bdd_abs computes the absolute value in both representations", "statement": "For a non-empty two's complement vector f, the unsigned value of bdd_abs(f) equals |signed value of f| for every assignment, including the most negative number; for unsigned vectors it is the identity; on an empty two's complement vector it is undefined.", "quantifier": "all non-empty BDD vectors of any width, all assignments", "why_tests_cant": "A test evaluates a handful of bit vectors; the claim ranges over every width and every Boolean function in every bit, i.e. unboundedly many functions of unboundedly many inputs. The most negative value is the boundary case.", "anchors": ["src/util/cudd_helpers.cpp:bdd_abs"]}
{"id": "C04", "title": "Absolute difference of unsigned functions", "statement": "For unsigned functions f and g of any (possibly different) widths, bdd_absolute_difference never fails and its unsigned value is |f(x)-g(x)| for every x; argument order does not matter for the value.", "quantifier": "all BDD vectors f, g of any widths, all assignments", "why_tests_cant": "A test evaluates a handful of bit vectors; the claim ranges over every width and every Boolean function in every bit, i.e. unboundedly many functions of unboundedly many inputs.", "anchors": ["src/util/cudd_helpers.cpp:bdd_absolute_difference"]}
{"id": "C05", "title": "Absolute difference of two's complement functions", "statement": "For non-empty two's complement functions f and g, bdd_absolute_difference returns a vector whose unsigned value is |f(x)-g(x)| for every x.", "quantifier": "all non-empty BDD vectors f, g, all assignments", "why_tests_cant": "The repository only tests small constants whose difference does not overflow; overflow needs specific extreme values at the same input.", "anchors": ["src/util/cudd_helpers.cpp:bdd_absolute_difference"]}
{"id": "C06", "title": "Shifting a function vector", "statement": "bdd_shift by k>=0 multiplies by 2^k modulo 2^width, by k<0 divides by 2^-k rounding down; the width is preserved.", "quantifier": "all BDD vectors, all integer shift amounts including amounts beyond the width, all assignments", "why_tests_cant": "A test evaluates a handful of bit vectors; the claim ranges over every width and every Boolean function in every bit, i.e. unboundedly many functions of unboundedly many inputs.", "anchors": ["src/util/cudd_helpers.cpp:bdd_shift"]}
{"id": "C07", "title": "Multiplication by an integer constant is exact", "statement": "bdd_multiply_constant(mgr,f,uint256 c) has value c*f(x) for every x with no overflow.", "quantifier": "all BDD vectors, all 256-bit constants, all assignments", "why_tests_cant": "A test evaluates a handful of bit vectors; the claim ranges over every width and every Boolean function in every bit, i.e. unboundedly many functions of unboundedly many inputs.", "anchors": ["src/util/cudd_helpers.cpp:bdd_multiply_constant"]}
{"id": "C08", "title": "Multiplication by a real constant truncates from below with a known error", "statement": "bdd_multiply_constant(mgr,f,double c,e), for c > 1/2, never exceeds c*f(x), is exact if c is an integer or if f is a multiple of 2^e and c*2^e is an integer, and is otherwise below c*f(x) by at most e + f(x)/2^e; for c <= 1/2 the call is undefined behaviour (negative double to size_t).", "quantifier": "all BDD vectors, all constants below 2^256 (doubles as the rationals they represent), all numbers of extra bits < 64, all assignments", "why_tests_cant": "A test evaluates a handful of bit vectors; the claim ranges over every width and every Boolean function in every bit, i.e. unboundedly many functions of unboundedly many inputs.", "anchors": ["src/util/cudd_helpers.cpp:bdd_multiply_constant"]}
{"id": "C09", "title": "Symbolic comparison of functions", "statement": "greater_equals (greater_than) returns the BDD that is true exactly on the x with f(x)>=g(x) (f(x)>g(x)), for vectors of different widths too.", "quantifier": "all pairs of BDD vectors of any widths, all assignments", "why_tests_cant": "A test evaluates a handful of bit vectors; the claim ranges over every width and every Boolean function in every bit, i.e. unboundedly many functions of unboundedly many inputs.", "anchors": ["src/util/cudd_helpers.cpp:greater_equals", "src/util/cudd_helpers.cpp:greater_than"]}
{"id": "C10", "title": "exists_greater_equals classifies the pair of functions", "statement": "It returns {true,false} iff f1(x)>f2(x) for some x, {true,true} iff f1<=f2 everywhere with equality somewhere, {false,false} iff f1(x)<f2(x) for all x.", "quantifier": "all pairs of BDD vectors of any widths; the result quantifies over all assignments", "why_tests_cant": "Deciding the property by tests would need to enumerate all assignments of all functions.", "anchors": ["src/util/cudd_helpers.cpp:exists_greater_equals"]}
{"id": "C11", "title": "bdd_max_one is max(1, f)", "statement": "For a non-empty vector the value of bdd_max_one(f) is max(1,f(x)) for every x; the width is preserved; the empty vector is undefined behaviour.", "quantifier": "all non-empty BDD vectors, all assignments", "why_tests_cant": "A test evaluates a handful of bit vectors; the claim ranges over every width and every Boolean function in every bit, i.e. unboundedly many functions of unboundedly many inputs.", "anchors": ["src/util/cudd_helpers.cpp:bdd_max_one"]}
{"id": "C12", "title": "Symbolic division", "statement": "bdd_divide(mgr,f,g,e) has |f|+e+2 bits and value floor(f(x)*2^e/g(x)) for every x with g(x)>0 (and all ones where g(x)=0).", "quantifier": "all pairs of BDD vectors of any widths, all numbers of fractional bits, all assignments", "why_tests_cant": "A test evaluates a handful of bit vectors; the claim ranges over every width and every Boolean function in every bit, i.e. unboundedly many functions of unboundedly many inputs.", "anchors": ["src/util/cudd_helpers.cpp:bdd_divide"]}
{"id": "C13", "title": "Number to constant function", "statement": "number_to_bdds(mgr,n) is a constant vector of value n of minimal length (at least 1).", "quantifier": "all 256-bit numbers, all assignments", "why_tests_cant": "2^256 inputs.", "anchors": ["src/util/cudd_helpers.cpp:number_to_bdds"]}
{"id": "C14", "title": "high is the positive cofactor of the top variable", "statement": "high(f) is the BDD of f with its top variable set to 1, for every non-constant f; it throws std::invalid_argument for constants.", "quantifier": "all BDDs, all variable orders", "why_tests_cant": "Complement edges depend on the shape of the whole function; tests cover two shapes.", "anchors": ["src/util/cudd_helpers.cpp:high"]}
{"id": "C15", "title": "low is the negative cofactor of the top variable", "statement": "low(f) is the BDD of f with its top variable set to 0, for every non-constant f; it throws std::invalid_argument for constants.", "quantifier": "all BDDs, all variable orders", "why_tests_cant": "Complement edges depend on the shape of the whole function; the existing unit test asserts the value the code happens to return.", "anchors": ["src/util/cudd_helpers.cpp:low", "tests/operations_test.cpp"]}
{"id": "C16", "title": "eval reads the number encoded by the outputs", "statement": "eval(f,inputs) returns the unsigned value of f at inputs whenever f has fewer than 64 bits and inputs covers all support variables (with 64 bits, the value reinterpreted as signed); a true output at position 64 or above is undefined behaviour.", "quantifier": "all BDD vectors of up to 64 bits, all input vectors", "why_tests_cant": "A test evaluates a handful of bit vectors; the claim ranges over every width and every Boolean function in every bit, i.e. unboundedly many functions of unboundedly many inputs.", "anchors": ["src/util/cudd_helpers.cpp:eval"]}
{"id": "C17", "title": "eval_adder feeds interleaved operands", "statement": "eval_adder(f,a,b,bits) equals the unsigned value of f at the assignment with variable 2i = bit i of a and 2i+1 = bit i of b, for bits<=31 (and for bits=32 if the operands are in [0,2^32)); for bits=32 and other operands bit 31 is read as one exactly if the operand is at least 2^31; for bits>32 it is undefined behaviour (int shift).", "quantifier": "all function vectors, operands and bit widths", "why_tests_cant": "Wide operands are not reached by the tests.", "anchors": ["src/util/cudd_helpers.cpp:eval_adder"]}
{"id": "C18", "title": "count_minterms maps every reachable node to its density", "statement": "The returned map has exactly the BDD nodes (with complement flag) reachable from the root as keys and maps each to the fraction of satisfying assignments of its function.", "quantifier": "all BDDs of any size and order", "why_tests_cant": "The number of nodes and shapes is unbounded.", "anchors": ["src/util/cudd_helpers.cpp:count_minterms", "src/util/cudd_helpers.cpp:count_minterms_rec"]}
{"id": "C19", "title": "count_solutions maps every reachable node to its number of solutions below its own level", "statement": "The returned map assigns to each node reachable from the root the number of satisfying assignments of the variables from its own level up to the terminal level.", "quantifier": "all BDDs in index order and any terminal level above the support", "why_tests_cant": "Unbounded shapes.", "anchors": ["src/util/cudd_helpers.cpp:count_solutions", "src/util/cudd_helpers.cpp:count_solutions_rec"]}
{"id": "C20", "title": "random_satisfying_input always satisfies the function", "statement": "For every satisfiable BDD, its minterm-count map and any sequence of values returned by rand(), the returned input vector has max_level entries and makes the BDD true.", "quantifier": "all satisfiable BDDs, all sequences of rand() results", "why_tests_cant": "The result depends on the random sequence; the failing draw has probability about 2^-31.", "anchors": ["src/util/cudd_helpers.cpp:random_satisfying_input"]}
{"id": "C21", "title": "add_terminal_values is the value histogram of an ADD", "statement": "For an ADD over t variables (t<64, index order) the result lists every attained value exactly once together with the number of assignments of the t variables that attain it; the counts sum to 2^t (1 for a constant).", "quantifier": "all ADDs, any number of variables below 64", "why_tests_cant": "Unbounded shapes; skipped levels multiply counts.", "anchors": ["src/util/cudd_helpers.cpp:add_terminal_values", "src/util/cudd_helpers.cpp:count_paths"]}
{"id": "C22", "title": "bdd_forest_to_add preserves the represented number", "statement": "For every x the ADD value is the unsigned (BaseTwo) or two's complement value of the vector; for an empty two's complement vector the call is undefined.", "quantifier": "all BDD vectors, both representations, all assignments", "why_tests_cant": "A test evaluates a handful of bit vectors; the claim ranges over every width and every Boolean function in every bit, i.e. unboundedly many functions of unboundedly many inputs.", "anchors": ["src/util/cudd_helpers.cpp:bdd_forest_to_add"]}
{"id": "C23", "title": "Difference ADDs", "statement": "absolute_difference_add evaluates to |f(x)-g(x)| in both representations (no overflow), and xor_difference_add to the unsigned number whose bits are f_i(x) xor g_i(x).", "quantifier": "all pairs of BDD vectors (equal widths for xor), all assignments", "why_tests_cant": "A test evaluates a handful of bit vectors; the claim ranges over every width and every Boolean function in every bit, i.e. unboundedly many functions of unboundedly many inputs.", "anchors": ["src/util/cudd_helpers.cpp:absolute_difference_add", "src/util/cudd_helpers.cpp:xor_difference_add"]}
{"id": "C24", "title": "error_rate is the fraction of inputs with a wrong output", "statement": "error_rate(mgr,f,g) is the number of inputs on which some output of f differs from g divided by the number of inputs, independent of which variables are in the support; it is 0 iff f and g are the same function.", "quantifier": "all pairs of BDD vectors, all numbers of inputs covering the support", "why_tests_cant": "A test evaluates a handful of bit vectors; the claim ranges over every width and every Boolean function in every bit, i.e. unboundedly many functions of unboundedly many inputs.", "anchors": ["src/error_metrics/error_rate.cpp:error_rate"]}
{"id": "C25", "title": "error_rate_add agrees with error_rate", "statement": "Both implementations return the same value for every pair of functions of at most 63 variables in index order.", "quantifier": "all pairs of BDD vectors of equal width", "why_tests_cant": "A test evaluates a handful of bit vectors; the claim ranges over every width and every Boolean function in every bit, i.e. unboundedly many functions of unboundedly many inputs.", "anchors": ["src/error_metrics/error_rate.cpp:error_rate_add"]}
{"id": "C26", "title": "average_bit_flip_error is the mean Hamming distance", "statement": "average_bit_flip_error and its _add variant equal the average over all inputs of the number of differing output bits.", "quantifier": "all pairs of BDD vectors of equal width; _add variant: index order, at most 63 variables and 64 outputs, width*2^n < 2^64", "why_tests_cant": "A test evaluates a handful of bit vectors; the claim ranges over every width and every Boolean function in every bit, i.e. unboundedly many functions of unboundedly many inputs.", "anchors": ["src/error_metrics/average_bit_flip_error.cpp"]}
{"id": "C27", "title": "worst_case_bit_flip_error is the maximal Hamming distance", "statement": "Both variants return the maximum over all inputs of the number of differing output bits.", "quantifier": "all pairs of BDD vectors of equal width below 2^32; popcount (_add) variant: index order, at most 63 variables and 64 outputs", "why_tests_cant": "A test evaluates a handful of bit vectors; the claim ranges over every width and every Boolean function in every bit, i.e. unboundedly many functions of unboundedly many inputs.", "anchors": ["src/error_metrics/worst_case_bit_flip_error.cpp"]}
{"id": "C28", "title": "get_max_value is the maximum of the function", "statement": "get_max_value(mgr,f) is attained by some input and no input exceeds it, for at most 256 bits.", "quantifier": "all BDD vectors of at most 256 bits, all inputs", "why_tests_cant": "A test evaluates a handful of bit vectors; the claim ranges over every width and every Boolean function in every bit, i.e. unboundedly many functions of unboundedly many inputs.", "anchors": ["src/error_metrics/worst_case_error.cpp:get_max_value"]}
{"id": "C29", "title": "worst_case_error is the maximal arithmetic error (unsigned)", "statement": "worst_case_error(mgr,f,g,BaseTwo) is max_x |f(x)-g(x)|; it is 0 iff the values agree everywhere, is symmetric, and satisfies the triangle inequality; worst_case_error_add returns the same number.", "quantifier": "all pairs of BDD vectors of at most 256 bits; _add variant: index order, at most 63 variables", "why_tests_cant": "A test evaluates a handful of bit vectors; the claim ranges over every width and every Boolean function in every bit, i.e. unboundedly many functions of unboundedly many inputs.", "anchors": ["src/error_metrics/worst_case_error.cpp:worst_case_error", "src/error_metrics/worst_case_error.cpp:worst_case_error_add"]}
{"id": "C30", "title": "worst_case_error is the maximal arithmetic error (two's complement)", "statement": "worst_case_error(mgr,f,g,TwosComplement) is max_x |f(x)-g(x)| of the signed values and agrees with worst_case_error_add.", "quantifier": "all pairs of non-empty BDD vectors", "why_tests_cant": "Overflow needs extreme operands at the same input.", "anchors": ["src/error_metrics/worst_case_error.cpp:worst_case_error"]}
{"id": "C31", "title": "worst_case_error_percent lies in [0,1]", "statement": "For functions of equal width n the normalised worst-case error is between 0 and 1; it equals worst_case_error/(2^n-1) up to 53 bits and worst_case_error/2^n above, where the double 2^n-1 rounds to 2^n.", "quantifier": "all pairs of BDD vectors of equal positive width below 256 bits", "why_tests_cant": "A test evaluates a handful of bit vectors; the claim ranges over every width and every Boolean function in every bit, i.e. unboundedly many functions of unboundedly many inputs.", "anchors": ["src/error_metrics/worst_case_error.cpp:worst_case_error_percent"]}
{"id": "C32", "title": "approximate_worst_case_error never underestimates (unsigned)", "statement": "For BaseTwo and any n>=1, the returned value is at least the true worst-case error and exceeds it by at most 2^(s+1)-2 where s is the number of dropped low bits; it is exact if nothing is dropped.", "quantifier": "all pairs of BDD vectors of equal width, all n", "why_tests_cant": "A test evaluates a handful of bit vectors; the claim ranges over every width and every Boolean function in every bit, i.e. unboundedly many functions of unboundedly many inputs.", "anchors": ["src/error_metrics/worst_case_error.cpp:approximate_worst_case_error"]}
{"id": "C33", "title": "approximate_worst_case_error obeys its documented relative bound", "statement": "The returned value x satisfies x <= wc*(1+1/(2^(n+1)-1)) as documented.", "quantifier": "all pairs of BDD vectors of equal width, all n", "why_tests_cant": "Only special values violate it.", "anchors": ["src/error_metrics/worst_case_error.cpp:approximate_worst_case_error", "src/error_metrics/worst_case_error.hpp"]}
{"id": "C34", "title": "approximate_worst_case_error never underestimates (two's complement)", "statement": "For TwosComplement the returned value is at least the true worst-case error.", "quantifier": "all pairs of BDD vectors of equal width, all n", "why_tests_cant": "Fails only for functions that differ in the sign bit.", "anchors": ["src/error_metrics/worst_case_error.cpp:approximate_worst_case_error"]}
{"id": "C35", "title": "average_value is the mean of the function", "statement": "average_value(f) equals the average over all inputs of the unsigned value of f as long as width plus support stays within 256 bits.", "quantifier": "all BDD vectors, all numbers of inputs covering the support", "why_tests_cant": "A test evaluates a handful of bit vectors; the claim ranges over every width and every Boolean function in every bit, i.e. unboundedly many functions of unboundedly many inputs.", "anchors": ["src/error_metrics/average_case_error.cpp:average_value"]}
{"id": "C36", "title": "mean_squared_value is the mean of the squared function", "statement": "mean_squared_value(f) equals the average over all inputs of the square of the unsigned value of f.", "quantifier": "all BDD vectors", "why_tests_cant": "The truncation only shows up when the conjunction of two bits has larger support than every single bit.", "anchors": ["src/error_metrics/average_case_error.cpp:mean_squared_value"]}
{"id": "C37", "title": "average_case_error is the mean arithmetic error", "statement": "average_case_error (unsigned) and average_case_error_add equal the average over all inputs of |f(x)-g(x)|; 0 iff equal, symmetric, at most the worst-case error.", "quantifier": "all pairs of BDD vectors, width plus number of variables below 256; _add variant: index order, at most 63 variables", "why_tests_cant": "A test evaluates a handful of bit vectors; the claim ranges over every width and every Boolean function in every bit, i.e. unboundedly many functions of unboundedly many inputs.", "anchors": ["src/error_metrics/average_case_error.cpp:average_case_error", "src/error_metrics/average_case_error.cpp:average_case_error_add"]}
{"id": "C38", "title": "mean_squared_error is the mean squared error", "statement": "mean_squared_error and mean_squared_error_add equal the average over all inputs of (f(x)-g(x))^2.", "quantifier": "all pairs of BDD vectors with 2*width + 2 + number of variables <= 256; _add variant: index order, at most 63 variables", "why_tests_cant": "A test evaluates a handful of bit vectors; the claim ranges over every width and every Boolean function in every bit, i.e. unboundedly many functions of unboundedly many inputs.", "anchors": ["src/error_metrics/average_case_error.cpp:mean_squared_error", "src/error_metrics/average_case_error.cpp:mean_squared_error_add"]}
{"id": "C39", "title": "Exact relative error metrics via ADDs", "statement": "wcre_add is max_x |f(x)-g(x)|/max(1,|f(x)|) and acre_add is its average over all inputs.", "quantifier": "all pairs of BDD vectors in index order with fewer than 64 variables", "why_tests_cant": "A test evaluates a handful of bit vectors; the claim ranges over every width and every Boolean function in every bit, i.e. unboundedly many functions of unboundedly many inputs.", "anchors": ["src/error_metrics/worst_case_relative_error.cpp:wcre_add", "src/error_metrics/average_case_relative_error.cpp:acre_add"]}
{"id": "C40", "title": "wcre_bounds brackets the worst-case relative error within a factor of two", "statement": "wcre_bounds returns {min,max} with min <= wcre <= max and max <= 2*min (unsigned), for any widths.", "quantifier": "all pairs of BDD vectors of at most 256 bits, the original not empty", "why_tests_cant": "A test evaluates a handful of bit vectors; the claim ranges over every width and every Boolean function in every bit, i.e. unboundedly many functions of unboundedly many inputs.", "anchors": ["src/error_metrics/worst_case_relative_error.cpp:wcre_bounds", "src/error_metrics/worst_case_relative_error.cpp:maximum_relative_value_bounds"]}
{"id": "C41", "title": "acre_bounds brackets the average relative error within a factor of two", "statement": "acre_bounds returns {min,max} with min <= acre <= max and max <= 2*min (unsigned).", "quantifier": "all pairs of BDD vectors, width plus number of variables below 256, the original not empty", "why_tests_cant": "A test evaluates a handful of bit vectors; the claim ranges over every width and every Boolean function in every bit, i.e. unboundedly many functions of unboundedly many inputs.", "anchors": ["src/error_metrics/average_case_relative_error.cpp:acre_bounds", "src/error_metrics/average_case_relative_error.cpp:average_relative_value"]}
{"id": "C42", "title": "Symbolic-division relative errors are accurate to 2^-e from below", "statement": "wcre_symbolic_division and acre_symbolic_division return a value r with r <= true < r + 2^-e.", "quantifier": "all pairs of unsigned BDD vectors (the original not empty) and all e with width + e (average: plus variables plus 3) at most 256", "why_tests_cant": "A test evaluates a handful of bit vectors; the claim ranges over every width and every Boolean function in every bit, i.e. unboundedly many functions of unboundedly many inputs.", "anchors": ["src/error_metrics/worst_case_relative_error.cpp:wcre_symbolic_division", "src/error_metrics/average_case_relative_error.cpp:acre_symbolic_division"]}
{"id": "C43", "title": "wcre_search converges to the worst-case relative error", "statement": "wcre_search(mgr,f,g,e,precision) returns a value within precision of the true worst-case relative error.", "quantifier": "all pairs of BDD vectors; the partial theorem: width <= 126, e >= 16, 2^-16 <= precision < 1", "why_tests_cant": "The unit tests use constant functions, for which the masking in the binary search is invisible.", "anchors": ["src/error_metrics/worst_case_relative_error.cpp:wcre_search"]}
{"id": "C44", "title": "wcre_randomized_search is exact for every random sequence", "statement": "Whatever rand() returns, if the search returns a pair (c,d) then c/d is exactly the worst-case relative error; with at least one sample per round and no zero draws it always returns.", "quantifier": "all pairs of BDD vectors of fewer than 63 bits, all sequences of rand() results, all sample counts", "why_tests_cant": "Depends on the whole random schedule.", "anchors": ["src/error_metrics/worst_case_relative_error.cpp:wcre_randomized_search"]}
{"id": "C45", "title": "Sampling estimates of the error rate stay in range", "statement": "error_rate_sampling returns a value in [0,1], 0 if the functions are equal, 1 if they differ everywhere; error_rate_efficient_sampling lies between the largest single-output error rate and min(1, sum of the single-output error rates), for every random sequence.", "quantifier": "all pairs of BDD vectors, all random sequences, all positive sample counts", "why_tests_cant": "Depends on the random schedule.", "anchors": ["src/error_metrics/error_rate.cpp:error_rate_sampling", "src/error_metrics/error_rate.cpp:error_rate_efficient_sampling"]}
{"id": "C46", "title": "Subset operators only remove inputs", "statement": "The results of subset_light_child, subset_heavy_child and round_down imply the original function, for every level range and variable order.", "quantifier": "all BDDs, all level ranges, all assignments, all variable orders", "why_tests_cant": "Unbounded shapes.", "anchors": ["src/approximation_operators/approximation_operators.cpp:subset_light_child", "src/approximation_operators/approximation_operators.cpp:subset_heavy_child", "src/approximation_operators/approximation_operators.cpp:round_down"]}
{"id": "C47", "title": "Superset operators only add inputs", "statement": "The original function implies the results of superset_light_child, superset_heavy_child and round_up.", "quantifier": "all BDDs, all level ranges, all assignments, all variable orders", "why_tests_cant": "Unbounded shapes.", "anchors": ["src/approximation_operators/approximation_operators.cpp:superset_light_child", "src/approximation_operators/approximation_operators.cpp:superset_heavy_child", "src/approximation_operators/approximation_operators.cpp:round_up"]}
{"id": "C48", "title": "One-level child replacement loses at most half", "statement": "subset_light_child on one level keeps at least half of the satisfying assignments; superset_heavy_child on one level keeps at least half of the falsifying assignments; operators outside their level range leave the function unchanged.", "quantifier": "all BDDs, all levels", "why_tests_cant": "Unbounded shapes.", "anchors": ["src/approximation_operators/approximation_operators.cpp:remove_children_rec"]}
{"id": "C49", "title": "round_bdd (round) is the optimal approximation above a level", "statement": "The result of round(mgr,f,level) depends only on variables below level and no function of these variables has a smaller error rate with respect to f.", "quantifier": "all BDDs in index order, all levels, all competing functions", "why_tests_cant": "Optimality quantifies over all Boolean functions.", "anchors": ["src/approximation_operators/approximation_operators.cpp:round_bdd", "src/approximation_operators/approximation_operators.cpp:round_rec"]}
{"id": "C50", "title": "round_best replaces one child with minimal error", "statement": "round_best at a single level replaces for each node of the level one child with a constant such that the resulting error rate is minimal over all such replacements.", "quantifier": "all BDDs, all levels", "why_tests_cant": "Ties in the child densities select a different branch of the code.", "anchors": ["src/approximation_operators/approximation_operators.cpp:round_best", "src/approximation_operators/approximation_operators.cpp:round_best_rec"]}
{"id": "C51", "title": "round_down/round_up select the child by the number of solutions", "statement": "round_down drops the child with fewer solutions (over the same variables), round_up fills the child with more solutions.", "quantifier": "all BDDs in index order", "why_tests_cant": "Depends on skipped levels between a node and its children.", "anchors": ["src/approximation_operators/approximation_operators.cpp:round_up", "src/approximation_operators/approximation_operators.cpp:round_down", "src/util/cudd_helpers.cpp:count_solutions"]}
{"id": "C52", "title": "Bucket index conversions are mutually inverse", "statement": "create_multi_dim_index and reduce_multi_dim_index are inverse bijections between [0,prod bounds) and the index box, and the flat index is monotone in every coordinate.", "quantifier": "all grid sizes in any dimension with a product of at most 2^64", "why_tests_cant": "Unbounded dimensions.", "anchors": ["src/minimization/bucket_minimization.cpp:reduce_multi_dim_index", "src/minimization/bucket_minimization.cpp:create_multi_dim_index"]}
{"id": "C53", "title": "Buckets returned by the greedy minimisation are sound", "statement": "Every returned bucket holds a function reachable from the original by operators, with bdd_size its node count, at most the original size; non-empty buckets carry the metric values of exactly that function, each below its bound and within the bucket's grid cell (or a lower cell when populate_all is set).", "quantifier": "all operators, metrics (at least one), bounds, positive grid sizes with a product below 2^64, and functions", "why_tests_cant": "Depends on the whole search history.", "anchors": ["src/minimization/bucket_minimization.cpp:bucket_greedy_minimize"]}
{"id": "C54", "title": "The greedy minimisation terminates", "statement": "For every finite operator list the search terminates; the number of explored buckets is bounded.", "quantifier": "all operators (even non-terminating size sequences), metrics (at least one), bounds, positive grid sizes with a product below 2^64", "why_tests_cant": "Termination is not testable.", "anchors": ["src/minimization/bucket_minimization.cpp:bucket_greedy_minimize"]}
{"id": "C55", "title": "With populate_all looser buckets are never worse", "statement": "If all coordinates of bucket i are at most those of bucket j then the size in bucket j is at most the size in bucket i.", "quantifier": "all operators, metrics (at least one), positive bounds, positive grid sizes with a product below 2^64, and functions", "why_tests_cant": "Depends on the whole search history.", "anchors": ["src/minimization/bucket_minimization.cpp:bucket_greedy_minimize"]}
{"id": "C56", "title": "Generated operators do what their kind says", "statement": "generate_single_bdd_operators yields one operator per (output bit, level below the terminal level, kind) that changes only that output; generate_multi_bdd_operators yields one per (level, kind) that changes every output; cofactor operators restrict the variable; subset/superset operators shrink/grow the output; rounding operators are at most twice/exactly as good as the best replacement.", "quantifier": "all functions and operator kinds", "why_tests_cant": "Unbounded functions.", "anchors": ["src/minimization/bucket_minimization.cpp:generate_single_bdd_operators", "src/minimization/bucket_minimization.cpp:generate_multi_bdd_operators", "src/minimization/bucket_minimization.cpp:apply_operator"]}
{"id": "C57", "title": "PLA parsing yields the sum of the cubes", "statement": "After reading the terms, output j is true at x iff some term with '1' in output column j matches x; terms outside the declared widths are undefined behaviour.", "quantifier": "all term lists and input assignments", "why_tests_cant": "Unbounded files.", "anchors": ["src/parsing/pla_parser.cpp:on_term"]}
{"id": "C58", "title": "AIGER parsing yields the functions of the and-inverter graph", "statement": "For a well-formed AIGER event sequence the outputs evaluate to the and-inverter semantics of the output literals; undeclared literals throw std::invalid_argument.", "quantifier": "all and-inverter graphs and input assignments", "why_tests_cant": "Unbounded graphs.", "anchors": ["src/parsing/aig_parser.cpp"]}
{"id": "C59", "title": "AIGER parser accesses stay in bounds", "statement": "No event sequence accepted by the assertions writes outside the literal or name tables.", "quantifier": "all event sequences", "why_tests_cant": "Off-by-one at the table end only.", "anchors": ["src/parsing/aig_parser.cpp:on_input_name", "src/parsing/aig_parser.cpp:on_and"]}
{"id": "C60", "title": "regular_adder adds", "statement": "For every width n>=1, regular_adder(mgr,n) evaluates to a+b for all n-bit a, b.", "quantifier": "all widths, all operands", "why_tests_cant": "Unbounded widths.", "anchors": ["src/example_bdds/approximate_adders.cpp:regular_adder"]}
{"id": "C61", "title": "Approximate adders never overestimate", "statement": "For all admissible parameters, ACA1, ACA2, GDA and GeAr adders evaluate to at most a+b.", "quantifier": "all widths and parameters (below 2^30), all operands", "why_tests_cant": "Unbounded widths.", "anchors": ["src/example_bdds/approximate_adders.cpp"]}
{"id": "C62", "title": "Approximate adders are exact when no carry is cut", "statement": "Each sum bit of an approximate adder is the exact bit whenever the exact carry into it is generated inside the window used for it; in particular low bits are always exact.", "quantifier": "all widths, parameters, operands", "why_tests_cant": "Unbounded widths.", "anchors": ["src/example_bdds/approximate_adders.cpp"]}
{"id": "C63", "title": "n-ary gate constructors", "statement": "and_bdd, or_bdd, xor_bdd over n variables evaluate to the conjunction, disjunction, parity of the first n inputs.", "quantifier": "all n, all assignments", "why_tests_cant": "Unbounded n.", "anchors": ["src/example_bdds/simple.cpp"]}
{"id": "C64", "title": "dump_dot_readable emits the BDD", "statement": "The emitted graph contains every reachable node exactly once, at the rank of its variable, and following its solid/dashed edges evaluates the function.", "quantifier": "all BDDs, all assignments", "why_tests_cant": "Unbounded shapes.", "anchors": ["src/util/dump_dot.cpp"]}
{"id": "C65", "title": "compute_error_metric passes the original function first", "statement": "For every metric, compute_error_metric(original, approx) is the metric of approx with respect to original.", "quantifier": "all metrics and functions", "why_tests_cant": "Needs functions for which the metric is asymmetric.", "anchors": ["experiments/util/benchmark_util.cpp:compute_error_metric"]}
{"id": "C66", "title": "Adder parameters outside the admissible range never go unnoticed as a result", "statement": "ACA1, ACA2, GDA and GeAr return a result exactly for the admissible parameters: outside them the run ends in a failed assertion or undefined behaviour (division by zero, out-of-bounds access).", "quantifier": "all widths and parameters", "why_tests_cant": "Undefined behaviour may look fine in a test run.", "anchors": ["src/example_bdds/approximate_adders.cpp"]}
{"id": "C67", "title": "ACA1 with a full-width partition is the exact adder", "statement": "almost_correct_adder_1(mgr, n, n) computes the same function as regular_adder(mgr, n).", "quantifier": "all widths, all operands", "why_tests_cant": "The difference needs a carry chain over the full width.", "anchors": ["src/example_bdds/approximate_adders.cpp:almost_correct_adder_1"]}
{"id": "C68", "title": "The result of the greedy minimisation cannot be improved by a possible operator", "statement": "For every non-empty bucket (and the first one) of the result and every operator still marked as possible in it, the outcome of the operator is not smaller than the bucket, or lies outside of the error grid, or the bucket of its error cell (with populate_all; some bucket at or below that cell otherwise) is at least as small.", "quantifier": "all operators, metrics (at least one), positive bounds, positive grid sizes with a product below 2^64, and functions", "why_tests_cant": "Depends on the whole search history, including early stopping on partial indices.", "anchors": ["src/minimization/bucket_minimization.cpp:bucket_greedy_minimize"]}
{"id": "C69", "title": "bucket_minimize_helper keeps the requested error bounds", "statement": "Every bucket returned by the helper has, for each configured metric, an actual error (average/worst case over all inputs) below the configured bound; the returned smallest bucket is a smallest one.", "quantifier": "all functions, metric configurations, operator modes", "why_tests_cant": "Unbounded functions; the error is defined over all inputs.", "anchors": ["src/minimization/minimization_helper.cpp:bucket_minimize_helper", "src/minimization/bucket_minimization.cpp:metric_function"]}
{"id": "C70", "title": "Random operators change a single output", "statement": "generate_random_operators returns count operators, each of which changes a single output of the function at one level (as documented).", "quantifier": "all functions, random sequences and operator kinds", "why_tests_cant": "Random choice of operator, level and output.", "anchors": ["src/minimization/bucket_minimization.cpp:generate_random_operators"]}
{"id": "C71", "title": "The returned buckets form a Pareto front", "statement": "No non-empty bucket of the result dominates another one (no metric larger, size not larger, something strictly smaller), as documented.", "quantifier": "all operators, metrics (at least one), positive bounds, positive grid sizes with a product below 2^64, and functions", "why_tests_cant": "Depends on the whole search history.", "anchors": ["src/minimization/bucket_minimization.cpp:bucket_greedy_minimize"]}
{"id": "C72", "title": "Function operators act on every bit", "statement": "A Function keeps its bits and number representation; & and | with a BDD act on every bit including the sign bit, so the value becomes 0 (or all ones) where the condition decides and stays otherwise; operator[] throws std::out_of_range exactly for indices beyond the last bit; an empty bit vector fails the assertion.", "quantifier": "all functions, conditions, indices and assignments", "why_tests_cant": "Arbitrary widths and functions.", "anchors": ["src/util/function.cpp"]}
{"id": "C73", "title": "split yields the white space separated words", "statement": "split appends to the container exactly the maximal runs of non white space characters of the string, in order.", "quantifier": "all strings and containers", "why_tests_cant": "Unbounded strings with arbitrary spacing.", "anchors": ["src/util/string_helpers.hpp:split"]}
{"id": "C74", "title": "PLA input and output names", "statement": "The input and output names read from a PLA file are the words of its .ilb and .ob lines in order, and the names registered with the manager are the input names.", "quantifier": "all PLA files", "why_tests_cant": "Repeated keyword lines do not occur in the test files.", "anchors": ["src/parsing/pla_parser.cpp:on_keyword"]}
{"id": "C75", "title": "Names identify metrics, benchmark files and adder configurations", "statement": "Different metrics, benchmark identifiers and approximate adder configurations (of the parameters the adder uses) have different names; the file lookup throws exactly for identifiers out of range.", "quantifier": "all metrics, identifiers and parameters", "why_tests_cant": "Unbounded parameters; separators between numbers decide injectivity.", "anchors": ["experiments/util/benchmark_util.cpp"]}
{"id": "C76", "title": "get_approximate_adder builds the configured adder", "statement": "For admissible parameters the result never exceeds the exact sum, and a bit is exact precisely if the carry into it is generated inside the window that the configured adder has for it; for any other parameters there is no result.", "quantifier": "all adders and parameters", "why_tests_cant": "Unbounded widths and parameters.", "anchors": ["experiments/util/benchmark_util.cpp:get_approximate_adder"]}
{"id": "C77", "title": "load_input loads what was asked for", "statement": "adder8/16/32 yield the exact adder in a manager of 2*bits+1 variables; any other name is a file: an exception if it cannot be parsed, otherwise the functions of its graph.", "quantifier": "all inputs and files", "why_tests_cant": "Unbounded files and functions.", "anchors": ["src/minimization/minimization_helper.cpp:load_input"]}
{"id": "C78", "title": "format_time truncates to the chosen unit", "statement": "Non-negative times below 60000*2^31 ms are printed as the number of whole milliseconds (below 1 s), seconds (below 5 min) or minutes; times that do not fit into an int are undefined behaviour.", "quantifier": "all doubles", "why_tests_cant": "Boundaries and the range of int.", "anchors": ["src/minimization/minimization_helper.cpp:format_time"]}
{"id": "C79", "title": "vec_to_arr copies the strings and del_arr frees exactly them", "statement": "vec_to_arr returns fresh, pairwise distinct blocks holding NUL-terminated copies of the strings and leaves all other memory alone; del_arr with the length of the vector restores the memory; a smaller length leaks, a larger one is undefined.", "quantifier": "all vectors of strings and memory states", "why_tests_cant": "Memory errors are invisible in tests.", "anchors": ["src/util/string_helpers.cpp"]}
{"id": "C80", "title": "The genes are the essential variables of the outputs", "statement": "compute_support_positions lists exactly the pairs (output, variable the output depends on), without repetition, ordered by output and variable.", "quantifier": "all functions", "why_tests_cant": "Unbounded functions.", "anchors": ["experiments/minimization/nsga2/bddminimizationproblem.cpp:compute_support_positions"]}
{"id": "C81", "title": "An individual fixes variables of outputs to constants", "statement": "function_from_individuum yields the original with variable v of output o replaced by 1 (gene > 1.5), 0 (gene in (0.5, 1.5]) or kept (gene <= 0.5); too few genes are undefined behaviour.", "quantifier": "all functions, genes and inputs", "why_tests_cant": "Unbounded functions, arbitrary doubles.", "anchors": ["experiments/minimization/nsga2/bddminimizationproblem.cpp:function_from_individuum"]}
{"id": "C82", "title": "The fitness is the size and the errors, or a penalty", "statement": "fitness returns node count, error rate (and average case error) of the function of the individual if it is smaller than the original and within the limits; the documented penalties otherwise.", "quantifier": "all functions, limits and genes", "why_tests_cant": "The errors range over all inputs.", "anchors": ["experiments/minimization/nsga2/bddminimizationproblem.cpp:fitness"]}
{"id": "C83", "title": "The initial population is well formed", "statement": "make_population returns the requested number of individuals of the right dimension with entries 0, 1, 2 of which at most initialization_count are not 0; with an empty support the index is computed modulo 0.", "quantifier": "all problems and random sequences", "why_tests_cant": "Random sequences.", "anchors": ["experiments/minimization/nsga2/bddminimizationproblem.cpp:make_population"]}
{"id": "C84", "title": "run_genetic_minimization reports a smallest acceptable function", "statement": "The result is the node count and the errors of a smallest function within the limits among all individuals of the examined generations, smaller than the original; or no result if there is none.", "quantifier": "all functions, limits, random sequences and genetic algorithms", "why_tests_cant": "Depends on the whole run and on rounding.", "anchors": ["experiments/minimization/nsga2/nsga2_minimization_helper.cpp:run_genetic_minimization"]}
{"id": "C85", "title": "run_genetic_minimization terminates", "statement": "The loop ends for every behaviour of the genetic algorithm.", "quantifier": "all functions, limits and genetic algorithms", "why_tests_cant": "Non-termination.", "anchors": ["experiments/minimization/nsga2/nsga2_minimization_helper.cpp:run_genetic_minimization"]}
{"id": "C86", "title": "The metrics bound each other", "statement": "error_rate lies in [0,1]; error_rate <= average_bit_flip_error <= worst_case_bit_flip_error * error_rate; error_rate <= average_case_error <= worst_case_error * error_rate; average_case_error^2 <= mean squared error <= worst_case_error * average_case_error; the relative errors are at most the absolute ones and acre <= wcre * error_rate.", "quantifier": "all pairs of functions of equal width and all variable orders (ADD based and relative metrics: index order, at most 63 variables), width (squares: twice the width) plus number of variables below 256", "why_tests_cant": "Inequalities between the results of different symbolic algorithms for all functions.", "anchors": ["src/error_metrics/error_rate.cpp", "src/error_metrics/average_case_error.cpp", "src/error_metrics/worst_case_error.cpp", "src/error_metrics/average_bit_flip_error.cpp", "src/error_metrics/average_case_relative_error.cpp", "src/error_metrics/worst_case_relative_error.cpp"]}
{"id": "C87", "title": "error_rate, bit flip errors and average_case_error are pseudometrics", "statement": "Each is symmetric and satisfies the triangle inequality.", "quantifier": "all triples of functions of equal width and all variable orders, width plus number of variables below 256", "why_tests_cant": "Relates three calls for all functions.", "anchors": ["src/error_metrics/error_rate.cpp:error_rate", "src/error_metrics/average_bit_flip_error.cpp:average_bit_flip_error", "src/error_metrics/worst_case_bit_flip_error.cpp:worst_case_bit_flip_error", "src/error_metrics/average_case_error.cpp:average_case_error"]}
{"id": "C88", "title": "The metrics do not depend on the variable order", "statement": "If two managers with different variable orders represent the same functions, the metrics return the same values.", "quantifier": "all functions, all pairs of variable orders, within the size limits of the metrics (256 bit numbers)", "why_tests_cant": "The BDDs differ in size and shape between orders; there are n! orders.", "anchors": ["src/error_metrics"]}
{"id": "C89", "title": "The functions from the papers", "statement": "example1a is the sum of two 2-bit numbers, example1b-d, example3 and running_example have the tables of the figures; round_down, round_up and round of example1a give 1b, 1c, 1d.", "quantifier": "all inputs and variable orders (the rounding: index order, any number of variables)", "why_tests_cant": "Tests compare BDDs for one manager only.", "anchors": ["src/example_bdds/from_papers.cpp", "tests/approximation_operations_test.cpp"]}
{"id": "C90", "title": "terminal_level is the first unused index", "statement": "terminal_level returns the smallest index larger than all variable indices in the supports of the given functions, at least 1 for a non-empty argument and 0 when no function is given.", "quantifier": "all lists of lists of functions", "why_tests_cant": "Tests use a few functions with contiguous variables.", "anchors": ["src/util/cudd_helpers.cpp:terminal_level"]}
{"id": "C91", "title": "Rounding of doubles in the counts and in error_rate, average_bit_flip_error", "statement": "If every floating point operation is rounded by a function that keeps numbers with 53 significant bits, then count_minterms, count_solutions, error_rate (up to 53 variables) and average_bit_flip_error (outputs * 2^n <= 2^53) return the exact value. For any number of variables the results differ from the exact ones by at most one relative error per operation on the longest path, and error_rate is 0 only for equal functions.", "quantifier": "all functions, variable orders and rounding functions (count_solutions: index order)", "why_tests_cant": "Rounding shows only for many variables; tests use at most a few.", "anchors": ["src/util/cudd_helpers.cpp:count_minterms", "src/util/cudd_helpers.cpp:count_solutions", "src/error_metrics/error_rate.cpp:error_rate", "src/error_metrics/average_bit_flip_error.cpp:average_bit_flip_error"]}
{"id": "C92", "title": "The operators are not affected by rounding for up to 53 variables", "statement": "With counts computed in doubles all operators return the same BDD as with exact counts if the function has at most 53 variables; with 55 variables the results can differ.", "quantifier": "all functions, levels and rounding functions that keep numbers with 53 significant bits", "why_tests_cant": "Concerns every comparison of counts in every node.", "anchors": ["src/approximation_operators/approximation_operators.cpp"]}
{"id": "C93", "title": "What an approximate adder returns", "statement": "ACA1, ACA2, GDA and GeAr return the exact sum minus twice the number that has bit k set for every restart of the carry chain at position k that forgets a carry. In particular they never return more than the sum.", "quantifier": "all bit widths and parameters for which the adder is built, all operands, all variable orders", "why_tests_cant": "Four families of adders with two free parameters each and 4^N operands.", "anchors": ["src/example_bdds/approximate_adders.cpp:almost_correct_adder_1", "src/example_bdds/approximate_adders.cpp:gracefully_degrading_adder", "src/example_bdds/approximate_adders.cpp:generic_accuracy_reconfigurable_adder"]}
{"id": "C94", "title": "Average errors of the approximate adders in closed form", "statement": "average_case_error between the exact adder and an approximate adder is (2^l - 1)/2, l the first position the last sum bit looks at (ACA1: N+1-Q; GDA and ACA2 with blocks of d bits and lookback P: the largest multiple of d below N, minus P; GeAr: R*floor((N-1-P)/R)); average_bit_flip_error is the sum of (2^b_i - 1)/2^(i+1).", "quantifier": "all adders with 3N+1 < 256 (average_case_error), all adders (average_bit_flip_error)", "why_tests_cant": "The closed forms cover all bit widths and parameters.", "anchors": ["src/error_metrics/average_case_error.cpp:average_case_error", "src/error_metrics/average_bit_flip_error.cpp:average_bit_flip_error", "src/example_bdds/approximate_adders.cpp"]}
{"id": "C95", "title": "Worst case error of the approximate adders", "statement": "worst_case_error between the exact adder and an approximate adder is twice the largest loss given by a recursion over the positions; for ACA1 it is (2^(N+Q) - 2^(N mod Q + Q)) / (2^Q - 1). For generic_accuracy_reconfigurable_adder, almost_correct_adder_2 and gracefully_degrading_adder with blocks of d bits and lookback P it is 0 if there is no cut, and otherwise the sum of 2^k over the cuts k = c, c - w, c - 2w, ..., where c is the last cut and w the first multiple of d beyond P.", "quantifier": "all adders with N < 256, all variable orders", "why_tests_cant": "A maximum over 4^N operands for every parameter.", "anchors": ["src/error_metrics/worst_case_error.cpp:worst_case_error", "src/example_bdds/approximate_adders.cpp"]}
{"id": "C96", "title": "Error rate of the approximate adders", "statement": "error_rate between the exact adder and an approximate adder is 1 - c / 4^N with c the number of operand pairs without a forgotten carry, given by a recursion over the positions.", "quantifier": "all adders, all variable orders", "why_tests_cant": "Counts 4^N operand pairs for every parameter.", "anchors": ["src/error_metrics/error_rate.cpp:error_rate", "src/example_bdds/approximate_adders.cpp"]}
{"id": "C97", "title": "Longer sub adders are better", "statement": "Making the sub adders of ACA1 longer never increases the error on any input.", "quantifier": "all bit widths, all pairs of sub adder lengths, all operands", "why_tests_cant": "The counterexample needs a particular pair of operands; the aggregated metrics hide it.", "anchors": ["src/example_bdds/approximate_adders.cpp:almost_correct_adder_1"]}
{"id": "C98", "title": "No operator introduces a variable", "statement": "Every approximation operator returns a function whose support is contained in the support of its argument.", "quantifier": "all functions, levels and variable orders", "why_tests_cant": "Unit tests compare results for a handful of functions.", "anchors": ["src/approximation_operators/approximation_operators.cpp"]}
{"id": "C99", "title": "Operators reduce the size", "statement": "An approximation operator never returns a BDD with more nodes than its argument.", "quantifier": "all functions, levels and variable orders", "why_tests_cant": "The size grows only if a node is shared with and without complement.", "anchors": ["src/approximation_operators/approximation_operators.cpp:remove_children_rec", "src/approximation_operators/approximation_operators.cpp:round_best_rec"]}
{"id": "C100", "title": "Applying an operator twice", "statement": "Applying an approximation operator to its own result changes nothing.", "quantifier": "all operators, functions and levels", "why_tests_cant": "Unit tests apply every operator once.", "anchors": ["src/approximation_operators/approximation_operators.cpp"]}
{"id": "C101", "title": "Operators and complement", "statement": "The superset operators are the subset operators on the complement: superset_heavy_child(f) = !subset_light_child(!f), superset_light_child(f) = !subset_heavy_child(!f); round and round_best commute with the complement.", "quantifier": "all functions, levels and variable orders", "why_tests_cant": "Fails only for nodes whose children have equal densities.", "anchors": ["src/approximation_operators/approximation_operators.cpp"]}
{"id": "C102", "title": "Operator benchmarks compute bounded approximations", "statement": "Every operator of the operator and ISCAS85 benchmarks turns every vector into a vector of the same length over the same variables; the superset operators never decrease and the subset operators never increase the value on any input, the cofactors give the value with the variable fixed, and full rounding depends only on the variables below the level.", "quantifier": "all vectors, operators, levels, inputs and variable orders (index order for full rounding)", "why_tests_cant": "The benchmarks only measure time; the results are thrown away.", "anchors": ["experiments/runtime/operators.cpp:benchmark_operators", "experiments/runtime/iscas85.cpp:benchmark_iscas85"]}
{"id": "C103", "title": "Average case error benchmarks", "statement": "The average case error benchmark computes the sum over the outputs of 2^i times the change of density. The step benchmark computes the absolute difference on every input and its average equals average_case_error.", "quantifier": "all vectors with length plus number of variables below 256, all levels", "why_tests_cant": "The benchmarks only measure time; equality of the two computations is over all functions.", "anchors": ["experiments/runtime/average_case_error.cpp:benchmark_ace", "experiments/runtime/ace_steps.cpp:benchmark_ace_steps"]}
{"id": "C104", "title": "Table of adder errors", "statement": "For every existing configuration of every approximate adder the program prints the error rate, average case error and worst case error given by the closed forms of C94 to C96; the values for the 28 configurations of the experiments are listed.", "quantifier": "all adders, bit widths below 85, parameters, variable orders", "why_tests_cant": "No test checks any of the printed values; 32 bit adders have 2^64 inputs.", "anchors": ["experiments/misc/er_ace_adder_comparison.cpp:generate_adders", "experiments/runtime/approximate_adder_error_metrics.cpp:generate_adders", "experiments/runtime/acr_approx.cpp:acr_adders"]}
{"id": "C105", "title": "ACA1 is a GeAr configuration", "statement": "The almost correct adder 1 with sub adders of Q bits is the generic accuracy reconfigurable adder with 1 resultant bit and Q - 1 previous bits.", "quantifier": "all bit widths, sub adder lengths, variable orders", "why_tests_cant": "Tests compare only a few values of small adders, and never two kinds of adders.", "anchors": ["src/example_bdds/approximate_adders.cpp:almost_correct_adder_1", "src/example_bdds/approximate_adders.cpp:generic_accuracy_reconfigurable_adder"]}
{"id": "C106", "title": "ACA2 and GDA are GeAr configurations", "statement": "The almost correct adder 2 with partition size 2h is GeAr with h resultant and h previous bits, and the gracefully degrading adder with p partitions is GeAr with N/p resultant bits and the same number of previous bits.", "quantifier": "all bit widths, partition sizes, lookbacks, variable orders", "why_tests_cant": "Tests never compare two kinds of adders; the 8 bit configurations of the experiments agree.", "anchors": ["src/example_bdds/approximate_adders.cpp:almost_correct_adder_2", "src/example_bdds/approximate_adders.cpp:gracefully_degrading_adder", "src/example_bdds/approximate_adders.cpp:generic_accuracy_reconfigurable_adder"]}
{"id": "C107", "title": "Plain sampling is unbiased", "statement": "If rand() is uniform and independent with an odd RAND_MAX, the expected value of error_rate_sampling is the error rate p, its variance is p (1 - p) / samples, and it is off by eps or more with probability at most p (1 - p) / (samples eps^2).", "quantifier": "all functions, sample counts below 2^31, odd RAND_MAX, variable orders", "why_tests_cant": "A distribution can not be observed by finitely many runs; the tests do not call the sampling functions.", "anchors": ["src/error_metrics/error_rate.cpp:error_rate_sampling"]}
{"id": "C108", "title": "Random satisfying inputs are nearly uniform", "statement": "If rand() is uniform and independent with an odd RAND_MAX, the expectation of any function with values in [0,1] of the input that random_satisfying_input returns differs from its mean over the satisfying inputs by at most terminal_level / (RAND_MAX + 1). In particular an input outside the function is returned with at most this probability.", "quantifier": "all satisfiable functions, statistics, terminal levels above the support, odd RAND_MAX", "why_tests_cant": "The distribution of the result over all draws is not observable; with RAND_MAX = 2^31 - 1 the deviation is far below any statistical test.", "anchors": ["src/util/cudd_helpers.cpp:random_satisfying_input"]}
{"id": "C109", "title": "Efficient sampling is close to the error rate", "statement": "If two outputs can be wrong, the mean squared error of error_rate_efficient_sampling is at most W^2 / (2 samples) + (m W / samples + W n / (RAND_MAX + 1))^2, where W is the sum of the rates of the m outputs besides a most frequently wrong one and n the number of variables. Thus the result is off by eps or more with at most 1/eps^2 times this probability.", "quantifier": "all functions with two outputs that can be wrong, sample counts below 2^31, odd RAND_MAX, sorting results, index order", "why_tests_cant": "The bound concerns the distribution over all draws; the tests do not call the sampling functions.", "anchors": ["src/error_metrics/error_rate.cpp:error_rate_efficient_sampling", "src/util/cudd_helpers.cpp:random_satisfying_input"]}
{"id": "C110", "title": "The sampling experiments estimate the error rate", "statement": "With the all-zero approximation of sampling_methods.cpp both methods estimate the share of inputs at which some output is one: regular sampling without bias and with variance p (1 - p) / samples, improved sampling with the mean squared error of C109; improved sampling is undefined if fewer than two outputs are satisfiable. In improved_sampling.cpp the rounded outputs imply the original ones, the printed error rate is the share of inputs with a smaller value, the estimates lie in [0,1] and the improved one between the largest loss of an output and the sum of the losses; the program is undefined if the rounding changes at most one output.", "quantifier": "all functions, levels, sample counts below 2^31, draws", "why_tests_cant": "The experiments are not tested; they run on fixed files and their output is random.", "anchors": ["experiments/runtime/sampling_methods.cpp:benchmark_sampling_methods", "experiments/misc/improved_sampling.cpp:main"]}
{"id": "C111", "title": "Error rates of gates under cofactors", "statement": "Fixing k variables of the n-input OR to zero gives the error rate (2^k - 1) / 2^n, fixing one of them to one gives 1 / 2^n; dually for the AND; for the parity every non-empty choice gives 1/2. This is the general form of the tests 'Generic OR/AND constraint error rate test', which check n = 30 and n = 20 and prefixes of the variables.", "quantifier": "all n, all sequences of literals on different variables in any order, all variable orders", "why_tests_cant": "The tests fix n and cofactor the variables in ascending order with one phase.", "anchors": ["src/example_bdds/simple.cpp:and_bdd", "src/example_bdds/simple.cpp:or_bdd", "src/example_bdds/simple.cpp:xor_bdd", "src/error_metrics/error_rate.cpp:error_rate", "tests/error_metrics_test.cpp"]}
{"id": "C112", "title": "Rounding in the ADD variants of the metrics", "statement": "With doubles (53 significant bits) the ADD variants of worst case error, average case error, mean squared error and worst case bit flip error return exactly the value of exact arithmetic for up to 53 outputs, in both representations; error_rate_add is exact for up to 53 variables and any number of outputs (two relative rounding errors for up to 63 variables); average_bit_flip_error_add is exact as long as outputs times inputs do not exceed 2^53; wcre_add and acre_add are off by one relative rounding error. The limit of 53 outputs is sharp: with 54 wrong outputs worst_case_bit_flip_error_add returns 1 instead of 54 and worst_case_error_add 2^54 instead of 2^54 - 1.", "quantifier": "all rounding functions that keep the doubles (and have relative error u), all vectors, all variable orders (index order where paths are counted), both representations", "why_tests_cant": "Rounding errors need more than 53 outputs or comparisons at the last bit; the tests use at most 16 outputs and compare with a tolerance.", "anchors": ["src/util/cudd_helpers.cpp:bdd_forest_to_add", "src/util/cudd_helpers.cpp:xor_difference_add", "src/util/cudd_helpers.cpp:absolute_difference_add", "src/error_metrics/worst_case_bit_flip_error.cpp", "src/error_metrics/worst_case_error.cpp:worst_case_error_add", "src/error_metrics/average_case_error.cpp", "src/error_metrics/error_rate.cpp:error_rate_add", "src/error_metrics/worst_case_relative_error.cpp:wcre_add", "src/error_metrics/average_case_relative_error.cpp:acre_add"]}
{"id": "C113", "title": "Text of the dot output", "statement": "The text written by dump_dot_readable, read by a reader of the DOT language (tokens, attribute lists, paths, ports, subgraphs, defaults), gives exactly the nodes with labels and ranks and the edges with styles of the graph in C64, in order, provided function names contain no quote and function and variable names have balanced angle brackets. If variable names are distinct, following labels and solid or dashed edges in the picture from the node linked to a name evaluates that output, for every input. A quote in a name is not escaped and leaves a text outside the language.", "quantifier": "all forests, names, variable names, orders, terminal orders, configurations with words as shapes and widths, all ways to print pointers injectively without quotes", "why_tests_cant": "The tests never read the text back; a missing brace, quote or attribute, or an edge default leaking out of its block, shows only for some names and shapes of forests.", "anchors": ["src/util/dump_dot.cpp:dump_dot_readable", "src/util/dump_dot.hpp:DotPresentationConfig"]}
{"id": "C114", "title": "Size of the exact adder", "statement": "In index order (operand bits interleaved) the shared diagram of the n bit ripple carry adder, n > 0, has exactly n(3n+5)/2 nodes, terminal included: 116, 424 and 1616 for 8, 16 and 32 bits. The same holds for every vector of reduced diagrams that computes the sum.", "quantifier": "all n > 0, all managers in index order, all vectors computing the sum", "why_tests_cant": "A test fixes one width; the count depends on sharing between all outputs and with complemented edges.", "anchors": ["src/example_bdds/approximate_adders.cpp:regular_adder", "src/util/cudd_helpers.cpp:terminal_level", "experiments/minimization/nsga2/nsga2_minimize_adders.cpp"]}
{"id": "C115", "title": "Tables of the genetic minimisation", "statement": "For every sequence of random numbers and every genetic algorithm that keeps the length of the individuals, the program nsga2_minimize_adders ends normally and prints three rows, for 8, 16 and 32 bits with the sizes 116, 424 and 1616; each result is a smallest function found in the generations looked at that is smaller than the adder, has an error rate below 0.05 and an average case error below 7, 35 resp. 9000, with the printed size and errors, or the size 2^64-1 with errors 0 if there is none. nsga2_minimize_iscas and nsga2_minimize_epfl print such a row for every circuit in order, up to the first file that is missing or whose circuit is constant; there they end with an exception.", "quantifier": "all random sequences, all genetic algorithms keeping lengths, all files, all variable orders after reading", "why_tests_cant": "The programs run for hours, depend on random numbers and on files outside the repository, and have no tests.", "anchors": ["experiments/minimization/nsga2/nsga2_minimize_adders.cpp:main", "experiments/minimization/nsga2/nsga2_minimize_iscas.cpp:main", "experiments/minimization/nsga2/nsga2_minimize_epfl.cpp:main", "experiments/minimization/nsga2/nsga2_minimization_helper.cpp:run_genetic_minimization"]}
{"id": "C116", "title": "Loaders report unreadable files", "statement": "A benchmark loader returns a function only if the file was read completely, and then the function of the circuit in the file.", "quantifier": "all files, identifiers and variable orders", "why_tests_cant": "No test loads a missing or truncated benchmark.", "anchors": ["experiments/util/benchmark_util.cpp:load_iscas_85_file", "experiments/util/benchmark_util.cpp:load_epfl_benchmark_file"]}
{"id": "C117", "title": "Tables of the bucket minimisation", "statement": "minimize_adders ends normally and prints one row of 400 buckets: bucket i has the indices i/20 and i mod 20, and if it is not empty the printed size, error rate and average case error are those of a function smaller than the adder whose errors lie in exactly these of the 20 intervals below 0.05 and 7; the smallest function printed is one of them and smallest, or the adder if all are empty. Every function is the adder with some variables of some outputs fixed, and none that comes from fixing one variable of one output within the limits is smaller than the smallest printed. The same holds for the configurations that are commented out (16 and 32 bits). minimize_iscas and minimize_epfl print for every circuit in order name, size, the size of an approximation of this kind that is not larger and its error rate, below 0.05, up to the first file that cannot be read, where they end with an exception.", "quantifier": "all files, all variable orders after reading, all limits of the average case error for which no cell number overflows", "why_tests_cant": "The programs run for hours and have no tests; a swapped index or metric shows only in the printed table.", "anchors": ["experiments/minimization/bucket/minimize_adders.cpp:main", "experiments/minimization/bucket/minimize_iscas.cpp:main", "experiments/minimization/bucket/minimize_epfl.cpp:main", "src/minimization/minimization_helper.cpp:bucket_minimize_helper"]}
{"id": "C118", "title": "The bucket minimisation is not worse than a single step", "statement": "If the search ends, every result of one operator on the original function whose errors lie in a cell of the grid is matched: a bucket in this cell (with populate_all) or in a cell at or below it holds a function with at most as many nodes. So no function one step away that keeps all bounds is smaller than the smallest bucket.", "quantifier": "all functions, metrics with positive bounds, grids with fewer than 2^64 cells, operators", "why_tests_cant": "The tests minimise one function with one configuration; an operator skipped or overwritten is not noticed.", "anchors": ["src/minimization/bucket_minimization.cpp:bucket_greedy_minimize"]}
{"id": "C119", "title": "The bucket minimisation finds the smallest function its operators reach", "statement": "The smallest bucket is not larger than any function within the bounds that is reached from the original by applying operators repeatedly.", "quantifier": "all functions, metrics and operators", "why_tests_cant": "Needs a comparison with an exhaustive search.", "anchors": ["src/minimization/bucket_minimization.cpp:bucket_greedy_minimize", "src/minimization/minimization_helper.cpp:bucket_minimize_helper"]}
{"id": "C120", "title": "Leaves closer than epsilon in the relative errors", "statement": "CUDD replaces a new ADD leaf by an existing one in the same hash chain that differs by less than epsilon (1e-12). Integers are not affected while all leaves are integers. Whatever leaves exist and however they are hashed, wcre_add and acre_add differ from the exact maximum and mean of the relative errors by at most the rounding of the division plus epsilon. For at most 39 outputs wcre_add never reports 0 for functions that differ; for 41 outputs it can.", "quantifier": "all hash functions, all sets of existing leaves at every division, all epsilon > 0, all rounding functions that keep the doubles and have relative error u, all vectors of at most 53 outputs and 63 variables in index order, both representations", "why_tests_cant": "Which leaves are merged depends on the history of the manager and on the hash values of doubles; the tests use small functions in fresh managers, where no two quotients are that close.", "anchors": ["src/error_metrics/worst_case_relative_error.cpp:wcre_add", "src/error_metrics/average_case_relative_error.cpp:acre_add"]}
{"id": "C121", "title": "Worst case bit flips of the approximate adders", "statement": "For every approximate adder worst_case_bit_flip_error against the exact adder is the number of outputs whose carry chain does not reach back to position 0: all of them can be wrong for the same operands. For almost_correct_adder_1 with sub adders of Q bits it is N + 1 - Q. For generic_accuracy_reconfigurable_adder it is N + 1 - (R + P), or 0 if R is 0 or R + P is at least N. For almost_correct_adder_2 and gracefully_degrading_adder it is N + 1 - c with c the first multiple of the block length beyond the lookback, or 0 if c is at least N.", "quantifier": "all four adder constructions, all parameters for which they exist, all N < 2^32 - 1, all variable orders", "why_tests_cant": "Tests compute single small adders; the closed form quantifies over all widths and parameters.", "anchors": ["src/example_bdds/approximate_adders.cpp", "src/error_metrics/worst_case_bit_flip_error.cpp"]}
{"id": "C122", "title": "Worst case relative error of the approximate adders", "statement": "An approximate adder that can forget a carry (a restart at a position not below its lookback) has worst case relative error exactly 1: some non-zero sum is returned as 0. wcre_add returns 1 and wcre_bounds returns bounds in [1/2, 1] and [1, 2]. Otherwise the adder is exact.", "quantifier": "all four adder constructions, all parameters for which they exist, all widths (2N <= 63 and index order for wcre_add, N < 256 for wcre_bounds)", "why_tests_cant": "The operands that are added to zero differ for every configuration; tests check a few configurations.", "anchors": ["src/example_bdds/approximate_adders.cpp", "src/error_metrics/worst_case_relative_error.cpp"]}
{"id": "C123", "title": "Mean squared error of the approximate adders", "statement": "The mean squared error of an approximate adder is a double sum over the restarts k and the positions g at which a carry forgotten at k is generated, with terms 2^(k+g) + 2^g (2^b(g) - 1)/2, where b(g) is the first position looked at for the carry into g. mean_squared_error_add returns this value.", "quantifier": "all four adder constructions, all parameters for which they exist, all widths (2N <= 63 and index order for mean_squared_error_add)", "why_tests_cant": "The formula needs the joint distribution of forgotten carries for all widths.", "anchors": ["src/example_bdds/approximate_adders.cpp", "src/error_metrics/average_case_error.cpp:mean_squared_error_add"]}
{"id": "C124", "title": "Average metrics with rounded counts", "statement": "If the counts of CountMinterm are rounded to nearest doubles, average_case_error and mean_squared_error are unchanged for up to 53 variables; for n variables they exceed the exact value by at most 2n relative errors of 2^-53, and average_case_error deviates by at most as much, mean_squared_error too if some bit of the difference depends on all variables of the difference. worst_case_error_percent deviates by one relative error for up to 53 outputs and by two beyond.", "quantifier": "all functions, all numbers of variables within the limits of uint256_t, every way to break ties when rounding", "why_tests_cant": "Tests have few variables, where no rounding takes place.", "anchors": ["src/error_metrics/average_case_error.cpp", "src/error_metrics/worst_case_error.cpp:59"]}
{"id": "C125", "title": "Bucket minimisation with doubles keeps its bounds", "statement": "With every double operation rounded to nearest, each bucket returned by bucket_greedy_minimize and bucket_minimize_helper holds a function whose errors are strictly below the bounds; the search terminates and the helper returns a result.", "quantifier": "all functions, metrics, operators, bounds that are doubles, grids with at most 2^53 coordinates in sum, ways to break ties", "why_tests_cant": "The comparison of grid_size * error / bound with the grid size fails only for values that are very close to the bound.", "anchors": ["src/minimization/bucket_minimization.cpp:67-282", "src/minimization/minimization_helper.cpp:59-105"]}
{"id": "C126", "title": "Operators with rounded counts", "statement": "Whatever the rounding of the counts, the subset operators return subsets, the superset operators supersets, round_bdd a function of the variables above the level, all leave functions without variables in the level range unchanged and introduce no variables. The child that is replaced is the lighter or heavier one up to a factor of ((1+u)/(1-u))^(2n).", "quantifier": "all functions, all level ranges, all rounding functions, any number of variables", "why_tests_cant": "Needs functions with more than 53 variables, for which no reference results exist.", "anchors": ["src/approximation_operators/approximation_operators.cpp"]}
{"id": "C127", "title": "Order of the bucket search", "statement": "In every state the bucket minimisation reaches, the pending positions are sorted lexicographically without repetition. A round takes the pending position with the least coordinate sum, the lexicographically first among these, applies the operators to the function of that bucket only, and every bucket that changes becomes smaller and holds the result of one of these applications. Afterwards exactly the other pending positions and the positions of the buckets that became smaller are pending. The search ends with Ok buckets iff finitely many such rounds from the initial state end with nothing pending.", "quantifier": "all functions, metrics, operators, grids with fewer than 2^64 cells, both population modes, all rounds", "why_tests_cant": "The order is only visible through which of several equally small functions survives; tests compare a few results and cannot cover arbitrary operators, metrics and grids.", "anchors": ["src/minimization/bucket_minimization.cpp:72-95", "src/minimization/bucket_minimization.cpp:150-190"]}
{"id": "C128", "title": "Failures of the minimisations", "statement": "If the bucket search ends with undefined behaviour, an exception or a failed assertion, then an operator or a metric has the same outcome on a function reachable by the operators, or a metric value has no cell number (not finite, bound 0, quotient not representable). An operator that fails on the original function always makes the search fail. With the generated operators and the ten metrics no exception is thrown and no assertion fails: the helper fails only by undefined behaviour of a metric, of a cell number, or of the random generation without operators, outputs or enough draws. The genetic minimisation throws exactly if no output depends on a variable, and otherwise fails only by undefined behaviour.", "quantifier": "all functions, metrics, operators, sizes, grids with fewer than 2^64 cells, all evolutions and draws", "why_tests_cant": "Failures depend on rare combinations of sizes and bounds; a test sees a crash or not for one configuration and cannot attribute it.", "anchors": ["src/minimization/bucket_minimization.cpp:49-191", "src/minimization/minimization_helper.cpp:59-105", "experiments/minimization/nsga2/nsga2_minimization_helper.cpp:9-85"]}
{"id": "C129", "title": "Histograms with any number of levels", "statement": "Let t be one more than the largest variable of an ADD. If some edge of the ADD passes over 64 or more levels (terminals at level t, the root counted from level 0), add_terminal_values has undefined behaviour. Otherwise it returns every value of the function exactly once, each with the number of inputs of t variables that have it, modulo 2^64; a constant has count 1. With t up to 64 no edge is that long.", "quantifier": "all ordered reduced ADDs, any number of variables, index order", "why_tests_cant": "Needs diagrams over more than 63 variables, whose inputs cannot be enumerated; undefined shifts usually go unnoticed on x86.", "anchors": ["src/util/cudd_helpers.cpp:225-330"]}
{"id": "C130", "title": "ADD based maxima with any number of variables", "statement": "worst_case_error_add, worst_case_bit_flip_error_add and wcre_add have undefined behaviour if the difference ADD has an edge over 64 or more levels, and otherwise return the exact maximum over all inputs, whatever the number of variables.", "quantifier": "all functions, up to 256 outputs (64 for bit flips), any number of variables in index order", "why_tests_cant": "The maximum over more than 64 variables cannot be enumerated.", "anchors": ["src/error_metrics/worst_case_error.cpp:68-84", "src/error_metrics/worst_case_bit_flip_error.cpp:22-37", "src/error_metrics/worst_case_relative_error.cpp:12-30"]}
{"id": "C131", "title": "ADD based averages with 64 and more variables", "statement": "average_case_error_add, mean_squared_error_add and acre_add are the exact averages for up to 64 variables. error_rate_add and average_bit_flip_error_add never return a number if the bitwise difference depends on variable 63 or a later one: the outcome is undefined or a division by a total of 0. With 65 variables average_case_error_add can return a wrong number.", "quantifier": "all functions, all variables i >= 63, both number representations", "why_tests_cant": "The failing inputs have at least 64 variables; the tests use at most 16.", "anchors": ["src/error_metrics/error_rate.cpp:143-161", "src/error_metrics/average_bit_flip_error.cpp:34-51", "src/error_metrics/average_case_error.cpp:87-128", "src/error_metrics/average_case_relative_error.cpp:54-78"]}
{"id": "C132", "title": "Bisection for the worst case relative error with doubles", "statement": "With arithmetic rounded to 53 significant bits wcre_search behaves exactly as with real numbers if the number of outputs, plus the number of bits s with 2^-s <= precision, plus 1 is at most 53 (38 outputs for the default precision): same result, same failures, at most 142 rounds, never more than precision/2 too small, less than half too large, and accurate if the relative error is the same for all inputs.", "quantifier": "all functions, both number representations, all factors of at least 16 and precisions in [2^-16, 1), every rounding that keeps numbers with 53 significant bits", "why_tests_cant": "A test sees a few functions with small values; the claim is that no intermediate of any run needs a 54th bit.", "anchors": ["src/error_metrics/worst_case_relative_error.cpp:148-216"]}
{"id": "C133", "title": "Bisection with doubles need not end", "statement": "wcre_search ends for every pair of functions. False with doubles: for constant functions with 41 outputs and the default parameters the bisection loops forever, and so it does whenever the relative error is the same for all inputs, at least 2^36, no double, and doubles of its size are further apart than the precision.", "quantifier": "all roundings to nearest, all numbers of rounds, all functions with such a relative error", "why_tests_cant": "Non-termination cannot be observed by a test, and the functions need more than 40 outputs.", "anchors": ["src/error_metrics/worst_case_relative_error.cpp:148-216"]}
{"id": "C134", "title": "Randomized search and random satisfying inputs with doubles", "statement": "With rounded doubles random_satisfying_input still returns a satisfying input with 0/1 entries for every satisfiable function, wcre_randomized_search still returns the exact worst case relative error whenever it ends, and still ends.", "quantifier": "all functions, all random numbers in (0, RAND_MAX], any number of variables, every rounding to nearest", "why_tests_cant": "Rounding could make a branch of weight 0 be taken for some random number and function only.", "anchors": ["src/error_metrics/worst_case_relative_error.cpp:42-146", "src/util/cudd_helpers.cpp:169-213"]}
{"id": "C135", "title": "Relative error metrics in decimal arithmetic", "statement": "With a relative error of at most u per operation on cpp_dec_float_100 the bounds of the worst case relative error are valid up to a factor 1-u resp. 1+u, those of the average case up to (1-u)^(outputs+2) resp. (1+u)^(outputs+2), symbolic division is rounded once for the worst case and twice for the average case; doubles in the averages add nothing up to 53 variables and at most two roundings per variable beyond.", "quantifier": "all functions, both number representations, every rounding function with relative error u, any number of variables n with outputs + n < 256", "why_tests_cant": "An error bound over all inputs of a hundred digit arithmetic is not observable by samples.", "anchors": ["src/error_metrics/worst_case_relative_error.cpp:218-281", "src/error_metrics/average_case_relative_error.cpp:12-52", "src/error_metrics/average_case_relative_error.cpp:80-98"]}
{"id": "C136", "title": "Sampling of the error rate with doubles", "statement": "error_rate_sampling is the sampled rate rounded once. error_rate_efficient_sampling keeps its range and fails for the same functions if outputs * 2^variables <= 2^53, and is the exact error rate if the wrong inputs of one output contain those of all others or if they are disjoint with enough samples. Beyond that it fails for more functions: with 55 variables a rate of 2^-55 next to a rate of 1 makes the quotient a division by 0.", "quantifier": "all functions, all random numbers, all sample numbers, every rounding to nearest", "why_tests_cant": "The failure needs more than 53 variables, the range holds for every outcome of rand().", "anchors": ["src/error_metrics/error_rate.cpp:31-141"]}
{"id": "C137", "title": "Operators given up by the bucket search", "statement": "A bucket that became smaller in a round gives up the operator that produced it and every operator the explored bucket had given up. Of the other operators it gives up those whose result has more than 3/2 of the nodes of the explored bucket and those whose result is small enough but reaches the bound of the first metric, and no operator for any other reason than too many nodes or a metric that reaches its bound. Buckets that did not become smaller keep their operators.", "quantifier": "all functions, metrics, operators, grid sizes, both population modes, every round of every search", "why_tests_cant": "The flags are internal to the search and steer which functions are tried later; a test sees one search with its final sizes only.", "anchors": ["src/minimization/bucket_minimization.cpp:81-187"]}
{"id": "C138", "title": "Failures of the error metrics", "statement": "No error metric throws an exception, whatever the functions. An assertion fails exactly if the two vectors have different lengths and the metric is a bit flip metric, approximate_worst_case_error or one of the two sampling functions, or if approximate_worst_case_error is told to consider less than one bit; every other failure is undefined behaviour.", "quantifier": "all functions of all lengths, all metrics, all managers, all random numbers, all numbers of loop iterations", "why_tests_cant": "A test calls the metrics with vectors of equal length and can neither enumerate the functions nor observe undefined behaviour.", "anchors": ["src/error_metrics/error_rate.cpp:1-172", "src/error_metrics/average_bit_flip_error.cpp:1-53", "src/error_metrics/worst_case_bit_flip_error.cpp:1-39", "src/error_metrics/worst_case_error.cpp:1-135", "experiments/util/benchmark_util.cpp:40-84"]}
{"id": "C139", "title": "No dangling nodes in the operators", "statement": "If garbage collection may happen in every call of CUDD, no approximation operator uses a node that may have been collected and none gives back a reference it does not hold, as long as the caller holds a reference to the function. The result is the same as without garbage collection, it is referenced, and no reference of the caller is lost.", "quantifier": "all functions, all eight operators, all levels, all variable orders, all states of the reference counters", "why_tests_cant": "A missing reference only shows when the collection happens to run at the wrong moment, which depends on the size of CUDD's tables.", "anchors": ["src/approximation_operators/approximation_operators.cpp:105-373"]}
{"id": "C140", "title": "Operators release their references", "statement": "After the result of an operator is destroyed, the references are those from before the call. False: one reference is left for every subfunction that was built anew, so its nodes are never collected; the reference taken in lines 189, 245 and 364 (\"is this necessary?\") is never given back.", "quantifier": "all functions, all eight operators, all levels, all variable orders, all states of the reference counters", "why_tests_cant": "A leak does not change any result; the tests do not look at the reference counters.", "anchors": ["src/approximation_operators/approximation_operators.cpp:180-198", "src/approximation_operators/approximation_operators.cpp:236-253", "src/approximation_operators/approximation_operators.cpp:355-373"]}
{"id": "C141", "title": "Operators when memory is exhausted", "statement": "If CUDD has no memory for a node, an approximation operator throws an exception. False: the returned pointers are not checked. An operator that builds n subfunctions anew returns its result if all calls succeed, returns a BDD object without a node if only the last call fails, and uses a null pointer (undefined behaviour) if an earlier one fails.", "quantifier": "all functions, all eight operators, all levels, all variable orders, every set of failing calls", "why_tests_cant": "The tests run with enough memory and cannot make a chosen call of CUDD fail.", "anchors": ["src/approximation_operators/approximation_operators.cpp:180-198", "src/approximation_operators/approximation_operators.cpp:236-253", "src/approximation_operators/approximation_operators.cpp:355-373"]}
{"id": "C142", "title": "Operators while variables are reordered", "statement": "The approximation operators give their result also if CUDD reorders the variables in some of its calls. False: children read before the first recursive call may be gone after it, and nodes may be missing in the map of node counts or have other children. It holds if the level range starts at 0, or if no call before the last one reorders; the result is then the one without reordering and no reference of the caller is lost.", "quantifier": "all functions, all eight operators, all levels, all variable orders, all sequences of orders, all states of the reference counters", "why_tests_cant": "When CUDD reorders depends on the number of nodes in the manager; the tests do not enable it.", "anchors": ["src/approximation_operators/approximation_operators.cpp:105-388", "experiments/minimization/nsga2/nsga2_minimize_epfl.cpp:23-28", "experiments/minimization/nsga2/nsga2_minimize_iscas.cpp:20-25"]}
{"id": "C143", "title": "Range of doubles does not matter up to 1022 variables", "statement": "With IEEE 754 doubles (subnormal numbers, infinities, NaN), for functions of up to 1022 variables every density of count_minterms is finite and within 2n roundings of the exact one (exact up to 53 variables), all operators give the result of rounding alone (up to 53 variables the exact result; round_up and round_down in index order, up to 1023 levels), and random_satisfying_input returns a satisfying input for positive draws. The doubles meant here are those of IEEE 754 binary64 as specified in Coq's standard library: sum, difference, product, quotient (the divisor not being negative zero) and comparisons in the model are those of SpecFloat on all doubles, subnormal numbers, infinities and NaN included.", "quantifier": "all functions with at most 1022 variables, all levels, all draws; all pairs of doubles for the operations", "why_tests_cant": "The tests use a handful of variables; extreme exponents need hundreds.", "anchors": ["src/util/cudd_helpers.cpp:74-213", "src/approximation_operators/approximation_operators.cpp:36-388"]}
{"id": "C144", "title": "Underflow and overflow beyond 1022 variables", "statement": "random_satisfying_input and the operators also work beyond 1022 variables. False: the density of a conjunction of 1075 or more variables is 0; from 1076 on subset_light_child gives the constant 0 instead of the function and random_satisfying_input returns a non-satisfying input for all draws; round_down compares two infinities with 1031 levels; error_rate is 0 or NaN if a variable has index 1024 or more.", "quantifier": "all conjunctions of 1076 or more variables and all draws; all functions with a variable of index 1024 or more", "why_tests_cant": "The tests have no function with that many variables.", "anchors": ["src/util/cudd_helpers.cpp:74-213", "src/approximation_operators/approximation_operators.cpp:36-388", "src/error_metrics/error_rate.cpp:10-29"]}
{"id": "C145", "title": "Operators never fail, whatever the counts", "statement": "In every variable order and for every number of variables all eight operators, computed with IEEE doubles, return a BDD over the variables of the argument, return the argument if no variable lies in the level range, and the subset (superset) operators return a subset (superset). round_down keeps the heavier child: false in other orders, where counts are infinite.", "quantifier": "all functions, all orders, all levels, all operators", "why_tests_cant": "Infinite counts occur only after reordering or with a thousand variables.", "anchors": ["src/approximation_operators/approximation_operators.cpp:36-388", "src/util/cudd_helpers.cpp:74-213"]}
{"id": "C146", "title": "A larger level range removes more", "statement": "If the level range [ls, le] lies inside [ls', le'], then the result of each subset operator (subset_light_child, subset_heavy_child, round_down) for [ls', le'] is contained in its result for [ls, le], which is contained in the function; for the superset operators (superset_light_child, superset_heavy_child, round_up) the inclusions are reversed. This holds in every variable order.", "quantifier": "all functions, all variable orders, all nested nonempty level ranges", "why_tests_cant": "The unit tests apply each operator to single levels of small functions and never compare two ranges.", "anchors": ["src/approximation_operators/approximation_operators.cpp:36-388"]}
{"id": "C147", "title": "Larger ranges are never more precise; rounding beats constants", "statement": "For all eight operators the number of inputs on which the result differs from the function does not decrease when the level range grows (round_bdd: when the level decreases). round_bdd and round_best are never wrong on more inputs than the better of the two constants.", "quantifier": "all functions, all variable orders, all nested level ranges", "why_tests_cant": "It compares infinitely many pairs of runs; the tests check fixed results of single runs.", "anchors": ["src/approximation_operators/approximation_operators.cpp:36-388"]}
{"id": "C148", "title": "Metrics grow with the level range", "statement": "Applied to every output of a vector, a one-sided operator with a larger level range has at least the same error rate, average and worst-case bit flip error, average-case error and worst-case error (BaseTwo). For all eight operators the average bit flip error does not decrease (the error rate can decrease for round_bdd, shown by an example).", "quantifier": "all vectors of functions with outputs + variables < 256, all variable orders, all nested level ranges", "why_tests_cant": "The tests compute metrics for a few fixed pairs of functions.", "anchors": ["src/approximation_operators/approximation_operators.cpp:36-388", "src/error_metrics/error_rate.cpp:10-29", "src/error_metrics/average_bit_flip_error.cpp:8-24", "src/error_metrics/worst_case_error.cpp:9-55"]}
{"id": "C149", "title": "Rounds of the randomized search", "statement": "wcre_randomized_search returns at once if the worst relative error is 0 or a power of two. Otherwise it starts with the largest power of two below the worst error, and each round draws exactly `samples` inputs among those whose error exceeds the current bound, every input from the next ReadSize() results of rand(), and continues with the largest error seen. With positive random numbers it needs at most one round per distinct value of the relative error.", "quantifier": "all pairs of functions with at most 62 outputs, all random numbers, all numbers of samples and rounds (the number of rounds: index order)", "why_tests_cant": "The tests see one sequence of random numbers and only the final value, which is the same for all of them.", "anchors": ["src/error_metrics/worst_case_relative_error.cpp:42-146", "src/util/cudd_helpers.cpp:160-213"]}
{"id": "C150", "title": "Value of a constant ADD", "statement": "const_ADD_value returns zero for every node that is not constant and the value of a constant rounded towards zero; for values of at most -1 or at least 2^32 the conversion is undefined.", "quantifier": "all ADDs", "why_tests_cant": "The tests never call it with a value outside the range or with an inner node.", "anchors": ["src/util/cudd_helpers.cpp:215-223", "src/util/cudd_helpers.hpp:73-74"]}
{"id": "C151", "title": "Exact values of the relative error bounds and of the average symbolic division", "statement": "wcre_bounds returns the largest distance divided by the largest number with as many bits as the reference value, and the largest distance divided by the power of two below the reference value; acre_bounds returns the averages of these quotients; acre_symbolic_division returns the average of the relative errors, each rounded down to the number of extra bits. Reference values of more than 53 bits are replaced by the next power of two in the lower bound.", "quantifier": "all variable orders, all pairs of functions of both number representations within the documented sizes", "why_tests_cant": "The tests compare the bounds with the true error on adders of up to 8 bits, where many different formulas would lie on the right side.", "anchors": ["src/error_metrics/worst_case_relative_error.cpp:218-281", "src/error_metrics/average_case_relative_error.cpp:12-52", "src/error_metrics/average_case_relative_error.cpp:80-98"]}
{"id": "C152", "title": "Larger level ranges never reduce the relative error", "statement": "For the six one-sided operators, enlarging the range of levels never decreases wcre_bounds, acre_bounds, wcre_symbolic_division, acre_symbolic_division, wcre_add, acre_add or mean_squared_error_add of the approximated function.", "quantifier": "unsigned numbers, all variable orders (the ADD metrics: index order), all functions, operators and nested level ranges", "why_tests_cant": "It relates the results of two runs for all functions; the tests run each operator on one range.", "anchors": ["src/approximation_operators/approximation_operators.cpp:36-388", "src/error_metrics/worst_case_relative_error.cpp:13-30", "src/error_metrics/average_case_relative_error.cpp:54-78", "src/error_metrics/average_case_error.cpp:108-128"]}
{"id": "C153", "title": "Average metrics of wide functions", "statement": "With s the largest number of variables of an output, average_value is the mean value modulo 2^(256-s) and mean_squared_value the sum of C36 modulo 2^(256-s); if an output depends on 256 or more variables both divide by zero. average_case_error and mean_squared_error therefore never overestimate, and average_case_error is exact if and only if the mean distance is below 2^(256-s).", "quantifier": "all variable orders, all functions with any number of outputs and variables, both number representations", "why_tests_cant": "The wrong values appear only for functions of more than 256 outputs and variables together; the tests use at most 16 variables.", "anchors": ["src/error_metrics/average_case_error.cpp:12-85"]}
{"id": "C154", "title": "Work of the operators is linear in the size of the BDD", "statement": "Each operator calls Cudd_bddIte at most 2N-3 times for a BDD of N nodes, and the maps of count_minterms and count_solutions have at most 2N entries; the bound is reached by parity functions although they have exponentially many paths.", "quantifier": "all BDDs, variable orders, operators and level ranges", "why_tests_cant": "Tests on small functions cannot tell linear from exponential work.", "anchors": ["src/approximation_operators/approximation_operators.cpp:105-373", "src/util/cudd_helpers.cpp:74-167"]}
{"id": "C155", "title": "NaN among the numbers of solutions", "statement": "The number of solutions that count_solutions stores for a node is never NaN. False with more than 1024 levels: it is NaN exactly if below the node some child is the constant 0 with 1024 or more levels to the last one; round_down and round_up then always replace the then child, and round_down turns the conjunction of 1026 or more variables into the constant 0.", "quantifier": "all BDDs and variable orders; the conjunction and its exact counterpart in index order", "why_tests_cant": "Tests have few variables, for which no power of two overflows.", "anchors": ["src/util/cudd_helpers.cpp:118-167", "src/approximation_operators/approximation_operators.cpp:77-103"]}
{"id": "C156", "title": "Nearly uniform sampling with doubles", "statement": "random_satisfying_input computed with doubles is nearly uniform on the satisfying inputs: no statistic with values between 0 and 1 is off by more than n/(RAND_MAX+1) + n*n/2^50 for n variables, and an input that does not satisfy the function appears with at most that probability.", "quantifier": "all satisfiable functions of up to 1022 variables in index order, all statistics, all odd RAND_MAX up to 2^53, uniform independent draws", "why_tests_cant": "A statement about a distribution and about rounding errors that accumulate with the number of variables; tests see single draws.", "anchors": ["src/util/cudd_helpers.cpp:169-213", "src/util/cudd_helpers.cpp:81-116"]}
{"id": "C157", "title": "How reading an and-inverter graph ends", "statement": "For a file with any content, the reader returns the outputs exactly if it accepts every line and every output is declared; otherwise it ends at the first line it does not accept, by a failed assertion, an access out of bounds (gate m+1, name of input i or output o) or an exception (undeclared operand), or after the last line by an exception (undeclared output).", "quantifier": "all headers with m < 2^62, all sequences of lines with gate numbers below 2^31, all managers", "why_tests_cant": "Tests read correct files only; the claim is about every incorrect file and about which of several mistakes is reported.", "anchors": ["src/parsing/aig_parser.cpp:11-127"]}
{"id": "C158", "title": "The programs end like the reader", "statement": "The minimisation programs print the rows of the files before the first one that cannot be read and then end in the way the reading ends (failed assertion, exception or undefined behaviour); the loaders of the ISCAS and EPFL files do the same.", "quantifier": "all contents of the files, all managers, populations and draws; the files before the faulty one are correct circuits", "why_tests_cant": "The programs are not tested; the files of the experiments are correct.", "anchors": ["experiments/minimization/bucket/minimize_iscas.cpp:11-38", "experiments/minimization/bucket/minimize_epfl.cpp:10-37", "experiments/minimization/nsga2/nsga2_minimize_iscas.cpp:9-38", "experiments/minimization/nsga2/nsga2_minimize_epfl.cpp:10-40", "experiments/util/benchmark_util.cpp:97-153"]}
{"id": "C159", "title": "random_satisfying_input in other variable orders and with other maps", "statement": "When the variables come in the opposite order, the conjunction of n variables yields the parities of the first n-1 draws followed by a one, so the result satisfies the function with probability 1/2^(n-1) only, although it always has a solution and positive draws. In every order and with every map the function returns a vector of full length, or throws because a successor of some node has no weight; it does throw if a successor of the top node has none.", "quantifier": "all managers with the opposite order, all n, all sequences of draws up to RAND_MAX; all BDDs, maps and draws for the outcome", "why_tests_cant": "Tests use the order in which the variables are created and the map of count_minterms; the probability counts over all sequences of draws.", "anchors": ["src/util/cudd_helpers.cpp:169-213", "src/util/cudd_helpers.hpp:59-71"]}
{"id": "C160", "title": "Efficient sampling when 2^(ReadSize() - 1) is not a finite double", "statement": "In a manager without variables, where ReadSize() - 1 wraps around, or with more than 1024 variables, error_rate_efficient_sampling has undefined behaviour for every number of outputs but one, whatever the counts, the sort and the draws are. For one output it returns 0 if Cudd_CountMinterm is finite and 1 otherwise; so the constants 1 and 0 get the error rate 0.", "quantifier": "all managers of that size, all functions, counts, sorts and draws", "why_tests_cant": "Tests use managers with a few variables; the claim holds for every result of Cudd_CountMinterm and every treatment of NaN by the sort.", "anchors": ["src/error_metrics/error_rate.cpp:66-141"]}
{"id": "C161", "title": "Efficient sampling with doubles of limited range", "statement": "With at least one variable, m outputs and n variables with m * 2^n <= 2^53, no operation of error_rate_efficient_sampling overflows, underflows or yields a NaN or infinity: the result is a finite double between the largest rate of a single output and the smaller of 1 and the sum of the rates, it is exact in the cases of C45, and the function is undefined exactly if the number of outputs is not 1 and at most one output is ever wrong.", "quantifier": "all managers with at least one variable, all functions with m * 2^n <= 2^53, all sequences of rand() values, all sorts and all sample numbers below 2^31", "why_tests_cant": "Every double operation of the loop would have to be watched for every function and every sequence of draws.", "anchors": ["src/error_metrics/error_rate.cpp:66-141"]}
{"id": "C162", "title": "When two approximate adders are the same circuit and when they are exact", "statement": "Two approximate adders for N bits are identical BDD vectors exactly if all their carries look back to the same positions. The carry out of ACA1 never equals that of GeAr with R = 1 and P = Q - 1. ACA2 with partition size Q equals GeAr with R = P = Q/2 exactly if N/(N/Q + 1) = Q/2; GDA with p partitions equals GeAr with block length d = N/p exactly if (d + P > 1 and d divides P) or N <= (P/d + 1) * d. ACA1 is never the exact adder; ACA2 is exactly if Q = N and N is 1 or even; GDA exactly if N <= (max(P,1)/d + 1) * d; GeAr exactly if R = 0 or R + P >= N.", "quantifier": "all bit widths and all admissible parameters", "why_tests_cant": "Every pair of configurations of every width would have to be compared; the negative claims need a witness input for each pair.", "anchors": ["src/example_bdds/approximate_adders.cpp:12-325"]}
{"id": "C163", "title": "The operators can nearly double a BDD, and no smaller factor bounds the growth", "statement": "In index order and_bdd, or_bdd and xor_bdd of n variables have exactly n + 1 nodes. For n >= 2 each of subset_light_child, subset_heavy_child, superset_light_child, superset_heavy_child, round_down and round_up applied to xor_bdd at level n - 2 only gives a BDD with at least 2n - 1 nodes. Parity does not grow under round and round_best, but the parity of x_0 .. x_(k-1) and of (x_k ? x_(k+2) xor x_(k+3) : x_(k+1)), which has exactly k + 5 nodes, becomes a BDD with at least 2k + 3 nodes at level k + 2. Hence for every factor below 2 and each of the eight operators there is a BDD in index order whose result has more than that factor times as many nodes.", "quantifier": "all numbers of variables, all managers in index order, all eight operators, all rational factors below 2", "why_tests_cant": "A test shows the growth for a few sizes; that no factor below 2 works is a statement about arbitrarily large BDDs.", "anchors": ["src/approximation_operators/approximation_operators.cpp:remove_children_rec", "src/example_bdds/simple.cpp:8-42"]}
{"id": "C164", "title": "Printed numbers are the nearest numbers with six digits", "statement": "A finite number printed with std::cout << x in the default format is a text that reads as a number with at most six significant digits, and no number with at most six digits is closer; the relative error is at most 5e-6. Numbers with at most six digits are printed exactly. The text is the only one of the format that shows the number rounded to six digits (ties to an even last digit): no superfluous zeros, and an exponent of at least two digits exactly for numbers below 0.0001 and from a million on. Printing keeps the order of numbers weakly, printing the number that was read back gives the same text, two numbers have the same text exactly if their texts read as the same number, and the text of a double has at most 13 characters.", "quantifier": "all rational numbers; for the length all doubles", "why_tests_cant": "The format switches between two styles, strips zeros and carries into another digit when rounding; tests visit a few of the 2^64 doubles and cannot show that no closer text exists or that two different texts never read as the same number.", "anchors": ["experiments/misc/er_ace_adder_comparison.cpp:24", "experiments/minimization/bucket/minimize_adders.cpp:33-36", "experiments/minimization/nsga2/nsga2_minimize_adders.cpp:24-26"]}
{"id": "C165", "title": "The tables printed by the programs can be read back without loss of structure", "statement": "For all contents of the file system, managers, evolution steps, random numbers and measured times, the texts of minimize_iscas, minimize_epfl, minimize_adders, nsga2_minimize_iscas, nsga2_minimize_epfl and nsga2_minimize_adders split at line ends and separators into the header and exactly one row of as many cells per result (for minimize_adders also the list of buckets with their indices, where empty buckets are NaN;NaN;NaN), and the cells show the name, the sizes, the error metrics to six digits and the time of that result. Every printed error rate reads as a number of at most 0.05 although the limit in the code is the double above 0.05. er_ace_adder_comparison always prints the same five lines, whatever the orders of variables in its managers.", "quantifier": "all file systems, managers, evolution steps, draws and times; for the rates all results of C115 and C117", "why_tests_cant": "The programs have no tests, and their output depends on files, random numbers and times; a run shows one output only.", "anchors": ["experiments/minimization/bucket/minimize_iscas.cpp:11-38", "experiments/minimization/bucket/minimize_epfl.cpp:11-37", "experiments/minimization/bucket/minimize_adders.cpp:10-63", "experiments/minimization/nsga2/nsga2_minimize_iscas.cpp", "experiments/minimization/nsga2/nsga2_minimize_epfl.cpp", "experiments/minimization/nsga2/nsga2_minimize_adders.cpp", "experiments/misc/er_ace_adder_comparison.cpp:10-57"]}
{"id": "C166", "title": "Operators and failures of the minimisation with doubles", "statement": "With the counts, the metric values and the cell numbers of the bucket minimisation rounded to doubles, the generated operator functions are the same as intended: one per output, level and kind in this order for SINGLE_BDD, one per level and kind for MULTI_BDD; in RANDOM mode the k-th function applies the kind number rand mod the number of kinds at the level rand mod the number of levels, using the draws 2k and 2k+1, and the generation is undefined exactly if it needs a kind or a level and there is none. The search with doubles fails only because an operator or a metric fails on a function that the operators reach, or because a metric value has no cell number after the three roundings (bound 0, at most -1, at least 2^64, not finite); an operator that fails on the original function always makes it fail. An empty list of metrics is an exception, a grid of size 0 undefined behaviour. The helper never ends with an exception or a failed assertion.", "quantifier": "All rounding functions to nearest, managers, functions, operators, metrics, draws and grids with volume below 2^64 and coordinate sum at most 2^53", "why_tests_cant": "A test runs a few functions with a few seeds; which draws, roundings or bounds lead to undefined behaviour is not visible in them", "anchors": ["src/minimization/bucket_minimization.cpp:49-191", "src/minimization/bucket_minimization.cpp:193-282", "src/minimization/minimization_helper.cpp:59-105"]}
{"id": "C167", "title": "Exactly when the functions on vectors fail", "statement": "For all vectors of functions, without any assumption on the functions: bdd_add, bdd_subtract and xor_difference_add have undefined behaviour exactly if the second vector is shorter than the first; bdd_abs and bdd_forest_to_add exactly if the numbers are in two's complement and the vector is empty; bdd_absolute_difference and absolute_difference_add exactly if the numbers are in two's complement and one of the vectors is empty; bdd_max_one exactly if the vector is empty. bdd_shift, the product with an integer and bdd_divide never fail. The product with a double is undefined exactly if the factor is at most 1/2, or it is 2^256, or it is below 2^256 and there are 64 or more extra bits; its assertion fails exactly if the factor is above 2^256. There are no other failures and no exceptions.", "quantifier": "all managers, vectors of functions, number representations, shifts, factors and numbers of extra bits", "why_tests_cant": "An out-of-range read of a vector usually goes unnoticed in a run; that none happens for any other input needs a proof for all vectors and factors.", "anchors": ["src/util/cudd_helpers.cpp:332-403", "src/util/cudd_helpers.cpp:575-700", "src/util/cudd_helpers.cpp:731-840"]}
{"id": "C168", "title": "Exactly when the error metrics fail, exact and rounded", "statement": "For all vectors of functions and all rounding functions for double and for cpp_dec_float_100: error_rate is undefined exactly if the second vector is shorter; the assertion of average_bit_flip_error fails exactly if the lengths differ; worst_case_error, worst_case_error_percent, average_case_error and mean_squared_error are undefined exactly if the numbers are in two's complement and one vector is empty; the assertions of approximate_worst_case_error fail exactly if the lengths differ or fewer than one bit is asked for; the bounds and the symbolic division for the relative errors are undefined exactly if the first vector is empty, or the numbers are in two's complement and the second is. Naive sampling fails an assertion exactly if the lengths differ, and is undefined exactly if they agree and 2^31 or more samples are asked for. The metrics on ADDs, sampling by activation and the two searches for the worst case relative error throw no exception with any rounding (to nearest for the bisection), and an assertion fails only if the lengths differ.", "quantifier": "all managers, vectors of functions, number representations, rounding functions, draws of rand(), numbers of samples and bits", "why_tests_cant": "The statement excludes failures for all vectors and all ways of rounding; a test run sees one input and one rounding, and undefined behaviour need not show.", "anchors": ["src/error_metrics/error_rate.cpp:10-64", "src/error_metrics/worst_case_error.cpp:14-133", "src/error_metrics/worst_case_relative_error.cpp:148-281", "src/error_metrics/average_case_relative_error.cpp:12-98"]}
{"id": "C169", "title": "Random inputs with draws of zero, with doubles", "statement": "With rounded doubles, and with the limited range of doubles up to 1022 variables, random_satisfying_input returns a 0/1 vector of full length for every satisfiable function and all results of rand() in [0, RAND_MAX]; it does not satisfy the function exactly if some rand() returned 0 at a variable that had to be false given the entries before it. Consequently there are functions and results of rand() for which wcre_randomized_search never ends, whatever the number of samples.", "quantifier": "all satisfiable BDDs in index order, all results of rand(), every rounding to nearest; the endless search is an existence statement over all sample and round numbers", "why_tests_cant": "Tests fix the seed of rand() and never see the rare value 0; non-termination cannot be observed by a test.", "anchors": ["src/util/cudd_helpers.cpp:169-213", "src/error_metrics/worst_case_relative_error.cpp:42-146"]}
{"id": "C170", "title": "Rounds of the randomized search with doubles", "statement": "With rounded counts wcre_randomized_search returns at once if the worst relative error is 0 or a power of two; otherwise it starts with the power of two below the worst error, each round draws the given number of inputs among those with an error above the bound, using the next ReadSize() results of rand() for each, and goes on with the largest error found. It needs at most one round for every value of the relative error if rand() is never 0.", "quantifier": "all functions of at most 62 bits, both representations, all results of rand(), every rounding to nearest", "why_tests_cant": "The number of rounds and the draws used depend on random numbers and rounding; tests see single final values.", "anchors": ["src/error_metrics/worst_case_relative_error.cpp:42-146", "src/util/cudd_helpers.cpp:169-213"]}
{"id": "C171", "title": "The child that round_down and round_up replace, with doubles and any number of variables", "statement": "With IEEE doubles (53 bits, range below 2^1024) and a BDD with T levels in index order, every number that count_solutions stores for a node is NaN exactly if the node has a far zero below it (C155); otherwise it is within 2T relative roundings of the number of solutions over the node's own variables, or it is infinite, and then the exact number times (1 + 2^-53)^(2T) is at least 2^1024. So at every node of the level range round_down (round_up) makes the then child 0 (1) only if one of the two numbers is NaN, if both may be out of range or if the then child does not have clearly more solutions; and it makes the else child 0 (1) only if neither number is NaN, the else child's number may be in range and it does not have clearly more solutions than the then child.", "quantifier": "all managers in index order, BDDs with fewer than 2^64 levels, level ranges", "why_tests_cant": "Concerns overflow at over a thousand levels, the accumulated rounding errors and all BDDs", "anchors": ["src/util/cudd_helpers.cpp:118-167", "src/approximation_operators/approximation_operators.cpp:36-62", "src/approximation_operators/approximation_operators.cpp:105-198"]}
{"id": "C172", "title": "The child that the four density operators replace, with doubles and any number of variables", "statement": "With IEEE doubles including gradual underflow, every density that count_minterms stores for a node of a BDD over n variables is finite, between 0 and 1, and differs from the exact density by at most 2n relative roundings and 3n * 2^-1075 absolute. So at every node of the level range, subset_light_child, subset_heavy_child, superset_light_child and superset_heavy_child replace the child of smaller (larger) density, except that children whose densities differ by no more than this error may be confused.", "quantifier": "all managers, BDDs over any number n of variables, level ranges", "why_tests_cant": "Concerns underflow below 2^-1022, the accumulated rounding errors and all BDDs", "anchors": ["src/util/cudd_helpers.cpp:74-116", "src/approximation_operators/approximation_operators.cpp:36-62", "src/approximation_operators/approximation_operators.cpp:105-198"]}
{"id": "C173", "title": "The output of the programs testing and improved_sampling", "statement": "testing prints, for every pointer text, exactly the dot text of the running example rounded up at level 1 followed by that of the example itself, and writes the same texts to those of the files rounded.dot and running.dot that can be opened. improved_sampling throws if c880.aig is missing; otherwise, if the circuit has one output or the rounding changes at least two outputs, it prints the number of outputs, the share of inputs at which the rounded value is smaller, and 200 rows for 100, 200, ..., 20000 samples, each with the share of wrong inputs among the drawn ones and an estimate between the largest loss of an output and min(1, sum of the losses), all numbers with six digits; in all other cases it is undefined.", "quantifier": "all texts for pointers, all files, managers, circuits, results of rand()", "why_tests_cant": "The addresses and the results of rand() are arbitrary, the undefined case depends on which outputs the rounding changes", "anchors": ["experiments/testing.cpp:11-31", "experiments/misc/improved_sampling.cpp:10-41", "src/util/dump_dot.cpp:44-363"]}
{"id": "C174", "title": "The value of wcre_search is determined by the smallest and the largest relative error", "statement": "If the largest relative error is a power of two (>= 1), wcre_search returns it. Otherwise it halves the interval between the powers of two 2^k and 2^(k+1) around it; a middle is returned if it is the largest error, or if it lies above all errors while the smallest error is not above the lower end. If some input has an error of at most 2^k, the result is the first of 2^(k+1) - 2^k/2, 2^(k+1) - 2^k/4, ... that is not below the largest error or whose interval is within precision. The overestimation of less than 50% (C43) cannot be improved. The search with doubles has the same value if the number of outputs plus the bits of the precision plus 1 is at most 53.", "quantifier": "all pairs of BDD vectors of width <= 126, both representations, e >= 16, 2^-16 <= precision < 1, all fuels >= 142; exact arithmetic (C132 relates it to doubles)", "why_tests_cant": "The unit tests use constant functions, where no input is masked; the result for all pairs of smallest and largest errors is not enumerable.", "anchors": ["src/error_metrics/worst_case_relative_error.cpp:wcre_search"]}
{"id": "C175", "title": "Range of doubles in error_rate and average_bit_flip_error", "statement": "With IEEE 754 doubles error_rate is finite and within 2n+1 roundings of the exact value for functions of n <= 1022 variables (exact up to 53). average_bit_flip_error is finite and within 2n+m+1 roundings for m outputs as long as m times 2^s is below 2^1024, where s is the largest number of variables of one output. The limit is sharp: if all m bits are always wrong the result is m below the limit and infinity from the limit on; if one output has 1024 or more variables the result is 0 or NaN, whatever Cudd_CountMinterm returns.", "quantifier": "all functions, all variable orders; Cudd_CountMinterm rounds each of its operations (first part), or counts the constant 1 exactly (second part), or is arbitrary (third part)", "why_tests_cant": "the failures need more than a thousand variables; the bound has to hold for all functions below the limit", "anchors": ["src/error_metrics/error_rate.cpp:10-29", "src/error_metrics/average_bit_flip_error.cpp:8-31"]}
{"id": "C176", "title": "Sizes of the approximate adders", "statement": "In index order the shared diagram of every approximate adder (almost_correct_adder_1, almost_correct_adder_2, gracefully_degrading_adder, generic_accuracy_reconfigurable_adder) has exactly 1 + sum over the bits k < N of (2 if the carry into k looks at no position, else 3*d_k + 1 for d_k positions looked at) + (3*d_N - 2 for the carry output, 0 if d_N = 0) nodes, terminal included. Therefore no approximate adder is larger than the exact one, and one that is wrong for some operands is smaller. Closed forms: almost_correct_adder_1 with Q >= 2 has (2N + 6N(Q-1) + 3(Q-1) - 3(Q-1)^2)/2 nodes, with Q = 1 it has 2N + 1; gracefully_degrading_adder with p blocks of d >= 2 bits (N = p*d) and no lookback has (p(3d^2 - d + 2) + 6d - 2)/2.", "quantifier": "all widths, all parameters for which the adder is built, all managers in index order", "why_tests_cant": "A test counts the nodes of one adder; the count depends on the sharing between all outputs for every pattern of restarts.", "anchors": ["src/example_bdds/approximate_adders.cpp:almost_correct_adder_1", "src/example_bdds/approximate_adders.cpp:almost_correct_adder_2", "src/example_bdds/approximate_adders.cpp:gracefully_degrading_adder", "src/example_bdds/approximate_adders.cpp:generic_accuracy_reconfigurable_adder"]}
{"id": "C177", "title": "In other variable orders the factor is three, except for round", "statement": "In every variable order round returns a BDD with at most twice as many nodes as its argument. For each of the seven other operators and every factor below 3 there is a variable order, a BDD and a level such that the result has more than that factor times as many nodes, so the factor 3 of C99 cannot be lowered without assuming the order of the indices.", "quantifier": "all managers, functions and levels for round; all rational factors below 3 and all seven other operators for the lower bound", "why_tests_cant": "That no factor below 3 works is a statement about arbitrarily large BDDs in orders where the level argument is compared with indices which are not levels; the bound for round is over all orders.", "anchors": ["src/approximation_operators/approximation_operators.cpp:remove_children_rec", "src/approximation_operators/approximation_operators.cpp:round_best_rec", "src/approximation_operators/approximation_operators.cpp:round_rec"]}
{"id": "C178", "title": "Longer sub adders: squared and relative errors", "statement": "Making the sub adders of ACA1 longer never increases the mean squared error, the average relative error, or the lower and upper bound of acre_bounds; worst_case_bit_flip_error drops by exactly the additional length; the worst case relative error is 1 for every length.", "quantifier": "all bit widths, all pairs of sub adder lengths, all variable orders (index order and at most 31 bits for the ADD variants, at most 84 bits for acre_bounds)", "why_tests_cant": "The comparison ranges over all bit widths and lengths and averages over all operand pairs.", "anchors": ["src/example_bdds/approximate_adders.cpp:almost_correct_adder_1", "src/error_metrics/average_case_error.cpp:mean_squared_error_add", "src/error_metrics/average_case_relative_error.cpp"]}
{"id": "C179", "title": "More lookback never makes an approximate adder worse", "statement": "Increasing the lookback of the gracefully degrading adder, or that of GeAr by a multiple of the bits each sub adder contributes, keeps exact sums exact and never increases error rate, bit flip errors, worst case, average case or squared error, the largest or average relative error, or the bounds of acre_bounds.", "quantifier": "all bit widths and parameters, all variable orders (index order and at most 31 bits for the ADD variants, at most 84 bits for average_case_error and acre_bounds, 255 for worst_case_error)", "why_tests_cant": "The comparison ranges over all bit widths and parameters and averages over all operand pairs.", "anchors": ["src/example_bdds/approximate_adders.cpp:gracefully_degrading_adder", "src/example_bdds/approximate_adders.cpp:generic_accuracy_reconfigurable_adder"]}
{"id": "C180", "title": "How often random_satisfying_input returns a wrong input", "statement": "If rand() is uniform and independent on 0..RAND_MAX, random_satisfying_input returns an input that does not satisfy the function with probability at most 1 - (RAND_MAX / (RAND_MAX + 1))^n for n variables. For a product of literals the probability is exactly 1 - (RAND_MAX / (RAND_MAX + 1))^k with k the number of negative literals, so the bound is attained by the product of all negated variables.", "quantifier": "all satisfiable functions in index order, all products of literals, all positive RAND_MAX, all numbers of variables", "why_tests_cant": "A wrong input appears about once in RAND_MAX / k calls, which a test does not see; and a share observed for some functions does not give the bound for all.", "anchors": ["src/util/cudd_helpers.cpp:169-213", "src/util/cudd_helpers.hpp:59-71"]}
{"id": "C181", "title": "How large the error rate of the approximate adders is", "statement": "With a lookback of P positions, every restart of the carry chain that can forget a carry adds at most 1/2^(P+1) to error_rate, and the first one, at position k, alone gives 1/2^(P+1) - 1/2^(k+2); if it is the only one this is the error rate. For gracefully_degrading_adder without prediction bits and blocks of d >= 2 bits, and for generic_accuracy_reconfigurable_adder without previous bits and d resultant bits, error_rate is 1 - ((2^d + 1)/2^(d+1))^((N-1)/d).", "quantifier": "all four adder constructions, all parameters for which they exist, all widths, all variable orders; the closed form for all widths and block lengths", "why_tests_cant": "A test compares the rate for a few widths; the bounds and the closed form hold for all of them.", "anchors": ["src/example_bdds/approximate_adders.cpp:151-297", "src/error_metrics/error_rate.cpp:error_rate"]}
{"id": "C182", "title": "The vector operations obey the laws of arithmetic as identical diagrams", "statement": "For vectors of equal length bdd_add commutes and associates, bdd_subtract undoes bdd_add and bdd_add undoes bdd_subtract, f - f is the zero vector, f + 0 = f and f + f = f << 1; shifts in the same direction compose; dividing the product of bdd_multiply_constant by the constant gives the vector back, extended by zeros. All of these are equalities of the returned BDDs, not only of their values.", "quantifier": "all vectors of all lengths over all variable orders, all shift amounts of equal sign, all constants 0 < c < 2^256, every ceil(log2) that is off by at most one", "why_tests_cant": "A test compares a few vectors; the laws hold for all vectors, lengths and orders.", "anchors": ["src/util/cudd_helpers.cpp:bdd_add", "src/util/cudd_helpers.cpp:bdd_subtract", "src/util/cudd_helpers.cpp:bdd_shift", "src/util/cudd_helpers.cpp:bdd_divide", "src/util/cudd_helpers.cpp:bdd_multiply_constant"]}
{"id": "C183", "title": "Exchanging the arguments of a metric gives the identical result", "statement": "bdd_absolute_difference returns the same BDDs when its arguments are exchanged, in both number representations; so worst_case_error, approximate_worst_case_error, average_case_error and mean_squared_error return the same result or the same failure, also for vectors so long that the 256 bit arithmetic wraps and for two's complement differences that overflow. The same holds for the bit flip errors, and for error_rate and average_bit_flip_error computed with IEEE doubles whatever Cudd_CountMinterm returns. error_rate needs vectors of equal length for it.", "quantifier": "all pairs of vectors, all variable orders, both number representations, all counting functions", "why_tests_cant": "Equality of rounded, wrapped or failing results over all vectors is out of reach of examples.", "anchors": ["src/util/cudd_helpers.cpp:bdd_absolute_difference", "src/error_metrics/worst_case_error.cpp", "src/error_metrics/average_case_error.cpp", "src/error_metrics/error_rate.cpp:error_rate", "src/error_metrics/average_bit_flip_error.cpp", "src/error_metrics/worst_case_bit_flip_error.cpp"]}
{"id": "C184", "title": "The two's complement errors are still a metric", "statement": "worst_case_error and average_case_error of two's complement vectors can be too small because the subtraction overflows (C05, C30). For vectors of equal length they still satisfy the triangle inequality, are 0 exactly if the two vectors consist of the same BDDs, and are at most 2^(w-1) for width w. The triangle inequality fails for vectors of different lengths.", "quantifier": "all triples of non-empty vectors of equal length w <= 256 (average: w + number of variables < 256), all variable orders", "why_tests_cant": "The triangle inequality ranges over all triples of functions.", "anchors": ["src/error_metrics/worst_case_error.cpp:worst_case_error", "src/error_metrics/average_case_error.cpp:average_case_error", "src/util/cudd_helpers.cpp:bdd_absolute_difference"]}
{"id": "C185", "title": "Complementing or reordering the outputs of both functions", "statement": "Complementing any set of outputs in both functions leaves the results of error_rate and of the bit flip errors identical, also with doubles and whatever Cudd_CountMinterm returns; reordering the outputs of both in the same way leaves error_rate identical. Complementing all outputs of both leaves worst_case_error, average_case_error and mean_squared_error identical in both number representations; complementing only some can change them.", "quantifier": "all pairs of vectors of equal length, all sets of outputs, all permutations, all variable orders, all counting functions", "why_tests_cant": "The claim ranges over all functions, all sets of outputs and all permutations.", "anchors": ["src/error_metrics/error_rate.cpp:error_rate", "src/error_metrics/average_bit_flip_error.cpp", "src/error_metrics/worst_case_bit_flip_error.cpp", "src/error_metrics/worst_case_error.cpp:worst_case_error", "src/error_metrics/average_case_error.cpp"]}
{"id": "C186", "title": "Signed errors without overflow", "statement": "The two's complement variants of the metrics are too small when the subtraction overflows (C05, C30). Complementing the sign bit of both functions and calling worst_case_error or average_case_error with BaseTwo gives the exact maximal and mean error of the signed numbers; approximate_worst_case_error called this way never underestimates the signed error, which the two's complement variant does (C34), and overestimates it by at most 2^(w+1-n) - 2 for width w and n bits.", "quantifier": "all pairs of two's complement vectors of equal length up to 256 bits (average: width + number of variables <= 255), all variable orders", "why_tests_cant": "A test can only compare a few functions.", "anchors": ["src/error_metrics/worst_case_error.cpp:worst_case_error", "src/error_metrics/average_case_error.cpp:average_case_error", "src/util/cudd_helpers.cpp:bdd_absolute_difference", "src/error_metrics/worst_case_error.cpp:approximate_worst_case_error"]}
{"id": "C187", "title": "Metrics of functions built from a low and a high part", "statement": "If the outputs of both functions are split into the k low ones and the rest, average_bit_flip_error is the sum of the two parts; error_rate and worst_case_bit_flip_error lie between the larger part and the sum; worst_case_error and average_case_error (unsigned) lie between |2^k*high - low| and 2^k*high + low. In particular equal low parts scale the error by 2^k and equal high parts do not change it.", "quantifier": "all pairs of vectors and all ways of splitting them, all variable orders; worst_case_error up to 256 bits, average_case_error up to width + variables <= 255", "why_tests_cant": "The claim ranges over all functions and all splits.", "anchors": ["src/error_metrics/error_rate.cpp:error_rate", "src/error_metrics/average_bit_flip_error.cpp", "src/error_metrics/worst_case_bit_flip_error.cpp", "src/error_metrics/worst_case_error.cpp:worst_case_error", "src/error_metrics/average_case_error.cpp:average_case_error"]}
{"id": "C188", "title": "Exactly when the ADD variants of the metrics fail", "statement": "For any number of variables: worst_case_error_add, average_case_error_add and mean_squared_error_add are undefined exactly if some edge of the ADD of the differences passes over 64 or more levels (the shift in add_terminal_values), and never fail otherwise; wcre_add and acre_add likewise with the ADD of the relative differences, and error_rate_add with that of the differing bits. average_bit_flip_error_add and worst_case_bit_flip_error_add are undefined exactly if there is such an edge or the functions differ in an output beyond the first 64, because the double is converted to the unsigned long long of __builtin_popcountll. With at most 64 variables only the second case remains. worst_case_bit_flip_error fails its assertion exactly if the lengths differ, and is undefined exactly if they agree and 2^32 or more outputs differ at once. On IEEE doubles, with whatever counts CUDD returns, error_rate is undefined exactly if the second vector is shorter, and the assertion of average_bit_flip_error fails exactly if the lengths differ.", "quantifier": "all managers whose order is that of the indices, all vectors of functions of any length and any number of variables, both number representations", "why_tests_cant": "the failures need more than 64 outputs or variables, and undefined behaviour often goes unnoticed", "anchors": ["src/error_metrics/worst_case_error.cpp:68-82", "src/error_metrics/average_case_error.cpp:87-130", "src/error_metrics/worst_case_relative_error.cpp:12-30", "src/error_metrics/average_case_relative_error.cpp:55-82", "src/error_metrics/worst_case_bit_flip_error.cpp:7-38", "src/error_metrics/average_bit_flip_error.cpp:7-53", "src/error_metrics/error_rate.cpp:143-170", "src/util/cudd_helpers.cpp:225-330"]}
{"id": "C189", "title": "round_bdd and round_best on doubles are optimal up to the rounding", "statement": "With IEEE doubles, round_bdd returns a function of the variables below the level that is wrong on at most n * 2^-49 of all inputs more than the best function of these variables (n variables, n <= 2^50; a slightly smaller bound holds for every n, also where densities fall below the range of double). The optimality of C49 itself is lost: the density 1/2 + 2^-60 is rounded to 1/2, and the function is replaced by the worse constant. round_best at one level, with any variable order, is wrong on at most twice as many inputs as the best replacement of one child (the factor of C50, due to ties) plus (n+1) * 2^-49 of all inputs.", "quantifier": "all functions of any number n of variables and all levels (round_bdd: variable order that of the indices); compared with every function of the variables below the level, or with every choice of one child and one constant at each node of the level", "why_tests_cant": "a density that close to 1/2 needs more than 52 variables, and the best approximation is not known to a test", "anchors": ["src/approximation_operators/approximation_operators.cpp:64-81", "src/approximation_operators/approximation_operators.cpp:200-373", "src/util/cudd_helpers.cpp:count_minterms"]}
{"id": "C190", "title": "Child replacement on doubles keeps half per level up to the rounding", "statement": "With IEEE doubles, subset_light_child on one level keeps at least half of the satisfying assignments, and superset_heavy_child at least half of the falsifying ones, up to n * 2^-50 of all inputs (n variables, n <= 2^50, any variable order). On a range of k levels (variable order that of the indices) the factor is 2^k and the additional term k * n * 2^-50. C48 itself, without the additional term, is false on doubles: two children whose densities differ by 2^-59 count as equally heavy, and the heavier one is lost.", "quantifier": "all functions of n <= 2^50 variables, all levels and all level ranges", "why_tests_cant": "children that close need more than 52 variables, and the densities are not known to a test that computes them with doubles", "anchors": ["src/approximation_operators/approximation_operators.cpp:36-48", "src/approximation_operators/approximation_operators.cpp:105-198", "src/util/cudd_helpers.cpp:count_minterms"]}
{"id": "C191", "title": "Child replacement loses exactly half of parity per level", "statement": "Applied to the parity of n variables on the levels level_start..level_end with level_end + 1 < n, each of subset_light_child, subset_heavy_child and round_down keeps exactly the share 2^-k of the satisfying assignments, and each of superset_light_child, superset_heavy_child and round_up exactly the share 2^-k of the falsifying ones, k being the number of levels. The bounds of C48 are therefore attained for every k. The four light and heavy operators computed on doubles lose exactly the same.", "quantifier": "all numbers of variables, all level ranges above the last variable, all six operators, index order", "why_tests_cant": "a test tries a few sizes and ranges; the claim is for all of them", "anchors": ["src/approximation_operators/approximation_operators.cpp:36-62", "src/approximation_operators/approximation_operators.cpp:83-198", "src/example_bdds/simple.cpp:32-42"]}
{"id": "C192", "title": "Child replacement changes the average value by a bounded share", "statement": "If subset_light_child is applied to every output of a vector on k levels, the average-case error of the result is at most (2^k - 1) / 2^k of the average value of the vector; for superset_heavy_child it is at most (2^k - 1) / 2^k of the average distance of the value to the largest value 2^m - 1 of m outputs. The average number of flipped bits, and with it the error rate, is at most the same share of the sum of the densities (of the densities of the complements for superset_heavy_child). Parity of n variables attains the first bound for every range of levels that ends above its last variable.", "quantifier": "all vectors with m outputs and n variables (m + n < 256 for the average-case error), all level ranges, index order", "why_tests_cant": "the bound holds for all functions, and neither the average value nor the error is known to a test without the metric under test", "anchors": ["src/approximation_operators/approximation_operators.cpp:36-48", "src/approximation_operators/approximation_operators.cpp:105-198", "src/error_metrics/average_case_error.cpp:10-33", "src/error_metrics/average_case_error.cpp:65-74", "src/error_metrics/average_bit_flip_error.cpp:average_bit_flip_error", "src/error_metrics/error_rate.cpp:error_rate"]}
{"id": "C193", "title": "round on every output minimises the flipped bits only", "statement": "If round_bdd is applied to every output of a vector, no vector of functions of the variables below the level has a smaller average_bit_flip_error, so round is the best approximation of this kind in every metric.", "quantifier": "all vectors in index order, all levels, all competing vectors of functions of the variables below the level", "why_tests_cant": "a test cannot enumerate the competing vectors", "anchors": ["src/approximation_operators/approximation_operators.cpp:64-70", "src/approximation_operators/approximation_operators.cpp:200-262", "src/error_metrics/average_bit_flip_error.cpp:average_bit_flip_error"]}
{"id": "C194", "title": "round_best on every output flips at most twice the fewest bits", "statement": "If round_best is applied at one level to every output of a vector, its average_bit_flip_error is at most twice that of any vector obtained by replacing one child of each node of the level by a constant; the factor two is attained for every number of outputs.", "quantifier": "all vectors, all variable orders, all levels, all competing choices of child and constant per node and output", "why_tests_cant": "a test cannot enumerate the choices per node of all vectors", "anchors": ["src/approximation_operators/approximation_operators.cpp:72-81", "src/approximation_operators/approximation_operators.cpp:264-373", "src/error_metrics/average_bit_flip_error.cpp:average_bit_flip_error"]}
{"id": "C195", "title": "round on every output is near the best error rate and average-case error", "statement": "If round_bdd is applied to every output of a vector with m outputs, its error rate is at most m times and its average-case error at most 2^m - 1 times that of any vector of functions of the variables below the level.", "quantifier": "all vectors in index order, all levels, all competing vectors of functions of the variables below the level; for the average-case error fewer than 256 outputs and variables together", "why_tests_cant": "a test cannot enumerate the competing vectors", "anchors": ["src/approximation_operators/approximation_operators.cpp:64-70", "src/approximation_operators/approximation_operators.cpp:200-262", "src/error_metrics/error_rate.cpp:error_rate", "src/error_metrics/average_case_error.cpp:average_case_error"]}
