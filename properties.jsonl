{"id": "C01", "title": "Prime sum is exact (64-bit and 128-bit dispatch, Deleglise-Rivat)", "statement": "For every integer x in the accepted range, pi(x) (the default algorithm behind the command line and the library call) returns exactly the sum of all primes <= x, and 0 when x < 2.", "quantifier": "every x with x < 2^63 (128-bit result) and every x >= 2^63 up to the accepted maximum (256-bit result); every admissible tuning factor alpha, thread count, schedule and timing", "why_tests_cant": "Infinitely many (or astronomically many) inputs; the reference value cannot be computed independently for large x, and the repo's own test only samples x below 50000 plus a few powers of ten.", "anchors": ["src/primesum.cpp: pi, pi_deleglise_rivat", "src/deleglise-rivat/pi_deleglise_rivat_parallel1.cpp: pi_deleglise_rivat_parallel1"]}
{"id": "C02", "title": "LMO implementations are exact", "statement": "Each of the alternative algorithms selectable with --lmo, --lmo1 .. --lmo5 and --lmo-parallel1 returns exactly the sum of primes <= x whenever that sum fits the function's return type.", "quantifier": "every x, every admissible alpha, every thread count and schedule for the parallel one", "why_tests_cant": "Infinitely many (or astronomically many) inputs; the reference value cannot be computed independently for large x, and the repo's own test only samples x below 50000 plus a few powers of ten.", "anchors": ["src/lmo/pi_lmo1.cpp: pi_lmo1", "src/lmo/pi_lmo2.cpp: pi_lmo2", "src/lmo/pi_lmo3.cpp: pi_lmo3", "src/lmo/pi_lmo4.cpp: pi_lmo4", "src/lmo/pi_lmo5.cpp: pi_lmo5", "src/lmo/pi_lmo_parallel1.cpp: pi_lmo_parallel1"]}
{"id": "C03", "title": "Result does not depend on the number of threads or the schedule", "statement": "For a fixed x the value returned does not depend on the number of threads requested, on how OpenMP assigns iterations to threads, nor on the order in which the partial results are combined.", "quantifier": "every x, every thread count >= 1, every assignment of iterations to threads and every combination order of the reductions", "why_tests_cant": "The number of schedules is exponential and a test run exercises one of them; races and reduction orders are not reproducible.", "anchors": ["src/P2.cpp: P2_OpenMP_master", "src/S1.cpp: S1_OpenMP_master", "src/deleglise-rivat/S2_hard.cpp: S2_hard_OpenMP_master", "src/deleglise-rivat/S2_trivial.cpp: S2_trivial", "src/deleglise-rivat/S2_easy.cpp: S2_easy_OpenMP", "src/phi.cpp: phi"]}
{"id": "C04", "title": "Result does not depend on timing measurements", "statement": "The load balancers adapt segment sizes, segments per thread, thread distances and thread counts to measured run times; whatever the clock returns (including zero, negative or not-a-number durations) the returned sum is the same and the computation terminates.", "quantifier": "every x and every sequence of measured durations", "why_tests_cant": "Timings are not controllable or enumerable in a test.", "anchors": ["src/S2LoadBalancer.cpp: S2LoadBalancer::update", "src/P2.cpp: balanceLoad", "src/deleglise-rivat/S2_hard.cpp: S2_hard_OpenMP_master", "src/lmo/pi_lmo_parallel1.cpp: S2"]}
{"id": "C05", "title": "Result does not depend on the tuning factor alpha", "statement": "For a fixed x, every admissible value of the tuning factor alpha (command line --alpha or the built-in formula) yields the same sum.", "quantifier": "every x >= 2 and every y with x^(1/3) <= y <= x^(1/3)*x^(1/6), i.e. every value y the clamped alpha can produce", "why_tests_cant": "alpha is a double; y ranges over an interval that grows with x.", "anchors": ["src/primesum.cpp: set_alpha, get_alpha, get_alpha_deleglise_rivat, get_alpha_lmo", "include/imath.hpp: in_between"]}
{"id": "C06", "title": "Meissel-Lehmer decomposition used by every algorithm", "statement": "The quantity phi(x, a) - 1 - P2 + (sum of primes <= y) equals the sum of primes <= x whenever y >= floor(x^(1/3)) and a is the number of primes <= y.", "quantifier": "every x >= 1 and y with (y+1)^3 > x and y <= x", "why_tests_cant": "Infinitely many (or astronomically many) inputs; the reference value cannot be computed independently for large x, and the repo's own test only samples x below 50000 plus a few powers of ten.", "anchors": ["src/lmo/pi_lmo1.cpp: pi_lmo1", "src/deleglise-rivat/pi_deleglise_rivat_parallel1.cpp: pi_deleglise_rivat_parallel1", "src/pi_legendre.cpp: pi_legendre"]}
{"id": "C07", "title": "P2 is the sum of all semiprimes with both factors above y", "statement": "P2(x, y, threads) equals the sum of all n = p*q <= x with p, q prime and y < p <= q.", "quantifier": "every x, every y >= 1 with y <= sqrt(x) or above, every thread count, every evolution of the per-thread interval length", "why_tests_cant": "The thread interval evolves with measured time, so the partition of [2, x/y) is unbounded; the running prime sum is started with an offset that only cancels globally.", "anchors": ["src/P2.cpp: P2, P2_OpenMP_master, P2_OpenMP_thread, balanceLoad"]}
{"id": "C08", "title": "S1 is the sum over ordinary leaves", "statement": "S1(x, y, c, threads) equals the sum over all square-free n <= y coprime to the first c primes of mu(n)*n*phi_sum(x/n, c).", "quantifier": "every x, y, c, thread count and schedule", "why_tests_cant": "Recursion enumerates an unbounded set of leaves, parallelised with a reduction.", "anchors": ["src/S1.cpp: S1, S1_OpenMP_thread, S1_OpenMP_master"]}
{"id": "C09", "title": "Special leaves: trivial part", "statement": "S2_trivial(x, y, z, c, threads) equals the sum over all special leaves n = p*q, p < q <= y primes beyond the first c, whose remaining quotient x/(p*q) is smaller than p.", "quantifier": "every x, y, z = x/y, c, thread count", "why_tests_cant": "Unbounded input range and schedules.", "anchors": ["src/deleglise-rivat/S2_trivial.cpp: S2_trivial, S2_trivial_OpenMP"]}
{"id": "C10", "title": "Special leaves: easy part", "statement": "S2_easy(x, y, z, c, threads) equals the sum over the clustered and sparse easy special leaves; every table lookup stays inside the prime table and the clustered loop makes progress.", "quantifier": "every x, y, z = x/y, c, thread count and schedule", "why_tests_cant": "Unbounded input range; an out-of-range read or an endless loop would only show for particular x, y.", "anchors": ["src/deleglise-rivat/S2_easy.cpp: S2_easy_OpenMP", "src/deleglise-rivat/S2_easy_libdivide.cpp: S2_easy_OpenMP"]}
{"id": "C11", "title": "Special leaves: hard part", "statement": "S2_hard(x, y, z, c, threads) equals the sum over all remaining special leaves, where phi(x/n, b-1) is obtained from a segmented sieve, for every segmentation of [1, z].", "quantifier": "every x, y, z = x/y, c; every sequence of segment sizes, segments per thread and thread counts the load balancer may choose", "why_tests_cant": "Segmentations depend on time measurements; correctness relies on monotonicity arguments for skipped primes.", "anchors": ["src/deleglise-rivat/S2_hard.cpp: S2_hard_OpenMP_thread, S2_hard_OpenMP_master"]}
{"id": "C12", "title": "The special leaves are partitioned without gap or overlap", "statement": "Trivial, easy and hard special leaves together are exactly the special leaves of phi_sum(x, pi(y)), each counted once.", "quantifier": "every x >= 1, y with x^(1/3) <= y <= sqrt(x), c <= 6", "why_tests_cant": "Boundary cases (perfect powers, y equal to a prime, x/(p*q) on a boundary) are a measure-zero set of an unbounded input space.", "anchors": ["src/deleglise-rivat/S2_trivial.cpp", "src/deleglise-rivat/S2_easy.cpp", "src/deleglise-rivat/S2_hard.cpp"]}
{"id": "C13", "title": "phi(x, a) counts integers coprime to the first a primes", "statement": "phi(x, a, threads) equals the number of integers in [1, x] divisible by none of the first a primes; caching of intermediate values never changes a result, for any thread schedule.", "quantifier": "every x, a, thread count and schedule (hence every history of cache contents)", "why_tests_cant": "The cache makes results depend on call history; the number of histories is exponential.", "anchors": ["src/phi.cpp: phi, PhiCache", "src/PhiTiny.cpp: PhiTiny", "include/PhiTiny.hpp: PhiTiny::phi"]}
{"id": "C14", "title": "Prime counting by Legendre's formula", "statement": "pi_legendre(x, threads) equals the number of primes <= x.", "quantifier": "every x (64-bit), every thread count", "why_tests_cant": "Infinitely many (or astronomically many) inputs; the reference value cannot be computed independently for large x, and the repo's own test only samples x below 50000 plus a few powers of ten.", "anchors": ["src/pi_legendre.cpp: pi_legendre"]}
{"id": "C15", "title": "phi_sum sums the integers coprime to the first a primes", "statement": "phi_sum(x, a) equals the sum of all integers in [1, x] divisible by none of the first a primes, for both the 128-bit and the 256-bit result types.", "quantifier": "every x accepted and every a", "why_tests_cant": "Infinitely many (or astronomically many) inputs; the reference value cannot be computed independently for large x, and the repo's own test only samples x below 50000 plus a few powers of ten. The 256-bit variant multiplies negative intermediate values, which hits rare value windows of the big-integer multiplication.", "anchors": ["src/phi_sum.cpp: phi_sum, phi_sum128, phi_sum256"]}
{"id": "C16", "title": "256-bit addition, subtraction, negation are arithmetic modulo 2^256", "statement": "For all 256-bit integers a and b, a+b, a-b, -a, ++a, --a, ~a are the two's-complement results modulo 2^256.", "quantifier": "all 2^512 operand pairs", "why_tests_cant": "2^512 operand pairs.", "anchors": ["include/int256_t.hpp: int256_t::operator+, operator-, operator++, operator--, operator~"]}
{"id": "C17", "title": "256-bit multiplication is multiplication modulo 2^256", "statement": "For all 256-bit integers a and b, a*b is the two's-complement product modulo 2^256.", "quantifier": "all 2^512 operand pairs", "why_tests_cant": "2^512 operand pairs; the code has a fast path for operands with a small low half.", "anchors": ["include/int256_t.hpp: int256_t::operator*"]}
{"id": "C18", "title": "256-bit division and remainder truncate toward zero", "statement": "For all 256-bit integers a and b with b != 0, a/b and a%b are the quotient truncated toward zero and the matching remainder (sign of the dividend); division by zero aborts.", "quantifier": "all operand pairs", "why_tests_cant": "2^512 operand pairs, long division loop.", "anchors": ["include/int256_t.hpp: int256_t::operator/, operator%, div256, udiv256"]}
{"id": "C19", "title": "256-bit comparisons are the signed order", "statement": "==, !=, <, <=, >, >= on 256-bit integers agree with the order of the integers they represent.", "quantifier": "all operand pairs", "why_tests_cant": "2^512 operand pairs.", "anchors": ["include/int256_t.hpp: int256_t::operator==, operator<, operator<=, operator>, operator>="]}
{"id": "C20", "title": "256-bit shifts and bitwise operations", "statement": "a << k is multiplication by 2^k modulo 2^256, a >> k is division by 2^k rounding down, and &, |, ^, ~ act bitwise on the two's-complement representation.", "quantifier": "all a, b and all shift counts 0 <= k < 256", "why_tests_cant": "2^256 operands times 256 shift counts.", "anchors": ["include/int256_t.hpp: int256_t::operator<<, operator>>, operator&, operator|, operator^"]}
{"id": "C21", "title": "256-bit integers are printed in decimal", "statement": "Writing a 256-bit integer to a stream produces its canonical decimal representation, which reads back as the same integer.", "quantifier": "all 2^256 values", "why_tests_cant": "2^256 values.", "anchors": ["include/int256_t.hpp: operator<<(std::ostream&, int256_t)"]}
{"id": "C22", "title": "128-bit integers are printed in decimal", "statement": "Writing a signed or unsigned 128-bit integer to a stream produces its canonical decimal representation.", "quantifier": "all 2^128 values of either type", "why_tests_cant": "2^128 values.", "anchors": ["include/int128_t.hpp: operator<<"]}
{"id": "C23", "title": "Conversions between 256-bit and native integers preserve the value", "statement": "Constructing a 256-bit integer from a native signed or unsigned integer preserves its value, and converting back to any native type that can represent the value returns that value.", "quantifier": "all native values of 8 to 128 bits", "why_tests_cant": "2^128 values.", "anchors": ["include/int256_t.hpp: int256_t::int256_t, operator std::int8_t .. operator uint128_t"]}
{"id": "C24", "title": "Arithmetic expressions evaluate with C-like precedence and associativity", "statement": "Evaluating the text of an arithmetic expression (with any whitespace between tokens) yields its mathematical value under the documented precedence and associativity of | & << >> + - * / % ^ ** e and unary operators, with parentheses overriding, whenever no intermediate value overflows.", "quantifier": "every expression tree, every legal placement of whitespace and parentheses", "why_tests_cant": "Infinitely many expressions of unbounded nesting depth.", "anchors": ["include/calculator.hpp: ExpressionParser::eval, parseExpr, parseOp, parseValue, calculate"]}
{"id": "C25", "title": "Malformed expressions are rejected", "statement": "Any input text that is not a well-formed expression raises an error; the evaluator never returns a value after consuming only a prefix of the text, and it always terminates.", "quantifier": "every finite byte string", "why_tests_cant": "Infinitely many strings.", "anchors": ["include/calculator.hpp: ExpressionParser::eval, unexpected, eatSpaces, getCharacter"]}
{"id": "C26", "title": "Division by zero inside an expression is reported", "statement": "Evaluating an expression in which a division or remainder has divisor zero raises an error instead of producing a value or crashing.", "quantifier": "every expression containing such a division", "why_tests_cant": "Infinitely many expressions.", "anchors": ["include/calculator.hpp: ExpressionParser::checkZero, calculate"]}
{"id": "C27", "title": "Overflowing expressions are not silently mis-evaluated", "statement": "If the value of an input expression does not fit the 128-bit integer type the program reports an error rather than computing the prime sum of another number.", "quantifier": "every expression", "why_tests_cant": "Infinitely many expressions; overflow happens only above 2^127.", "anchors": ["include/calculator.hpp: ExpressionParser::calculate, parseDecimal, pow", "src/primesum.cpp: to_int128, pi(const string&)"]}
{"id": "C28", "title": "Integer square root is exact whatever the floating-point estimate", "statement": "isqrt(x) returns floor(sqrt(x)) for every non-negative x of each supported width, for every value the floating-point square root may return, with no overflow in the correction loops.", "quantifier": "every x in [0, 2^63), [0, 2^64), [0, 2^127), [0, 2^128) and every initial estimate", "why_tests_cant": "2^128 inputs; the estimate depends on the platform's floating point.", "anchors": ["include/isqrt.hpp: isqrt, ct_sqrt, sqrt_helper"]}
{"id": "C29", "title": "Integer N-th root is exact whatever the floating-point estimate", "statement": "iroot<N>(x) returns floor(x^(1/N)) for every non-negative x and N >= 2, for every estimate returned by the floating-point power function for which the correction loop does not overflow.", "quantifier": "every x >= 0, N >= 2, every initial estimate", "why_tests_cant": "2^127 inputs; libm's pow is not correctly rounded.", "anchors": ["include/imath.hpp: iroot, ipow"]}
{"id": "C30", "title": "Small integer helpers", "statement": "ceil_div rounds up, in_between clamps, next_power_of_2/prev_power_of_2 return the neighbouring powers of two, number-of-threads limits lie between 1 and the requested count.", "quantifier": "all arguments in the documented domains", "why_tests_cant": "Unbounded domains.", "anchors": ["include/imath.hpp: ceil_div, in_between, next_power_of_2, prev_power_of_2", "src/primesum.cpp: ideal_num_threads"]}
{"id": "C31", "title": "Division shortcut equals exact division", "statement": "The division helper that narrows operands to half width returns exactly x / y for all x >= 0 and y > 0.", "quantifier": "all x, y of the supported width combinations", "why_tests_cant": "2^192 operand pairs.", "anchors": ["include/fast_div.hpp: fast_div"]}
{"id": "C32", "title": "Multiply-and-shift division equals exact division", "statement": "The branch-free 64-bit divider built for d returns n / d for every 64-bit n.", "quantifier": "every n in [0,2^64) and every d in [2,2^64)", "why_tests_cant": "2^128 pairs.", "anchors": ["include/libdivide.h: libdivide_internal_u64_gen, libdivide_u64_branchfree_gen, libdivide_u64_branchfree_do, libdivide_mullhi_u64", "src/deleglise-rivat/S2_easy_libdivide.cpp"]}
{"id": "C33", "title": "Prime counting table", "statement": "PiTable(n)[i] is the number of primes <= i for every i <= n.", "quantifier": "every n and every i in [0, n]", "why_tests_cant": "Unbounded n; off-by-one errors at multiples of the 64-number words.", "anchors": ["src/PiTable.cpp: PiTable::PiTable", "include/PiTable.hpp: PiTable::operator[]"]}
{"id": "C34", "title": "Compressed Moebius / least-prime-factor table", "statement": "For every n coprime to 210 within the table the stored value determines mu(n) and, when mu(n) != 0, compares with every prime exactly like the least prime factor of n; index conversion maps n to the largest number coprime to 210 not above n; limits above the type's capacity are rejected.", "quantifier": "every table limit y, every index, every thread count used to build it", "why_tests_cant": "Unbounded limit and thread counts; values near the 16-bit limit need y near 2^32.", "anchors": ["include/FactorTable.hpp: FactorTable::FactorTable, get_index, get_number, mu, lpf, max", "src/FactorTable.cpp: AbstractFactorTable"]}
{"id": "C35", "title": "Fenwick tree returns prefix sums after any sequence of updates", "statement": "After initialisation from a sieve and any sequence of removals, the tree query returns the sum of the not-yet-removed numbers up to the queried position.", "quantifier": "every sieve content, every sequence of updates, every query position", "why_tests_cant": "Unbounded operation sequences.", "anchors": ["include/BinaryIndexedTree.hpp: BinaryIndexedTree::init, update, sum"]}
{"id": "C36", "title": "Pre-sieve removes exactly the multiples of the first primes", "statement": "After pre_sieve(c, low) bit k of the bit sieve is set exactly when low+k is odd and divisible by none of the first c primes.", "quantifier": "every odd low >= 1, every c < 10, every sieve size", "why_tests_cant": "Unbounded low and size; depends on periodic word copying.", "anchors": ["src/BitSieve.cpp: BitSieve::pre_sieve, masks, primes", "include/BitSieve.hpp: BitSieve"]}
{"id": "C37", "title": "Summation of sieve bits", "statement": "sum(low, start, stop) equals the sum of all low+k with start <= k <= stop whose bit is set.", "quantifier": "every sieve content, start <= stop inside the sieve, every low the algorithms may use (up to 2^61)", "why_tests_cant": "Unbounded contents; accumulator overflow only occurs for low above about 2^57, i.e. x near 1e31.", "anchors": ["src/BitSieve.cpp: BitSieve::sum, sum_bits", "include/SumBits.hpp: sum_bits"]}
{"id": "C38", "title": "Portable population count", "statement": "popcnt64(x) returns the number of one bits of x.", "quantifier": "all 2^64 values", "why_tests_cant": "2^64 values.", "anchors": ["include/popcnt.hpp: popcnt64"]}
{"id": "C39", "title": "Wheel enumerates exactly the relevant multiples", "statement": "Starting at a segment boundary, the wheel iterator of a prime visits, in increasing order, exactly the multiples p*k inside the segment with k coprime to 2, 3, 5 and 7, across any sequence of segments.", "quantifier": "every prime > 7, every first segment start, every sequence of segment lengths", "why_tests_cant": "Unbounded primes and segment sequences.", "anchors": ["src/Wheel.cpp: Wheel::init, Wheel::next", "include/Wheel.hpp: Wheel"]}
{"id": "C40", "title": "Sieved tables of pi, mu and least prime factor", "statement": "generate_pi(n)[i] = number of primes <= i, generate_moebius(n)[i] = mu(i), generate_lpf(n)[i] = least prime factor of i (largest int for 1), for every 1 <= i <= n.", "quantifier": "every n and every index", "why_tests_cant": "Unbounded n.", "anchors": ["src/generate.cpp: generate_pi, generate_moebius, generate_lpf", "include/generate.hpp: generate_prime_sums"]}
{"id": "C41", "title": "Load balancer: positive power-of-two segments and work tiling", "statement": "For every sequence of measured run times the segment size is always a power of two not smaller than the minimum and the number of segments per thread is at least one; the intervals handed to the threads tile [1, limit) without gap or overlap and the main loop terminates.", "quantifier": "every limit, thread count and every sequence of load-balancer decisions", "why_tests_cant": "Unbounded histories of timing data.", "anchors": ["src/S2LoadBalancer.cpp: S2LoadBalancer", "src/deleglise-rivat/S2_hard.cpp: S2_hard_OpenMP_master"]}
{"id": "C42", "title": "Thread count setting", "statement": "After set_num_threads(n) the reported number of threads lies in [1, number of hardware threads]; without a setting it is at least 1.", "quantifier": "every int n, every history of calls, every hardware thread count", "why_tests_cant": "Unbounded call histories and platform values.", "anchors": ["src/primesum.cpp: set_num_threads, get_num_threads, ideal_num_threads"]}
{"id": "C43", "title": "Command line options", "statement": "An argument is interpreted as option and value as documented: '--name=value', '-xN' and bare numbers/expressions; unknown options and a missing or duplicated number lead to the help text and no computation; the value of an accepted numeric option is the value of its expression.", "quantifier": "every argument vector", "why_tests_cant": "Infinitely many argument vectors.", "anchors": ["src/app/cmdoptions.cpp: parseOptions, makeOption, optionMap"]}
{"id": "C44", "title": "Out-of-range inputs are rejected", "statement": "For x above the supported maximum the computation raises an error; for accepted x the quotient z = x/y used as sieve limit fits a 64-bit integer.", "quantifier": "every x and alpha", "why_tests_cant": "Unbounded range of x and alpha.", "anchors": ["src/primesum.cpp: get_max_x", "src/deleglise-rivat/pi_deleglise_rivat_parallel1.cpp"]}
{"id": "C45", "title": "Narrowing to 64-bit is checked", "statement": "When an algorithm restricted to 64 bits is requested for a number that does not fit, an error is raised instead of computing with a truncated number.", "quantifier": "every 128-bit x", "why_tests_cant": "2^128 values.", "anchors": ["src/app/main.cpp: int64_cast"]}
{"id": "C46", "title": "Status reporting does not influence the result and is well formed", "statement": "Turning status output on or off does not change the sum; the configured precision is clamped to 0..5; concurrent status updates from several threads print increasing percentages without duplicates.", "quantifier": "every interleaving of status updates of any number of threads", "why_tests_cant": "Interleavings cannot be enumerated by running the program.", "anchors": ["src/S2Status.cpp: S2Status::print, is_print", "src/print.cpp: set_print, is_print", "src/primesum.cpp: set_status_precision"]}
{"id": "C47", "title": "Tables are never read out of bounds", "statement": "During a complete computation every read of the prime table, the prime-sum table, the counting table and the factor table is inside the table.", "quantifier": "every admissible x, y and schedule", "why_tests_cant": "An out-of-bounds read of one element shows up only for boundary inputs and usually silently.", "anchors": ["src/deleglise-rivat/S2_easy.cpp", "src/deleglise-rivat/S2_hard.cpp", "src/deleglise-rivat/S2_trivial.cpp", "src/phi.cpp: PhiCache", "src/S1.cpp", "include/PiTable.hpp"]}
{"id": "C48", "title": "Small n-th prime lookup", "statement": "nth_prime(n) returns the n-th prime for every supported n (2 below 1) and raises an error otherwise.", "quantifier": "every 64-bit n", "why_tests_cant": "2^64 values.", "anchors": ["src/nth_prime.cpp: nth_prime"]}
{"id": "C49", "title": "Binary search prime count", "statement": "pi_bsearch(primes, n) returns the number of primes <= n for every table containing all primes up to n.", "quantifier": "every table and every n", "why_tests_cant": "Unbounded tables.", "anchors": ["include/imath.hpp: pi_bsearch"]}
{"id": "C50", "title": "Text interface", "statement": "pi(string) returns the decimal notation, without leading zeros, of the sum of all primes <= the value of the expression; a text that is not an expression never gives a result.", "quantifier": "every text, every value in the accepted range, every thread count, tuning factor, schedule and timing", "why_tests_cant": "Infinitely many expressions and values; the exact sum is not known independently for large x.", "anchors": ["src/primesum.cpp: pi(const string&, int)", "src/primesum.cpp: to_int128", "src/int256_t.hpp: operator<<"]}
{"id": "C51", "title": "What a run of the program writes", "statement": "For every argument list that asks for exactly one number x and an algorithm, the program writes the decimal notation of that algorithm's value at x (the prime sum, or one of the five partial sums) on a line of its own, plus exactly the additional lines asked for, and ends with exit code 0.", "quantifier": "every argument list accepted by the parser, every x in the accepted range, every number of hardware threads, tuning factor, schedule and timing", "why_tests_cant": "Combinations of options and numbers are unbounded and the test program never runs main.", "anchors": ["src/app/main.cpp: main, P2, S1, S2_trivial, S2_easy, S2_hard", "src/print.cpp"]}
{"id": "C52", "title": "Numbers beyond the limit are errors", "statement": "A number above the limit of the chosen algorithm (get_max_x, or 2^63 for the 64-bit algorithms) ends the program with exit code 1 and without any result on the standard output.", "quantifier": "every argument list and every x above the limit", "why_tests_cant": "Unbounded inputs.", "anchors": ["src/app/main.cpp: main, int64_cast", "src/deleglise-rivat/pi_deleglise_rivat_parallel1.cpp"]}
{"id": "C53", "title": "The self test never fails", "statement": "The self test run by --test reports success, never overflows a 64-bit sum and always ends, whatever random numbers, tuning, schedules and timings occur.", "quantifier": "every sequence of values of rand(), every number of threads, schedule and measured time", "why_tests_cant": "The test uses random arguments: a failing argument may not be drawn for years.", "anchors": ["src/test.cpp: test, test_phi_thread_safety, get_rand"]}
{"id": "C54", "title": "Tuning factor and y in floating point", "statement": "For every tuning factor alpha_ a user can set, and for the built-in default, the y computed in double arithmetic by (int64_t) (iroot<3>(x) * alpha) lies between iroot<3>(x) and iroot<3>(x) * iroot<6>(x), the conversion is defined, and the complete computations run on these doubles return the sum of the primes <= x.", "quantifier": "every double alpha_ (finite, infinite, NaN), every finite answer of log and pow, every x of the accepted range, every measured time", "why_tests_cant": "2^64 values of alpha for each x; rounding of the product only matters for x near 2^106; NaN is not tried.", "anchors": ["src/primesum.cpp: get_alpha_lmo, get_alpha_deleglise_rivat", "include/imath.hpp: in_between", "src/deleglise-rivat/pi_deleglise_rivat_parallel1.cpp: pi_deleglise_rivat_parallel1", "src/lmo/pi_lmo2.cpp: pi_lmo2", "src/lmo/pi_lmo5.cpp: pi_lmo5", "src/lmo/pi_lmo_parallel1.cpp: pi_lmo_parallel1"]}
{"id": "C55", "title": "Floating-point part of the load balancer", "statement": "Whatever times are measured and whatever the C library's log returns, the three conversions to int64_t of the load balancer are defined, the size is at most sqrt(z), the number of segments per thread at least 1 and at most doubled, and the intervals handed to the threads tile [1, limit).", "quantifier": "every list of doubles as timings of every round (NaN, infinities, zero and negative ones included), every function log, every z < 2^64, every limit up to 2^60", "why_tests_cant": "Timings depend on the machine; a clock that stands still or steps back, overflow of the sum of squares and division of infinities do not occur in tests.", "anchors": ["src/S2LoadBalancer.cpp: S2LoadBalancer::init, get_pivot, is_increase, is_decrease, update_min_size, update, get_avg, rel_std_dev", "src/primesum.cpp: get_alpha", "src/deleglise-rivat/S2_hard.cpp: few_leaves"]}
{"id": "C56", "title": "Wheels and first multiples of lib/primesieve", "statement": "addSievingPrime stores, for a prime p and a segment, the byte and wheel position of the least multiple p*q > low + 6 with q >= p and q coprime to 30 (210), never wraps around silently, and drops p only if that multiple exceeds stop; one step of the wheel tables goes from one such multiple to the next.", "quantifier": "every prime 7 < p < 2^32, every segment low and stop < 2^64, all 64 (384) wheel positions", "why_tests_cant": "Products near 2^64 wrap around; a wrong table entry shows only for one class of primes in one residue class of quotients.", "anchors": ["lib/primesieve/include/primesieve/Wheel.hpp: Wheel::addSievingPrime, unsetBit, wheelOffsets_", "lib/primesieve/src/LookupTables.cpp: wheel30Init, wheel210Init, wheel30, wheel210", "lib/primesieve/include/primesieve/pmath.hpp: floorPow2, ilog2, isqrt, checkedAdd"]}
{"id": "C57", "title": "Crossing off multiples in lib/primesieve", "statement": "crossOff of EratSmall, EratMedium and EratBig clears exactly the bits of the multiples p*q (q >= p, q coprime to the wheel) of the stored primes p that lie in the segment, never touches memory outside the sieve array, its buckets or the tables, and leaves every stored prime at its first multiple behind the segment.", "quantifier": "every set of stored primes of the class, every sieve array, every segment, every number of segments", "why_tests_cant": "The states of millions of stored primes at packed 23-bit and 9-bit indexes cannot be enumerated; an error is one missing bit.", "anchors": ["lib/primesieve/src/EratSmall.cpp: EratSmall::crossOff", "lib/primesieve/src/EratMedium.cpp: EratMedium::crossOff, crossOff_7 .. crossOff_31", "lib/primesieve/src/EratBig.cpp: EratBig::crossOff, storeSievingPrime, init", "lib/primesieve/include/primesieve/Bucket.hpp: SievingPrime"]}
{"id": "C58", "title": "Pre-sieving in lib/primesieve", "statement": "After PreSieve::init and copy the bit of a number n of the segment is set if and only if n is coprime to 7, 11, ..., maxPrime, for every segment and every array size, smaller or larger than the buffer.", "quantifier": "every start <= stop < 2^64, every segment low that is a multiple of 30, every sieve size", "why_tests_cant": "Alignment of the copied pieces depends on low modulo 510510 and the sieve size.", "anchors": ["lib/primesieve/src/PreSieve.cpp: PreSieve::init, initBuffer, copy"]}
{"id": "C59", "title": "A sieved segment holds exactly its primes", "statement": "If every prime p with maxPreSieve < p <= sqrt(high) has been added before, then after Erat::sieveSegment the set bits of the sieve array are exactly the primes of the segment within [start, stop]; the segments follow each other without gap up to stop, and nothing overflows even for stop = 2^64-1.", "quantifier": "every 7 <= start <= stop < 2^64, every sieve size, every L1 cache size", "why_tests_cant": "2^64 numbers; the last segment near 2^64-1, shrunk segments and the borders between the three sieving classes depend on the machine's cache sizes.", "anchors": ["lib/primesieve/src/Erat.cpp: Erat::init, initSieve, initErat, preSieve, crossOff, sieveSegment, sieveLastSegment", "lib/primesieve/include/primesieve/Erat.hpp: addSievingPrime"]}
{"id": "C60", "title": "First set bit of a sieve word", "statement": "Erat::nextPrime returns low plus the number belonging to the lowest set bit, with the CTZ instruction as with the De Bruijn sequence.", "quantifier": "every nonzero 64-bit word", "why_tests_cant": "2^64 words; only one of the two versions is compiled on a given machine.", "anchors": ["lib/primesieve/include/primesieve/Erat.hpp: Erat::nextPrime", "lib/primesieve/src/LookupTables.cpp: bitValues, bruijnBitValues"]}
{"id": "C61", "title": "The primes delivered by lib/primesieve", "statement": "SievingPrimes delivers the sieving primes in order, and PrimeGenerator, primesieve::iterator (next_prime, prev_prime), store_primes and store_n_primes deliver exactly the primes of their interval in increasing (decreasing) order, as the models of primesum assume.", "quantifier": "every interval below 2^64, every sieve size, every L1 cache size, every cache distance", "why_tests_cant": "Borders between caches, segments and the table of small primes; infinitely many call sequences.", "anchors": ["lib/primesieve/src/SievingPrimes.cpp", "lib/primesieve/src/PrimeGenerator.cpp", "lib/primesieve/src/iterator.cpp", "lib/primesieve/src/IteratorHelper.cpp", "lib/primesieve/include/primesieve/StorePrimes.hpp"]}
