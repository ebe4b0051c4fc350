{
 "claims": [
  {
   "property": "C01",
   "status": "partial",
   "theorems": [
    "C01_partial",
    "C01_window_partial",
    "C01_below_2",
    "C01_refuted",
    "C01_next_partial",
    "C01_exactly_partial"
   ],
   "note": "Exact for every x below 52175271301331128848, every y of a clamped tuning factor, thread count, schedule and timing; right again from 52175271301331128850 up to twice the first (C01_next_partial); below twice the first number exactly 52175271301331128848 and its successor fail (C01_exactly_partial); for x < 2^88, or y <= 2^48 and z <= 2^59 - 2^34 (dr_range) when no intermediate sum of phi_sum hits the failing window of the 256-bit multiplication. At x = 52175271301331128848 and at its successor the result is off by 2^128 for all environments. All accumulators have the widths of the code. Missing: larger y and z (the sums of the words of the sieve overflow from z of about 2^59 on). Floating point enters as oracles (y, limit, root estimates)."
  },
  {
   "property": "C02",
   "status": "partial",
   "theorems": [
    "C02_lmo1_partial",
    "C02_lmo1_window_partial",
    "C02_lmo1_refuted",
    "C02_lmo2_partial",
    "C02_lmo3_partial",
    "C02_lmo4_partial",
    "C02_lmo5_partial",
    "C02_fits_partial",
    "C02_strict_partial",
    "C02_lmo_parallel1_partial",
    "C02_lmo_parallel1_threads_partial",
    "C02_admissible"
   ],
   "note": "All six functions. pi_lmo1 equals the prime sum for x below 52175271301331128848 (and for x < 2^92 outside the window of the 256-bit multiplication error); refuted at 52175271301331128848. pi_lmo2 to pi_lmo5 return the prime sum reduced to int64_t, pi_lmo_parallel1 the prime sum, for every x < 2^63 with y < 2^31 - 1 (all x < 2^62), every schedule, thread count and measured time; every accumulator has its machine type (int64_t, int128_t, int256_t). Up to 2900000000 no int64_t operation of pi_lmo2, pi_lmo3 and pi_lmo5 overflows. Missing: y >= 2^31 - 1, where the tables of int32_t overflow (x >= 2^62 and a large tuning factor); between 2900000000 and the last x whose sum fits int64_t (about 2 * 10^10) overflow of the int64_t accumulators on the way counts as two's complement."
  },
  {
   "property": "C03",
   "status": "partial",
   "theorems": [
    "C03_partial"
   ],
   "note": "Any two environments (schedules, thread counts, measurements, reduction orders, root estimates) with the same y and limit give the same outcome, for x < 2^88, or y <= 2^48 and z <= 2^59 - 2^34 (dr_range). Missing: larger z, where the uint64_t sums of a word of the sieve overflow (C37_sum_refuted), and larger y."
  },
  {
   "property": "C04",
   "status": "partial",
   "theorems": [
    "C04_partial"
   ],
   "note": "Measurements in both load balancers do not change the outcome and the computation terminates, for x < 2^88, or y <= 2^48 and z <= 2^59 - 2^34 (dr_range). The contract on the floating point part of the load balancer is obs_ok. Missing: larger y and z."
  },
  {
   "property": "C05",
   "status": "partial",
   "theorems": [
    "C05_partial",
    "C05_window_partial",
    "C05_next_partial",
    "C05_range"
   ],
   "note": "Any two y in the range of the clamped tuning factor give the same sum, for x < 52175271301331128848, or x < 2^88, or y <= 2^48 and z <= 2^59 - 2^34 (dr_range) with the window condition; also without it from 52175271301331128850 up to 104350542602662257695 (C05_next_partial)."
  },
  {
   "property": "C06",
   "status": "proved",
   "theorems": [
    "C06_meissel",
    "C06_leaves"
   ],
   "note": "number-theoretic identities, for all x, y, c"
  },
  {
   "property": "C07",
   "status": "proved",
   "theorems": [
    "C07_P2"
   ],
   "note": "for every x < 2^122 and z = x/y < 2^62 (the program's documented limit), every thread count, every schedule and every timing; accumulators at machine level: int128_t (overflow is undefined behaviour) for x <= INT64_MAX, int256_t with its own + - * above; narrowing to int64_t modelled"
  },
  {
   "property": "C08",
   "status": "partial",
   "theorems": [
    "C08_S1_64",
    "C08_S1_partial",
    "C08_S1_below_partial"
   ],
   "note": "exact for every 64-bit x (with c >= 2, y <= 3 or x < 2^60, which get_c guarantees); for 128-bit x below 2^124 under window_free (the int256_t product defect of phi_sum, see C15), in particular for every x < 52175271301331128848; accumulators and products at machine level: int128_t (overflow is undefined behaviour) for x <= INT64_MAX, int256_t with its own + - * above"
  },
  {
   "property": "C09",
   "status": "proved",
   "theorems": [
    "C09_trivial",
    "C09_trivial_pq"
   ],
   "note": "Every thread count and schedule; the sums and products of type int256_t are those of the modelled class."
  },
  {
   "property": "C10",
   "status": "proved",
   "theorems": [
    "C10_easy",
    "C10_easy_libdivide"
   ],
   "note": "Both S2_easy.cpp and S2_easy_libdivide.cpp (dividers and quotients modelled down to the 64-bit words), for every schedule, every y with y^2 <= x < (y+1)^3 and every estimate of the cube root. The accumulator and its products have the width of res_t (int128_t up to x = 2^64 - 1, else int256_t) and are shown not to overflow; prime-sum arithmetic (uint64_t / int128_t) is modelled with wrap-around and overflow checks."
  },
  {
   "property": "C11",
   "status": "partial",
   "theorems": [
    "C11_hard_partial",
    "C37_sum_refuted"
   ],
   "note": "S2_hard (threads, Fenwick tree / plain bit-sieve sums, wheel, cross-off, master loop with the load balancer, reduction over the threads, combination of the partial results) equals the specification sum of the hard leaves for every oracle (few_leaves, timings, smallest leaf), thread count and schedule, y*y <= x, z = x/y <= 2^59 - 2^34 (2^57 for c < 4, i.e. y < 7), y <= 2^48. All accumulators have the widths of the code (128 bit for int64_t x, else 256 bit) and none overflows. Missing: z between 2^59 and the accepted 2^62; there the 64-bit word sums of the bit sieve overflow (C37_sum_refuted); y above 2^48."
  },
  {
   "property": "C12",
   "status": "proved",
   "theorems": [
    "C12_partition",
    "C12_classes",
    "C12_phi"
   ],
   "note": "Classes partition the leaves; the sum of the classes is the special-leaf sum and completes the ordinary leaves to phi_sum, for all x, y, c."
  },
  {
   "property": "C13",
   "status": "partial",
   "theorems": [
    "C13_phi_partial",
    "C13_phi_refuted"
   ],
   "note": "proved for every x, schedule and cache history when the a-th prime fits into int32_t; refuted beyond (primes are truncated to int32_t), so the full statement does not hold of the code"
  },
  {
   "property": "C14",
   "status": "partial",
   "theorems": [
    "C14_pi_legendre_partial",
    "C14_pi_legendre_refuted"
   ],
   "note": "proved for all x < 2147483659^2 and refuted at x = 2147483659^2, where the code returns pi(x) + 1"
  },
  {
   "property": "C15",
   "status": "partial",
   "theorems": [
    "C15_phi_sum_64",
    "C15_phi_sum_128_refuted",
    "C15_phi_sum_128_partial",
    "C15_phi_sum_128_window_partial"
   ],
   "note": "64-bit version exact for all inputs without overflow; the 256-bit version is refuted at x = 52175271301331128848 (defect of the 256-bit product), exact below it and wherever no intermediate sum hits the defect window"
  },
  {
   "property": "C16",
   "status": "proved",
   "theorems": [
    "C16_add",
    "C16_sub",
    "C16_neg",
    "C16_inc",
    "C16_dec",
    "C16_not",
    "C16_representation"
   ],
   "note": "For all well-formed 256-bit operands, no bounds."
  },
  {
   "property": "C17",
   "status": "partial",
   "theorems": [
    "C17_mul_partial",
    "C17_mul_refuted",
    "C17_mul_refuted_family"
   ],
   "note": "The full statement is false in the code: the fast path is taken for operands in [-2^128, -2^128+2^64) and the product is then off by a multiple of 2^128. C17_mul_partial covers every other operand pair, the refutation gives the whole family of wrong products."
  },
  {
   "property": "C18",
   "status": "partial",
   "theorems": [
    "C18_div_partial",
    "C18_div_by_zero",
    "C18_div_refuted",
    "C18_div_min_refuted"
   ],
   "note": "The full statement is false in the code when an operand is -2^255: dividing by it gives a wrong quotient, dividing it reaches an out-of-range shift. Every other operand pair is proved."
  },
  {
   "property": "C19",
   "status": "proved",
   "theorems": [
    "C19_comparisons"
   ],
   "note": "All six operators, all operands."
  },
  {
   "property": "C20",
   "status": "partial",
   "theorems": [
    "C20_shl_partial",
    "C20_shr_partial",
    "C20_bitwise",
    "C20_shr_negative_refuted",
    "C20_shift_zero_refuted"
   ],
   "note": "Bitwise operators for all operands; shifts for counts 1..255 (right shift of non-negative values). The remaining part of the statement is refuted: >> is not arithmetic and a shift by 0 is undefined behaviour in the code."
  },
  {
   "property": "C21",
   "status": "partial",
   "theorems": [
    "C21_print_partial",
    "C21_print_min_refuted"
   ],
   "note": "All values except -2^255, which the code prints as -0 (refuted)."
  },
  {
   "property": "C22",
   "status": "partial",
   "theorems": [
    "C22_print_u128",
    "C22_print_s128_partial",
    "C22_print_s128_min_refuted"
   ],
   "note": "All unsigned values; all signed values except -2^127, whose negation overflows (refuted)."
  },
  {
   "property": "C23",
   "status": "partial",
   "theorems": [
    "C23_from_native",
    "C23_to_unsigned",
    "C23_to_signed_partial",
    "C23_to_signed_min_refuted"
   ],
   "note": "All conversions except int32/int64/int128 minimum, which negates the minimum of the type (refuted)."
  },
  {
   "property": "C24",
   "status": "proved",
   "theorems": [
    "C24_eval",
    "C24_every_tree",
    "C24_exact"
   ],
   "note": "eval returns v iff the text has a tree of that value (grammar and value in Spec/ExprSpec.v); unary operators bind tightest and a negative exponent counts as 0, as in the code."
  },
  {
   "property": "C25",
   "status": "proved",
   "theorems": [
    "C25_malformed",
    "C25_terminates",
    "C25_whole_text"
   ],
   "note": "A malformed text never yields a value and evaluation always ends; a malformed text whose readable prefix overflows 128 bits ends in undefined behaviour (see C27) instead of an error."
  },
  {
   "property": "C26",
   "status": "proved",
   "theorems": [
    "C26_division_by_zero",
    "C26_never_a_value"
   ],
   "note": ""
  },
  {
   "property": "C27",
   "status": "partial",
   "theorems": [
    "C27_refuted",
    "C27_exact_partial",
    "C27_overflow_undefined"
   ],
   "note": "The full statement is false for the code: signed 128-bit overflow is undefined behaviour, not an error (2^127). Proved instead: every returned value is exact."
  },
  {
   "property": "C28",
   "status": "proved",
   "theorems": [
    "C28_isqrt"
   ],
   "note": "int32..uint128, every estimate."
  },
  {
   "property": "C29",
   "status": "proved",
   "theorems": [
    "C29_iroot",
    "C29_widths"
   ],
   "note": "Every estimate of at most ceil(digits/N) bits, which is what makes the loops overflow-free; all types and roots in use satisfy the width condition (C29_widths)."
  },
  {
   "property": "C30",
   "status": "proved",
   "theorems": [
    "C30_ceil_div",
    "C30_in_between",
    "C30_next_power_of_2",
    "C30_prev_power_of_2",
    "C30_ideal_num_threads"
   ],
   "note": "Documented domains (results representable)."
  },
  {
   "property": "C31",
   "status": "proved",
   "theorems": [
    "C31_fast_div_same_width",
    "C31_fast_div_narrow_divisor",
    "C31_fast_div_negative"
   ],
   "note": "C31_fast_div_negative shows the precondition x >= 0 is necessary."
  },
  {
   "property": "C32",
   "status": "proved",
   "theorems": [
    "C32_branchfree",
    "C32_branchfull",
    "C32_rejected"
   ],
   "note": "All divisors and dividends, for both implementations of the 128-by-64 division (divq/__uint128_t and the portable Knuth division) and both multiplications. The divq instruction and __uint128_t arithmetic are modelled by exact integer arithmetic."
  },
  {
   "property": "C33",
   "status": "proved",
   "theorems": [
    "C33_pitable"
   ],
   "note": "PiTable(n)[i] = pi(i) for every 0 <= i <= n < 2^62; the primes come from the specification of libprimesieve's iterator"
  },
  {
   "property": "C34",
   "status": "partial",
   "theorems": [
    "C34_factor_table_partial",
    "C34_index",
    "C34_limit",
    "C34_one_refuted"
   ],
   "note": "Proved for both element types, every limit below 2^55, thread count and execution order of the chunks; the int64_t products and sums are checked (the prime following n is bounded by a weak Bertrand postulate proved in Proofs/PrimeGap.v). n = 1 reads mu = -1 (C34_one_refuted, its entry is never written); the comparison is proved for primes p < n with p^2 <= y, which is how callers use it."
  },
  {
   "property": "C35",
   "status": "proved",
   "theorems": [
    "C35_fenwick"
   ],
   "note": ""
  },
  {
   "property": "C36",
   "status": "proved",
   "theorems": [
    "C36_pre_sieve"
   ],
   "note": ""
  },
  {
   "property": "C37",
   "status": "partial",
   "theorems": [
    "C37_sum_partial",
    "C37_sum_refuted",
    "C37_sum_exact_partial",
    "C37_sum_presieved_partial"
   ],
   "note": "Correct for low + 128 * words <= 2^58, for sieves without multiples of 3, 5, 7 up to 2^59, and up to 2^60 exactly under the condition that the sum of the marked numbers of every single word is below 2^64; the full range is false: per-word uint64_t sums overflow (witness low = 2^60 + 1)."
  },
  {
   "property": "C38",
   "status": "proved",
   "theorems": [
    "C38_popcnt64"
   ],
   "note": "portable popcnt64, all 2^64 values"
  },
  {
   "property": "C39",
   "status": "proved",
   "theorems": [
    "C39_wheel"
   ],
   "note": ""
  },
  {
   "property": "C40",
   "status": "proved",
   "theorems": [
    "C40_generate_pi",
    "C40_generate_moebius",
    "C40_generate_lpf",
    "C40_generate_prime_sums"
   ],
   "note": "every table size below 2^31-1 (int32 entries); isqrt replaced by the floor square root (C28)"
  },
  {
   "property": "C41",
   "status": "proved",
   "theorems": [
    "C41_plan"
   ],
   "note": "For every observation sequence: termination, tiling of [1,limit) with multiplicity one, power-of-two segment size >= minimum >= 512, at least one segment and one thread, no signed overflow; limit <= 2^60."
  },
  {
   "property": "C42",
   "status": "proved",
   "theorems": [
    "C42_num_threads",
    "C42_num_threads_last",
    "C42_num_threads_positive"
   ],
   "note": "OpenMP build; omp_get_max_threads() is an argument, not negative."
  },
  {
   "property": "C43",
   "status": "partial",
   "theorems": [
    "C43_argument",
    "C43_unknown",
    "C43_run_partial",
    "C43_run",
    "C43_count",
    "C43_bad",
    "C43_ends",
    "C43_threads_refuted",
    "C43_expression_refuted"
   ],
   "note": "Reading of every argument and of every argument vector is characterised exactly. Full claim is false in two places: values of --threads and --status are truncated to an int before they are clamped (C43_threads_refuted), and expressions that do not start with a digit are rejected as bare arguments (C43_expression_refuted). Malformed values lead to help unless the expression overflows first (C27). to_double and omp_get_max_threads are parameters."
  },
  {
   "property": "C44",
   "status": "proved",
   "theorems": [
    "C44_rejects",
    "C44_z_fits"
   ],
   "note": "Above the limit the outcome is an exception, for every x; below it z < 2^62 with a relative error of 1/1000 allowed in the floating point computations of limit and y."
  },
  {
   "property": "C45",
   "status": "partial",
   "theorems": [
    "C45_large",
    "C45_partial",
    "C45_refuted"
   ],
   "note": "Numbers >= 2^63 are rejected, numbers in the 64-bit range pass unchanged; numbers below -2^63 are silently truncated (C45_refuted gives a command line that computes with 100)."
  },
  {
   "property": "C46",
   "status": "partial",
   "theorems": [
    "C46_precision",
    "C46_precision_used",
    "C46_precision_set",
    "C46_precision_default",
    "C46_sequential_partial",
    "C46_lock",
    "C46_printed",
    "C46_duplicate_refuted",
    "C46_order_refuted"
   ],
   "note": "Precision clamp, the precision used (the model compares x with 1e21 and 1e23 exactly where the code converts it to double; C46_precision_default leaves out the x just below these numbers), increasing output of non-overlapping calls, mutual exclusion for every interleaving. The claim about concurrent updates is false: duplicates and decreasing output are possible (witness schedules). That the sum does not depend on the status holds by construction of the models (the status object has no link to the computation) and is not stated as a theorem."
  },
  {
   "property": "C47",
   "status": "partial",
   "theorems": [
    "C47_partial",
    "C47_total_partial"
   ],
   "note": "All table reads of the model are checked; the complete computation never reads out of bounds, for every valid environment and x < 2^88, or y <= 2^48 and z <= 2^59 - 2^34 (dr_range). Missing: larger y and z."
  },
  {
   "property": "C48",
   "status": "proved",
   "theorems": [
    "C48_nth_prime"
   ],
   "note": "Every n."
  },
  {
   "property": "C49",
   "status": "proved",
   "theorems": [
    "C49_pi_bsearch"
   ],
   "note": "std::upper_bound is modelled as bisection."
  },
  {
   "property": "C50",
   "status": "partial",
   "theorems": [
    "C50_partial",
    "C50_refuted",
    "C50_malformed",
    "C50_window_partial"
   ],
   "note": "pi(string) is exact for every expression with a value below 52175271301331128848; at that value the text is that of the sum + 2^128 (refutation). Above it, exact wherever C01_window_partial is (e.g. 10^20). Missing: values beyond that range."
  },
  {
   "property": "C51",
   "status": "partial",
   "theorems": [
    "C51_dr_partial",
    "C51_lmo_partial",
    "C51_lmo64_partial",
    "C51_terms_partial",
    "C51_terms_0",
    "C51_refuted",
    "C51_dr_window_partial",
    "C51_terms_window_partial"
   ],
   "note": "complete output and exit code for every argument list and every algorithm; x below 52175271301331128848, or as in C01_window_partial (Deleglise-Rivat); below 2^84 for the partial sums (S1 with the window condition above 52175271301331128848); below 2^63 (LMO), sums that fit 64 bits for --lmo2 to --lmo5. The text of the status lines and the seconds are arbitrary."
  },
  {
   "property": "C52",
   "status": "proved",
   "theorems": [
    "C52_limit",
    "C52_large"
   ],
   "note": "exit code 1 and nothing but the status lines on the standard output."
  },
  {
   "property": "C53",
   "status": "proved",
   "theorems": [
    "C53",
    "C53_checks",
    "C53_detects"
   ],
   "note": "valid_test: every oracle valid for arguments below 2^34, values of rand() not negative. Proved from the correctness theorems of all algorithms and a bound of the prime sum that shows that 64 bits are enough. C53_checks: every comparison holds, no exception is thrown. C53_detects: two functions that differ below 10000 are reported as a failure."
  },
  {
   "property": "C54",
   "status": "partial",
   "theorems": [
    "C54_y_partial",
    "C54_y_refuted",
    "C54_nan_refuted",
    "C54_pi_partial",
    "C54_pi_window_partial",
    "C54_lmo_partial",
    "C54_lmo_parallel1_partial",
    "C54_pi_nan_refuted"
   ],
   "note": "y for x < 2^106, with any alpha except NaN and any finite answers of log and pow below 2^100 (libm_ok); the claim is false at x = 208067^6, where the product is rounded up (C54_y_refuted), and for alpha = NaN, where the conversion is undefined (C54_nan_refuted). The complete computations: Deleglise-Rivat below the first failing argument of the 256-bit multiplication, LMO for x < 2^62. Uses the axioms of the standard library's real numbers (through Flocq)."
  },
  {
   "property": "C55",
   "status": "proved",
   "theorems": [
    "C55_size",
    "C55_segments",
    "C55_leaf",
    "C55_plan"
   ],
   "note": "All doubles and all functions log; the conversion of smallest_hard_leaf_ for x < 2^106 and y from C54. Uses the axioms of the standard library's real numbers (through Flocq)."
  },
  {
   "property": "C56",
   "status": "proved",
   "theorems": [
    "C56_wheel30",
    "C56_wheel210",
    "C56_floor_pow2",
    "C56_ilog2",
    "C56_isqrt"
   ],
   "note": "For every prime below 2^32, every segment and every stop: the first multiple is found or does not exist up to stop, and n steps of the wheel table lead to the n-th multiple. isqrt for every answer of the C library's sqrt."
  },
  {
   "property": "C57",
   "status": "proved",
   "theorems": [
    "C57_small",
    "C57_small_add",
    "C57_medium",
    "C57_medium_add",
    "C57_big",
    "C57_big_add"
   ],
   "note": "After any history of init, addSievingPrime and crossOff calls of the object."
  },
  {
   "property": "C58",
   "status": "proved",
   "theorems": [
    "C58",
    "C58_init"
   ],
   "note": "After any number of earlier initialisations of the PreSieve object."
  },
  {
   "property": "C59",
   "status": "proved",
   "theorems": [
    "C59",
    "C59_init",
    "C59_add"
   ],
   "note": "After any history of additions and sieved segments, for every answer of the CPU detection and every value of the floating-point factor that separates the classes."
  },
  {
   "property": "C60",
   "status": "proved",
   "theorems": [
    "C60_ctz",
    "C60_bruijn"
   ],
   "note": "The CTZ instruction itself is specified, not modelled."
  },
  {
   "property": "C61",
   "status": "proved",
   "theorems": [
    "C61_sieving_primes",
    "C61_fill_prev",
    "C61_fill_next",
    "C61_iterator",
    "C61_iterator_model",
    "C61_store_primes",
    "C61_store_n_primes",
    "C61_generate_primes",
    "C61_generate_n_primes"
   ],
   "note": "For every machine meeting genv_ok (nextPrime finds the lowest set bit, see C60; sieve size, cache size and the converted logarithms and square roots are arbitrary 64-bit numbers): SievingPrimes delivers the sieving primes and then 2^64-1, PrimeGenerator the primes of [start, stop], an iterator the next or previous prime for calls in any order, store_primes and store_n_primes the stated tables (or the exception above 2^64); the functions of Model/Primesieve.v used by the models of primesum have these values."
  }
 ]
}
