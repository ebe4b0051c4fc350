# Formal model of primesum: design

Source under study: `/repo` (kimwalisch/primesum, C++). The source was read as
text, never built or run. The model and all proofs are in `rocq/theories`
(Coq 8.16.1).

## 1. Method

* **Model style.** Every C++ function is translated into a small, total,
  executable Gallina function. Integers are `Z`. Vectors are lists read and
  written through checked accessors. Code that can fail lives in a result monad
  `res A := Ok a | Fail e` where `e` distinguishes undefined behaviour
  (out-of-bounds access, division by zero, signed overflow where checked, bad
  shift count), a thrown exception, `abort()`, and exhausted loop fuel.
  A theorem of the form `f x = Ok v` therefore also says that none of these
  happen.
* **Loops.** `for`/`while`/`break`/`goto` become one combinator `loop` over a
  step function `S -> res (S + R)` with a constant binary fuel of `2^400`
  iterations. Exhausting it is the error `Fuel`; total-correctness theorems show
  that this never happens.
* **Machine integers.** Wrap-around (`mod 2^n`) is written out where the code
  uses unsigned types and relies on it (256-bit integers, bit sieve, population
  count, divider magic). Signed overflow is the outcome `UB` in the arithmetic
  kernels (square root, roots, expression evaluator, int256 conversions).
  The accumulators of P2, S1, S2_trivial, S2_easy, S2_hard, all LMO algorithms and the
  final formulas use `Model/Accum.v` or checked sums: a 128-bit sum, difference or product that does not
  fit is `UB`, a 256-bit one is computed with the operators of the model of
  `int256_t` (including their defects). Section 4 lists the places where sums are
  still unbounded integers.
* **Nondeterminism.** Clock readings, floating-point estimates, OpenMP schedules
  and reduction orders are universally quantified oracles. Nothing is assumed
  about them except what is stated in the theorem.
* **Floating point.** `Model/Double.v` and `Model/Tuning.v` compute the tuning factor
  alpha, the limit y and all decisions of the load balancer in IEEE 754 binary64
  arithmetic (Flocq's executable definitions, round to nearest even). The theorems C54
  and C55 instantiate the oracles of the other theorems with these functions; only
  `log` and `pow` and the clock remain unknown.
* **Specification.** `Spec*.v` contains a small independent specification
  (primality, sums over ranges, Moebius function, sum over integers coprime to
  the first a primes, decimal notation, expression trees). The property theorems
  speak about the model functions and this specification only.
* **Properties** are in `theories/Properties/*.v`: statements closed by
  `exact lemma`, each followed by `Print Assumptions` and a concrete instance
  that meets the hypotheses.

## 2. Plan per property

| id | model | proof |
|----|-------|-------|
| C01 | `pi_deleglise_rivat_parallel1` composed of models of P2, S1, S2_trivial, S2_easy, S2_hard | refinement: result = sum of primes; the 256-bit path has a counterexample (big-integer multiplication), stated as `_refuted`, plus correctness outside the bad window |
| C02 | `pi_lmo1` .. `pi_lmo5`, `pi_lmo_parallel1` | refinement to the sum of primes |
| C03 | reductions as arbitrary permutations/groupings of the iteration list | follows from the refinement theorems, quantified over schedules |
| C04 | load balancer with arbitrary oracles for all time-derived values | refinement theorems quantified over oracles + termination |
| C05 | y as arbitrary integer in the range alpha can produce | refinement theorems quantified over y |
| C06 | spec-level identity | induction on the number of primes |
| C07 | `P2`, `P2_OpenMP_master/thread`, `balanceLoad` | loop invariants, telescoping of the offset |
| C08 | `S1`, `S1_OpenMP_thread/master` | induction on the recursion |
| C09-C12 | `S2_trivial`, `S2_easy`, `S2_hard` | loop invariants; partition of the leaves |
| C13 | `phi`, `PhiCache`, `PhiTiny` | cache invariant over arbitrary call histories |
| C14 | `pi_legendre` | strong induction on x |
| C15 | `phi_sum128`, `phi_sum256`, `phi_sum` | induction on a; window counterexample for 256 bit |
| C16-C23 | `int256_t` as pair of 128-bit limbs, all operators, printing, conversions; int128 printing | equational proofs modulo 2^256; `_refuted` where the code deviates |
| C24-C27 | `ExpressionParser` character by character, `calculate` with overflow as UB | round trip with a reference grammar; rejection by structural argument |
| C28-C31 | `isqrt`, `ct_sqrt`, `iroot`, `ipow`, helpers, `fast_div` | loop invariants, any floating-point estimate |
| C32 | `libdivide` u64 branch-free generation and division | arithmetic proof |
| C33-C40, C49 | `PiTable`, `FactorTable`, `BinaryIndexedTree`, `BitSieve`, `SumBits`, `popcnt64`, `Wheel`, `generate_*`, `pi_bsearch` | invariants, finite table checks by computation inside general proofs |
| C41 | `S2LoadBalancer` + master loop | invariant over arbitrary decisions |
| C42, C48 | thread settings, `nth_prime` | case analysis / invariant over call histories |
| C43, C45 | `parseOptions`, `makeOption`, `int64_cast` | case analysis over strings |
| C44 | guard in `pi_deleglise_rivat_parallel1` | the guard is proved; the floating-point formula of `get_max_x` is an oracle |
| C46 | interleaving model of `S2Status` | invariant or counterexample trace |
| C47 | checked accessors in every model | by-product of the `Ok` results |

| C50-C52 | `pi(string)`, `main()` | composition of the parser, the option, the algorithm and the printing theorems |
| C53 | `test()` | the correctness theorems of all algorithms and a bound of the prime sum |
| C54 | `get_alpha_*`, `y`, the double arithmetic of the load balancer, composed with the algorithms | rounding error bounds with Flocq; the rounded y stays in the admissible range for x < 2^106; counterexample above |
| C55 | `S2LoadBalancer` with doubles | every conversion to an integer is defined for all measured times, also infinite ones and NaN |
| C56-C60 | the sieve of `lib/primesieve`: wheel tables, `EratSmall`, `EratMedium`, `EratBig`, `PreSieve`, `Erat` | table rows checked by computation against one arithmetic condition; invariant "each stored prime is at its first multiple behind low + 6" over histories of calls |
| C61 | `SievingPrimes`, `PrimeGenerator`, `iterator`, `store_primes`, `store_n_primes` of `lib/primesieve` | invariant "what the object still has to deliver" (a list of primes) for each class, on top of C59; calls of next_prime and prev_prime in any order |

## 3. Trusted base

* **Coq's kernel**, including `vm_compute` (used for finite tables and for parts of
  the proof of the counterexample) and the checker `coqchk`.
* **The translation** from C++ to Gallina. Every definition of `theories/Model`
  cites the file and lines it models; where the text was simplified the comment says
  so (and section 4 repeats it). Spec files are part of the statements and have to be
  read: `Spec/Primes.v` (prime, prime sum, prime count), `LMOSpec.v` (Moebius
  function, P2, S1, special leaves), `PhiSumSpec.v`, `S2Spec.v`, `SieveSpec.v`, `BitSpec.v`, `WheelSpec.v`, `TilingSpec.v`,
  `IntSpec.v` (integer types, roots, decimal notation), `ExprSpec.v` (expressions),
  `OptionSpec.v` (what an argument asks for), `MainSpec.v` (output), `PsSpec.v`,
  `PsRunSpec.v` (contents of a sieve array, histories of the sieve objects) and
  `PsGenSpec.v` (calls of the generators of primes).
* **External code**, specified instead of modelled:
  * `lib/primesieve`: for the models of primesum `generate_primes`, `generate_n_primes`
    and the iterators are the functions of `Model/Primesieve.v` (all primes in order,
    executable definition by trial division). The code behind them is modelled as well:
    C56-C60 prove its sieve and C61 proves that it delivers the values of
    `Model/Primesieve.v` below 2^64. What remains assumed of it (`genv_ok`): `nextPrime`
    finds the lowest bit (C60), `get_sieve_size` and the conversions of logarithms and
    square roots to `uint64_t` give any 64-bit numbers (none of them affects the result);
  * compiler builtins and instructions: population count (`popcnt`,
    `__builtin_popcountll`), `__builtin_clzll`, `__builtin_ctz`, `divq`;
  * `std::vector`, `std::string`, streams, `std::max/min`, `std::stod`, `std::to_string`;
  * the C++ rule that an OpenMP reduction adds the values of the threads in some order,
    each of them the sum of the iterations of one thread in increasing order of execution.
* **Contracts about floating point, time and the machine** (hypotheses of the theorems,
  collected in `valid_oracles`, `valid_lmo`, `valid_par`, `valid_dr`, `valid_test`):
  * the estimate `pow(x, 1.0/3)` of `iroot<3>` is any number in 0 .. 2^43 (`iroot<6>`:
    0 .. 2^22); the loops of `iroot` correct it. `sqrt` in `isqrt`: any estimate in the
    range stated in C28;
  * `y = (int64_t)(iroot<3>(x) * alpha)` is any integer between r3 and r3 * r6
    (r3 = cube root, r6 = sixth root of x, rounded down). This is what
    `in_between(1, alpha, iroot<6>(x))` gives if alpha is not NaN and the rounding of
    the product does not cross an integer from above. C54 derives it from the double
    arithmetic of the code for the range of x stated there (`tuned_y`), assuming of
    `log` only that it returns a moderate finite number (`libm_ok`); for very large x the
    rounded product does exceed r3 * r6 (C54_y_refuted), and alpha = NaN makes the
    conversion to `int64_t` undefined (C54_nan_refuted);
  * `get_max_x(alpha)` is any number (`dr_limit`);
  * `few_leaves` (a comparison with a double) has any outcome;
  * measured times only enter through comparisons and three conversions to `int64_t`
    (`lb_obs`); `obs_ok` asks that the new number of segments is between 1 and twice the
    old one and that the first segment size is at most sqrt(z). C55 proves this of the
    double arithmetic for all measured times, also infinite ones and NaN;
  * in C54 and C55 a double operation is the IEEE 754 binary64 operation of Flocq
    (`BinarySingleNaN`, round to nearest even), i.e. no fused multiply-add, no extended
    precision, and the default rounding mode;
  * schedules: any permutation of the iterations, distributed over any number of
    threads (`valid_sched`);
  * `omp_get_max_threads()`, the parsing of the argument of `--alpha`, the values of
    `rand()` (not negative), the text of the seconds and of the status lines.
* **Memory**: allocation always succeeds (`bad_alloc` does not occur); the OpenMP loops
  are modelled as race free: every iteration works on its own elements. For the code
  where threads do share state (`S2Status`) there is an interleaving model (C46).

## 4. What is modelled and what is not

| source | model | left out or simplified |
|--------|-------|------------------------|
| include/int256_t.hpp, int128_t.hpp | Int256.v | mixed-type operator overloads are modelled through the conversions they perform; conversions to double |
| include/imath.hpp, isqrt.hpp, fast_div.hpp, min_max.hpp, src/nth_prime.cpp | Imath.v | the double estimate is an argument |
| include/calculator.hpp | Calculator.v | `eval<int128_t>` only; the texts of the error messages |
| include/libdivide.h | Libdivide.v | 64-bit unsigned branch-free divider only; the vector and 32-bit parts are unused by the code |
| include/popcnt.hpp | Popcnt.v | the portable version; the others are builtins |
| include/PiTable.hpp, src/PiTable.cpp | PiTable.v | - |
| include/PhiTiny.hpp, src/PhiTiny.cpp | PhiTiny.v | - |
| src/phi.cpp, src/pi_legendre.cpp | Phi.v | `isqrt`, `fast_div` replaced by their values (C28, C31) |
| src/phi_sum.cpp | PhiSum.v | - |
| include/FactorTable.hpp, src/FactorTable.cpp | FactorTable.v | int64_t products and sums checked; indices incremented in Z; threads one after the other in any order |
| include/BinaryIndexedTree.hpp | Fenwick.v | - |
| include/BitSieve.hpp, SumBits.hpp, src/BitSieve.cpp | BitSieve.v | little-endian reads; int128_t sums checked, the uint64_t sum of one word wraps |
| include/Wheel.hpp, src/Wheel.cpp | Wheel.v | - |
| include/generate.hpp, src/generate.cpp | Tables.v | `generate_primes` by its values (C61) |
| src/P2.cpp | P2.v | elapsed time is a comparison |
| src/S1.cpp | S1.v | - |
| src/deleglise-rivat/S2_trivial.cpp, S2_easy.cpp, S2_easy_libdivide.cpp | S2.v | status output |
| src/deleglise-rivat/S2_hard.cpp | S2Hard.v | status output; mu_sum[b] written once per b |
| src/S2LoadBalancer.cpp | S2LoadBalancer.v, Tuning.v, Double.v | in the first file doubles are observations, in the second they are IEEE 754 numbers |
| src/S2Status.cpp | Status.v | sequentially consistent interleaving, integer times |
| src/lmo/pi_lmo1.cpp | LMO1.v | - |
| src/lmo/pi_lmo2.cpp .. pi_lmo5.cpp | LMO.v | int64_t sums S2_result and phi of pi_lmo2, 3, 5 either wrap around or stop at an overflow (`_strict`) |
| src/lmo/pi_lmo_parallel1.cpp | LMOParallel.v | - |
| src/deleglise-rivat/pi_deleglise_rivat_parallel1.cpp, src/primesum.cpp | DelegliseRivat.v, Imath.v, Tuning.v (alpha, y) | printing, get_time; `pow` in get_max_x and iroot is an argument; get_status_precision compares x with 1e21 and 1e23 exactly instead of as a double |
| src/app/cmdoptions.cpp | Options.v | error texts |
| src/app/main.cpp, src/print.cpp | Main.v | text of the status lines and seconds, error texts, `bad_alloc` |
| src/test.cpp | SelfTest.v | progress text |
| lib/primesieve: LookupTables.cpp, Wheel.hpp, pmath.hpp | PsTables.v, PsMath.v | `sqrt` in isqrt is any number |
| lib/primesieve: EratSmall, EratMedium, EratBig, PreSieve, Erat, Bucket.hpp, MemoryPool | PsErat.v | packed SievingPrime as its two words; the unrolled loops by their table of rows; a list of buckets instead of the memory pool (buckets are lists without capacity); CPU detection and the double factor are arguments |
| lib/primesieve: SievingPrimes, PrimeGenerator, iterator.cpp, IteratorHelper.cpp, StorePrimes.hpp | PsGen.v, PsCache.v | buffers as lists of their valid entries; capacity of vectors; results of `log` and `sqrt` as numbers of any size |
| src/app/help.cpp, include/aligned_vector.hpp, include/OmpLock.hpp, CMake files, the rest of lib/primesieve (threads, counting, printing, C interface) | - | not modelled |

## 5. Axioms per theorem

All property theorems are followed by `Print Assumptions` in `theories/Properties`.
For every one of them except those of `DoubleProps.v` the answer is

    Closed under the global context

that is, no axiom at all, neither own ones nor those of the standard library. The
theorems of `DoubleProps.v` (C54, C55) are about doubles; Flocq relates them to the real
numbers of the standard library, so `Print Assumptions` lists (some of) the axioms of
the standard library behind its real numbers, and nothing else:

    ClassicalDedekindReals.sig_forall_dec
    ClassicalDedekindReals.sig_not_dec
    FunctionalExtensionality.functional_extensionality_dep
    Classical_Prop.classic

Flocq itself adds no axiom. Some
libraries that are loaded (`ssreflect` through standard tactics) declare module
parameters that a scan of the loaded files lists (`Coq.ssr.ssrunder.*`); no theorem
depends on them.

| file | theorems printed |
|------|------------------|
| CalcProps.v | C24_eval, C24_every_tree, C24_exact, C25_malformed, C25_terminates, C25_whole_text, C26_division_by_zero, C26_never_a_value, C27_refuted, C27_exact_partial, C27_overflow_undefined |
| DoubleProps.v | C54_y_partial, C54_y_refuted, C54_nan_refuted, C54_pi_partial, C54_pi_window_partial, C54_lmo_partial, C54_lmo_parallel1_partial, C54_pi_nan_refuted, C55_size, C55_segments, C55_leaf, C55_plan |
| DRProps.v | C01_partial, C01_window_partial, C01_next_partial, C01_exactly_partial, C01_below_2, C01_refuted, C03_partial, C04_partial, C05_partial, C05_window_partial, C05_next_partial, C05_range, C44_rejects, C44_z_fits, C47_partial, C47_total_partial |
| FactorProps.v | C34_factor_table_partial, C34_index, C34_limit, C34_one_refuted |
| GeneratorProps.v | C61_sieving_primes, C61_fill_prev, C61_fill_next, C61_iterator, C61_iterator_model, C61_store_primes, C61_store_n_primes, C61_generate_primes, C61_generate_n_primes |
| ImathProps.v | C28_isqrt, C29_iroot, C29_widths, C30_ceil_div, C30_in_between, C30_next_power_of_2, C30_prev_power_of_2, C30_ideal_num_threads, C31_fast_div_same_width, C31_fast_div_narrow_divisor, C31_fast_div_negative, C42_num_threads, C42_num_threads_last, C48_nth_prime, C49_pi_bsearch |
| Int256Props.v | C16_add, C16_sub, C16_neg, C16_inc, C16_dec, C16_not, C16_representation, C17_mul_refuted, C17_mul_refuted_family, C17_mul_partial, C18_div_refuted, C18_div_min_refuted, C18_div_partial, C18_div_by_zero, C19_comparisons, C20_shl_partial, C20_shr_partial, C20_shr_negative_refuted, C20_shift_zero_refuted, C20_bitwise, C21_print_partial, C21_print_min_refuted, C22_print_u128, C22_print_s128_partial, C22_print_s128_min_refuted, C23_from_native, C23_to_unsigned, C23_to_signed_partial, C23_to_signed_min_refuted |
| LMOProps.v | C02_lmo1_partial, C02_lmo1_window_partial, C02_lmo1_refuted, C02_lmo2_partial, C02_lmo3_partial, C02_lmo4_partial, C02_lmo5_partial, C02_fits_partial, C02_strict_partial, C02_admissible, C02_lmo_parallel1_partial, C02_lmo_parallel1_threads_partial |
| LeafProps.v | C07_P2, C08_S1_64, C08_S1_partial, C08_S1_below_partial |
| LibdivideProps.v | C32_branchfree, C32_branchfull, C32_rejected |
| MainProps.v | C50_partial, C50_window_partial, C50_refuted, C50_malformed, C51_dr_partial, C51_dr_window_partial, C51_lmo_partial, C51_lmo64_partial, C51_terms_partial, C51_terms_window_partial, C51_terms_0, C51_refuted, C52_limit, C52_large, C53, C53_checks, C53_detects |
| OptionProps.v | C43_argument, C43_unknown, C43_run_partial, C43_run, C43_count, C43_bad, C43_ends, C43_threads_refuted, C43_expression_refuted, C45_large, C45_partial, C45_refuted |
| PhiProps.v | C13_phi_partial, C13_phi_refuted, C14_pi_legendre_partial, C14_pi_legendre_refuted |
| PhiSumProps.v | C06_meissel, C06_leaves, C15_phi_sum_64, C15_phi_sum_128_refuted, C15_phi_sum_128_partial, C15_phi_sum_128_window_partial |
| PrimesieveProps.v | C56_wheel30, C56_wheel210, C56_floor_pow2, C56_ilog2, C56_isqrt, C57_small, C57_small_add, C57_medium, C57_medium_add, C57_big, C57_big_add, C58, C58_init, C59, C59_init, C59_add, C60_ctz, C60_bruijn |
| S2HardProps.v | C11_hard_partial, C12_partition, C12_classes, C12_phi, C41_plan |
| S2Props.v | C09_trivial, C09_trivial_pq, C10_easy, C10_easy_libdivide |
| SieveProps.v | C35_fenwick, C36_pre_sieve, C37_sum_partial, C37_sum_exact_partial, C37_sum_presieved_partial, C37_sum_refuted, C39_wheel |
| StatusProps.v | C46_precision, C46_precision_used, C46_precision_set, C46_precision_default, C42_num_threads_positive, C46_sequential_partial, C46_lock, C46_printed, C46_duplicate_refuted, C46_order_refuted |
| TableProps.v | C33_pitable, C38_popcnt64, C40_generate_pi, C40_generate_moebius, C40_generate_lpf, C40_generate_prime_sums |

## 6. Deviations of the code that the theorems expose

* 256-bit multiplication is wrong by 2^128 in a window of operands (C17). The first
  argument for which this reaches the final result is x = 52175271301331128848: `pi_lmo1`,
  the Deleglise-Rivat algorithm, `pi(string)` and the program itself give the sum of
  primes + 2^128 (C01_refuted, C02_lmo1_refuted, C50_refuted, C51_refuted).
* Further refuted statements: see the theorems with the suffix `_refuted` (256-bit
  division and shifts, conversions, evaluation of expressions near the limits,
  `int64_cast` below -2^63, `--threads` values above an int, the status output with several
  threads).
* The uint64_t sum of one word of the bit sieve overflows for low above about 2^59.3
  (C37_sum_refuted). The limit on x only keeps z = x / y below 2^62 (C44_z_fits), so such
  segments occur in accepted computations; the theorems about the complete computation
  stop at z = 2^59 - 2^34.
* The product `iroot<3>(x) * alpha` may be rounded up past the square root of x, for
  instance at x = 208067^6 (C54_y_refuted); alpha = NaN leads to an undefined conversion.
