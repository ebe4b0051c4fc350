(** C28-C31, C42, C48, C49: integer helpers.  Statements only. *)
From Coq Require Import ZArith List Bool Lia Znumtheory.
From Verif.Base Require Import Res Word Zl IType.
From Verif.Spec Require Import Primes.
From Verif.Model Require Import Imath.
From Verif.Proofs Require Import Primes Imath.
Import ListNotations.
Open Scope Z_scope.

(** *** C28: for every type, every x and every estimate r0 *)
Theorem C28_isqrt : forall t r0 x, In t [i32; u32; i64; u64; i128; u128] ->
  0 <= r0 -> 0 <= x <= tmax t ->
  exists r, isqrt t r0 x = Ok r /\ 0 <= r /\ r * r <= x < (r + 1) * (r + 1).
Proof. exact isqrt_all. Qed.
Example C28_witness : isqrt i64 40 1000 = Ok 31 /\ isqrt u128 5 120 = Ok 10 /\
  isqrt i128 13043817825332782213 (2 ^ 127 - 1) = Ok 13043817825332782212.
Proof. repeat split; vm_compute; reflexivity. Qed.

(** *** C29: the correction loops do not overflow for the widths and roots in
    use (checked by C29_widths) when the estimate is at most one more binary
    digit than the root can have. *)
Theorem C29_iroot : forall t N r0 x,
  0 < bits t -> 1 < tdigits t <= 128 -> iroot_fits t N ->
  0 <= x <= tmax t -> 0 <= r0 <= 2 ^ ((tdigits t + N - 1) / N) ->
  exists r, iroot t N r0 x = Ok r /\ 0 <= r /\ r ^ N <= x < (r + 1) ^ N.
Proof. exact iroot_all. Qed.
Theorem C29_widths : forall t N, In t [i32; u32; i64; u64; i128; u128] -> In N [2; 3; 4; 5; 6] ->
  0 < bits t /\ 1 < tdigits t <= 128 /\ iroot_fits t N.
Proof. exact iroot_widths. Qed.
Example C29_witness : iroot i64 3 5 1000 = Ok 10 /\ iroot i128 6 3 (10 ^ 20) = Ok 2154.
Proof. split; vm_compute; reflexivity. Qed.

(** *** C30 *)
Theorem C30_ceil_div : forall t a b, In t [i32; u32; i64; u64; i128; u128] ->
  0 <= a -> 0 < b -> a + b <= tmax t ->
  exists q, ceil_div t a b = Ok q /\ a <= q * b /\ forall q', a <= q' * b -> q <= q'.
Proof. exact ceil_div_all. Qed.
Theorem C30_in_between : forall mn x mx, mn <= mx ->
  mn <= in_between mn x mx <= mx /\ (mn <= x <= mx -> in_between mn x mx = x) /\
  (x < mn -> in_between mn x mx = mn) /\ (mx < x -> in_between mn x mx = mx).
Proof. exact in_between_ok. Qed.
Theorem C30_next_power_of_2 : forall t x, In t [i32; u32; i64; u64; i128; u128] ->
  0 <= x <= 2 ^ (tdigits t - 1) ->
  exists r, next_power_of_2 t x = Ok r /\
    (exists k, 0 <= k /\ r = 2 ^ k) /\ x <= r /\ forall k, 0 <= k -> x <= 2 ^ k -> r <= 2 ^ k.
Proof. exact next_power_of_2_all. Qed.
Theorem C30_prev_power_of_2 : forall t x, In t [i32; u32; i64; u64; i128; u128] ->
  1 <= x <= tmax t ->
  exists r, prev_power_of_2 t x = Ok r /\
    (exists k, 0 <= k /\ r = 2 ^ k) /\ r <= x /\ forall k, 0 <= k -> 2 ^ k <= x -> 2 ^ k <= r.
Proof. exact prev_power_of_2_all. Qed.
Theorem C30_ideal_num_threads : forall threads limit threshold, in_s 32 threads -> 0 <= limit ->
  let r := ideal_num_threads threads limit threshold in
  1 <= r /\ (1 <= threads -> r <= threads) /\ (1 < r -> r * Z.max 1 threshold <= limit).
Proof. exact ideal_num_threads_ok. Qed.
Example C30_witness : ceil_div i64 10 3 = Ok 4 /\ next_power_of_2 i64 1000 = Ok 1024 /\
  prev_power_of_2 i64 1000 = Ok 512 /\ ideal_num_threads 8 (10 ^ 7) (10 ^ 7 / 3) = 3.
Proof. repeat split; vm_compute; reflexivity. Qed.

(** *** C31 *)
Theorem C31_fast_div_same_width : forall X x y, In X [i32; u32; i64; u64; i128; u128] ->
  in_t X x -> in_t X y -> 0 <= x -> 0 < y -> fast_div_eq X x y = Ok (x / y).
Proof. exact fast_div_eq_ok. Qed.
Theorem C31_fast_div_narrow_divisor : forall X Y x y,
  In X [i64; u64; i128; u128] -> In Y [i32; u32; i64; u64] -> bits Y < bits X ->
  in_t X x -> in_t Y y -> 0 <= x -> 0 < y -> fast_div_gt X x y = Ok (x / y).
Proof. exact fast_div_gt_ok. Qed.
(** The restriction x >= 0 is needed: negative dividends are truncated. *)
Theorem C31_fast_div_negative : exists x y, in_t i64 x /\ in_t i64 y /\ x < 0 /\ 0 < y /\
  exists r, fast_div_eq i64 x y = Ok r /\ r <> Z.quot x y /\ r <> x / y.
Proof. exact fast_div_negative. Qed.
Example C31_witness : fast_div_eq i128 (10 ^ 30) (10 ^ 10 + 1) = Ok (10 ^ 30 / (10 ^ 10 + 1)) /\
  fast_div_gt i128 (2 ^ 64 - 1) 1000003 = Ok ((2 ^ 64 - 1) / 1000003).
Proof. split; vm_compute; reflexivity. Qed.

(** *** C42: any history of set_num_threads calls *)
Theorem C42_num_threads : forall calls hw,
  (forall h n, In (h, n) calls -> 1 <= h <= hw) -> 1 <= hw ->
  1 <= get_num_threads hw (threads_after calls) <= hw.
Proof. exact num_threads_range. Qed.
Theorem C42_num_threads_last : forall calls hw n, 1 <= n <= hw ->
  get_num_threads hw (threads_after (calls ++ [(hw, n)])) = n.
Proof. exact num_threads_last. Qed.
Example C42_witness : get_num_threads 8 (threads_after [(8, 4); (8, 100)]) = 8 /\
  get_num_threads 8 (threads_after [(8, -3)]) = 1.
Proof. split; reflexivity. Qed.

(** *** C48 *)
Theorem C48_nth_prime : forall n,
  (10 <= n -> nth_prime n = Fail Throw) /\
  (n < 10 -> exists p, nth_prime n = Ok p /\ is_nth_prime (Z.max 1 n) p).
Proof. exact nth_prime_ok. Qed.
Example C48_witness : nth_prime 9 = Ok 23.
Proof. reflexivity. Qed.

(** *** C49 (the bound on N is that of the loop fuel; any real table fits) *)
Theorem C49_pi_bsearch : forall N x, N < 2 ^ 300 -> x <= N ->
  pi_bsearch (prime_table N) x = Ok (pi x).
Proof. exact pi_bsearch_ok. Qed.
Example C49_witness : pi_bsearch (prime_table 100) 60 = Ok 17.
Proof. vm_compute. reflexivity. Qed.

Print Assumptions C28_isqrt. Print Assumptions C29_iroot. Print Assumptions C29_widths.
Print Assumptions C30_ceil_div. Print Assumptions C30_in_between.
Print Assumptions C30_next_power_of_2. Print Assumptions C30_prev_power_of_2.
Print Assumptions C30_ideal_num_threads.
Print Assumptions C31_fast_div_same_width. Print Assumptions C31_fast_div_narrow_divisor.
Print Assumptions C31_fast_div_negative.
Print Assumptions C42_num_threads. Print Assumptions C42_num_threads_last.
Print Assumptions C48_nth_prime. Print Assumptions C49_pi_bsearch.
