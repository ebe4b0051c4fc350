(** Properties C33 (PiTable), C38 (popcnt64), C40 (generate_pi, generate_moebius,
    generate_lpf, generate_prime_sums). *)
From Coq Require Import ZArith List Bool Lia Znumtheory.
From Verif.Base Require Import Res Word Zl Arr.
From Verif.Spec Require Import Primes BitSpec LMOSpec.
From Verif.Model Require Import Popcnt Primesieve PiTable Tables.
From Verif.Proofs Require Import NT Popcnt PiTable Tables.
Import ListNotations.
Open Scope Z_scope.

(** *** C33: every entry of the table is the number of primes *)
Theorem C33_pitable : forall m, 0 <= m < 2 ^ 62 ->
  wp (PiTable m) (fun t => pi_size t = m + 1 /\ forall n, 0 <= n <= m -> pi_get t n = Ok (pi n)).
Proof. exact PiTable_lookup. Qed.
Example C33_witness : (t <- PiTable 130 ;; a <- pi_get t 63 ;; b <- pi_get t 64 ;; c <- pi_get t 127 ;; d <- pi_get t 130 ;;
   Ok [a; b; c; d]) = Ok [18; 18; 31; 31].
Proof. vm_compute. reflexivity. Qed.

(** *** C38 *)
Theorem C38_popcnt64 : forall x, 0 <= x < 2 ^ 64 -> popcnt64 x = popcount x.
Proof. exact popcnt64_ok. Qed.
Example C38_witness : popcnt64 0xffffffffffffffff = 64 /\ popcnt64 0x8000000000000001 = 2 /\ popcount 0x8000000000000001 = 2.
Proof. vm_compute. auto. Qed.

(** *** C40 *)
Theorem C40_generate_pi : forall n, 0 <= n < 2 ^ 31 - 1 ->
  wp (generate_pi n) (fun l => zlen l = n + 1 /\ forall i, 0 <= i <= n -> aget l i = Ok (pi i)).
Proof.
  intros n Hn. eapply wp_mono; [exact (generate_pi_ok n Hn)|]. intros l Ha. split; [exact (arr_len _ _ _ Ha)|].
  intros i Hi. apply (arr_get _ _ _ i Ha). lia.
Qed.
Theorem C40_generate_moebius : forall n, 0 <= n < 2 ^ 31 - 1 ->
  wp (generate_moebius n) (fun l => zlen l = n + 1 /\ forall i, 1 <= i <= n -> aget l i = Ok (mu i)).
Proof.
  intros n Hn. eapply wp_mono; [exact (generate_moebius_ok n Hn)|]. intros l Ha. split; [exact (arr_len _ _ _ Ha)|].
  intros i Hi. rewrite (arr_get _ _ _ i Ha) by lia. destruct (Z.eqb_spec i 0); [lia|reflexivity].
Qed.
(** least prime factor: a prime divisor below every other prime divisor *)
Theorem C40_generate_lpf : forall n, 0 <= n < 2 ^ 31 - 1 ->
  wp (generate_lpf n) (fun l => zlen l = n + 1 /\ (1 <= n -> aget l 1 = Ok (2 ^ 31 - 1)) /\
    forall i, 2 <= i <= n -> exists p, aget l i = Ok p /\ prime p /\ (p | i) /\ forall q, prime q -> (q | i) -> p <= q).
Proof.
  intros n Hn. eapply wp_mono; [exact (generate_lpf_ok n Hn)|]. intros l Ha. split; [exact (arr_len _ _ _ Ha)|]. split.
  - intros H1. rewrite (arr_get _ _ _ 1 Ha) by lia. reflexivity.
  - intros i Hi. exists (least_factor i). split.
    + rewrite (arr_get _ _ _ i Ha) by lia. unfold lpf_value. destruct (Z.eqb_spec i 0); [lia|]. destruct (Z.eqb_spec i 1); [lia|reflexivity].
    + apply least_factor_spec. lia.
Qed.
(** entry pi(x) of the table of prime sums is the sum of the primes <= x *)
Theorem C40_generate_prime_sums : forall n, n < 2 ^ 300 ->
  wp (generate_prime_sums n) (fun l => zlen l = pi n + 1 /\ forall x, x <= n -> aget l (pi x) = Ok (prime_sum x)).
Proof.
  intros n Hn. eapply wp_mono; [exact (generate_prime_sums_ok n Hn)|]. intros l [Hl Hg]. split; [exact Hl|].
  intros x Hx. rewrite Hg; [now rewrite psum_table_pi|]. split; [apply Primes.pi_nonneg|now apply Primes.pi_mono].
Qed.
Example C40_witness : generate_pi 12 = Ok [0;0;1;2;2;3;3;4;4;4;4;5;5] /\
  generate_moebius 12 = Ok [1;1;-1;-1;0;-1;1;-1;0;0;1;-1;0] /\
  generate_lpf 12 = Ok [1;2147483647;2;3;2;5;2;7;2;3;2;11;2] /\
  generate_prime_sums 12 = Ok [0;2;5;10;17;28].
Proof. vm_compute. auto. Qed.

Print Assumptions C33_pitable.
Print Assumptions C38_popcnt64.
Print Assumptions C40_generate_pi.
Print Assumptions C40_generate_moebius.
Print Assumptions C40_generate_lpf.
Print Assumptions C40_generate_prime_sums.
