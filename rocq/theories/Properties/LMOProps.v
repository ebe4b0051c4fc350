(** Property C02: pi_lmo1 to pi_lmo5 and pi_lmo_parallel1. *)
From Coq Require Import ZArith List Bool Lia Znumtheory Permutation.
From Verif.Base Require Import Res Word Zl Par.
From Verif.Spec Require Import Primes IntSpec LMOSpec PhiSumSpec.
From Verif.Model Require Import Oracles LMO1 LMO S2LoadBalancer LMOParallel.
From Verif.Proofs Require Import Primes PhiSum LMO1 DelegliseRivat S2LoadBalancer LMO25 LMOPar.
From Verif.Properties Require Import PhiProps.
Import ListNotations.
Open Scope Z_scope.

(** *** C02, pi_lmo1: every x below the first failing argument of the 256-bit
    multiplication; every floating point estimate of the cube root below 2^43,
    every schedule and timing *)
Theorem C02_lmo1_partial : forall o x, valid_oracles o -> x < 52175271301331128848 ->
  pi_lmo1 o x = Ok (prime_sum x).
Proof.
  intros o x HO Hx. apply pi_lmo1_ok; [exact HO|eapply Z.lt_trans; [exact Hx|reflexivity]|].
  intros n c Hn. apply window_free_small. unfold first_bad.
  destruct (Z.le_gt_cases 0 x); [|].
  - assert (x / n <= x) by (apply Z.div_le_upper_bound; nia). lia.
  - assert (x / n < 0) by (apply Z.div_lt_upper_bound; lia). lia.
Qed.
(** above it, whenever none of the intermediate sums hits the failing window *)
Theorem C02_lmo1_window_partial : forall o x, valid_oracles o -> x < 2 ^ 92 ->
  (forall n c, 1 <= n -> window_free (x / n) c) ->
  pi_lmo1 o x = Ok (prime_sum x).
Proof. exact pi_lmo1_ok. Qed.
(** The unrestricted claim is false: at this x the result is too large by 2^128. *)
Theorem C02_lmo1_refuted : exists x, forall o, valid_oracles o ->
  pi_lmo1 o x = Ok (prime_sum x + 2 ^ 128).
Proof. exists 52175271301331128848. intros o HO. exact (pi_lmo1_wrong o HO). Qed.

Definition C02_oracles : oracles := {|
  o_root := 5; o_leg := fun _ lo hi => [zrange lo hi]; o_p2leg := fun _ lo hi => [rev (zrange lo hi)];
  o_p2speed := fun _ => Lt; o_p2sched := fun _ lo hi => [zrange lo hi]; o_s1sched := fun lo hi => [rev (zrange lo hi)] |}.
Example C02_witness_oracles : valid_oracles C02_oracles.
Proof.
  unfold valid_oracles, valid_sched, schedule_of. cbn [o_root o_leg o_p2leg o_p2sched o_s1sched C02_oracles].
  split; [split; discriminate|]. repeat split; intros; cbn [concat]; rewrite app_nil_r; auto using Permutation_sym, Permutation_rev.
Qed.
Example C02_witness : pi_lmo1 C02_oracles 100 = Ok 1060 /\ prime_sum 100 = 1060.
Proof.
  split; [|vm_compute; reflexivity].
  rewrite C02_lmo1_partial; [|exact C02_witness_oracles|reflexivity]. apply (f_equal Ok). vm_compute. reflexivity.
Qed.

Print Assumptions C02_lmo1_partial. Print Assumptions C02_lmo1_window_partial. Print Assumptions C02_lmo1_refuted.

(** *** C02, pi_lmo2 to pi_lmo5: every x of type int64_t for which y fits the 32-bit tables,
    every y of a clamped tuning factor, every floating point estimate of the roots, schedule
    and timing.  The result is the sum reduced to int64_t, hence exact
    whenever it fits. *)
Theorem C02_lmo2_partial : forall o x, valid_lmo o x -> x < 2 ^ 63 -> pi_lmo2 o x = Ok (swrap 64 (prime_sum x)).
Proof. exact pi_lmo2_ok. Qed.
Theorem C02_lmo3_partial : forall o x, valid_lmo o x -> x < 2 ^ 63 -> pi_lmo3 o x = Ok (swrap 64 (prime_sum x)).
Proof. exact pi_lmo3_ok. Qed.
Theorem C02_lmo4_partial : forall o x, valid_lmo o x -> x < 2 ^ 63 -> pi_lmo4 o x = Ok (swrap 64 (prime_sum x)).
Proof. exact pi_lmo4_ok. Qed.
Theorem C02_lmo5_partial : forall o x, valid_lmo o x -> x < 2 ^ 63 -> pi_lmo5 o x = Ok (swrap 64 (prime_sum x)).
Proof. exact pi_lmo5_ok. Qed.
Theorem C02_fits_partial : forall o x, valid_lmo o x -> x < 2 ^ 63 -> prime_sum x < 2 ^ 63 ->
  pi_lmo2 o x = Ok (prime_sum x) /\ pi_lmo3 o x = Ok (prime_sum x) /\ pi_lmo4 o x = Ok (prime_sum x) /\ pi_lmo5 o x = Ok (prime_sum x).
Proof. exact pi_lmo_fits. Qed.
(** up to 2900000000 no int64_t operation of pi_lmo2, pi_lmo3 and pi_lmo5 overflows: the
    versions that stop at an overflow return the sum.  Partial: beyond that bound the
    accumulators phi and S2_result count as two's complement.  (pi_lmo4 uses int128_t and is
    checked for every x.) *)
Theorem C02_strict_partial : forall o x, valid_lmo o x -> x <= 2900000000 ->
  pi_lmo2_strict o x = Ok (prime_sum x) /\ pi_lmo3_strict o x = Ok (prime_sum x) /\ pi_lmo5_strict o x = Ok (prime_sum x).
Proof. exact pi_lmo_strict_ok. Qed.
(** for x < 2^62 every y between iroot<3>(x) and iroot<3>(x) * iroot<6>(x) is admissible *)
Theorem C02_admissible : forall x y r3 r6, x < 2 ^ 62 -> is_root 3 r3 x -> is_root 6 r6 x -> r3 <= y <= r3 * r6 -> y < 2 ^ 31 - 1.
Proof. exact lmo_y_range. Qed.

(** for x < 2^62 *)
Definition C02_lmo_oracles (big : bool) : lmo_oracles :=
  {| lo_base := C02_oracles; lo_root6 := 2; lo_root3 := 9; lo_y := fun r3 r6 => if big then r3 * r6 else r3 |}.
Example C02_witness_lmo : forall big x, x < 2 ^ 62 -> valid_lmo (C02_lmo_oracles big) x.
Proof.
  intros big x Hx. split; [exact C02_witness_oracles|]. split; [split; discriminate|]. split; [split; discriminate|]. intros r3 r6 R3 R6. cbv zeta.
  cbn [lo_y C02_lmo_oracles]. assert (A : r3 <= (if big then r3 * r6 else r3) <= r3 * r6); [|split; [exact A|exact (lmo_y_range x _ r3 r6 Hx R3 R6 A)]].
  destruct R3 as (A0 & A1 & A2), R6 as (B0 & B1 & B2).
  assert (r3 <= r3 * r6); [|destruct big; lia]. destruct (Z.eq_dec r6 0) as [->|]; [|nia]. destruct (Z.eq_dec r3 0) as [->|]; [lia|].
  exfalso. change ((0 + 1) ^ 6) with 1 in B2. assert (0 < r3 ^ 3) by (apply Z.pow_pos_nonneg; lia). lia.
Qed.
Example C02_sum_1000 : prime_sum 1000 = 76127.
Proof. vm_cast_no_check (eq_refl 76127). Qed.
Example C02_witness_values : pi_lmo2 (C02_lmo_oracles true) 1000 = Ok 76127 /\ pi_lmo3 (C02_lmo_oracles true) 1000 = Ok 76127 /\
  pi_lmo4 (C02_lmo_oracles false) 1000 = Ok 76127 /\ pi_lmo5 (C02_lmo_oracles true) 1000 = Ok 76127.
Proof.
  pose proof C02_sum_1000 as P.
  destruct (C02_fits_partial (C02_lmo_oracles true) 1000) as (H2 & H3 & _ & H5); [apply C02_witness_lmo; reflexivity|reflexivity|rewrite P; reflexivity|].
  destruct (C02_fits_partial (C02_lmo_oracles false) 1000) as (_ & _ & H4 & _); [apply C02_witness_lmo; reflexivity|reflexivity|rewrite P; reflexivity|].
  rewrite P in *. auto.
Qed.
Example C02_witness_strict : pi_lmo5_strict (C02_lmo_oracles true) 1000 = Ok 76127.
Proof. destruct (C02_strict_partial (C02_lmo_oracles true) 1000) as (_ & _ & ->); [apply C02_witness_lmo; reflexivity|discriminate|]. apply (f_equal Ok), C02_sum_1000. Qed.

Print Assumptions C02_lmo2_partial. Print Assumptions C02_lmo3_partial. Print Assumptions C02_lmo4_partial. Print Assumptions C02_lmo5_partial.
Print Assumptions C02_fits_partial. Print Assumptions C02_strict_partial. Print Assumptions C02_admissible.

(** *** C02, pi_lmo_parallel1 (and pi_lmo, which calls it): every x of type int64_t and y
    below 2^31 - 1, every number of threads, every schedule, every measured time and every
    segment size that results from the measurements.  Partial: larger y. *)
Theorem C02_lmo_parallel1_partial : forall o x threads, valid_par o x -> x < 2 ^ 63 -> 1 <= threads < 2 ^ 31 ->
  pi_lmo_parallel1 o x threads = Ok (prime_sum x).
Proof. exact pi_lmo_parallel1_ok. Qed.
(** hence neither the number of threads nor the environment matters *)
Theorem C02_lmo_parallel1_threads_partial : forall o1 o2 x t1 t2, valid_par o1 x -> valid_par o2 x -> x < 2 ^ 63 -> 1 <= t1 < 2 ^ 31 -> 1 <= t2 < 2 ^ 31 ->
  pi_lmo o1 x t1 = pi_lmo o2 x t2.
Proof. intros. unfold pi_lmo. now rewrite !C02_lmo_parallel1_partial. Qed.

Definition C02_par_oracles (big : bool) : par_oracles :=
  {| po_lmo := C02_lmo_oracles big; po_size := 0; po_leaf := if big then 7 else 10 ^ 6;
     po_obs := fun r => {| ob_increase := Z.odd r; ob_decrease := big; ob_fast := negb big; ob_segments := fun s => if big then 2 * s else 1; ob_size := 0 |};
     po_sched := fun r lo hi => if big then [zrange lo hi] else [[]; rev (zrange lo hi)] |}.
Example C02_witness_par : forall big x, x < 2 ^ 62 -> valid_par (C02_par_oracles big) x.
Proof.
  intros big x Hx. split; [now apply C02_witness_lmo|].
  split; [intros r lo hi; unfold schedule_of; cbn [po_sched C02_par_oracles]; destruct big; cbn [concat app]; rewrite app_nil_r; auto using Permutation_sym, Permutation_rev|].
  intros r3 r6 _ _. cbv zeta.
  match goal with |- context [Z.sqrt ?z] => pose proof (Z.sqrt_nonneg z) end. split; [cbn [po_size C02_par_oracles]; lia|].
  intros r. split; [cbn [ob_size po_obs C02_par_oracles]; lia|]. intros s Hs. cbn [ob_segments po_obs C02_par_oracles]. destruct big; lia.
Qed.
Example C02_witness_par_value : pi_lmo_parallel1 (C02_par_oracles true) 1000 4 = Ok 76127.
Proof.
  pose proof C02_sum_1000 as P.
  rewrite C02_lmo_parallel1_partial; [apply (f_equal Ok), P|apply C02_witness_par; reflexivity|reflexivity|lia].
Qed.
Print Assumptions C02_lmo_parallel1_partial. Print Assumptions C02_lmo_parallel1_threads_partial.
