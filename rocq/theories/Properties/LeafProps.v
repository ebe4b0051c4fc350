(** Properties C07 (P2) and C08 (S1, ordinary leaves). *)
From Coq Require Import ZArith List Bool Lia Znumtheory Permutation.
From Verif.Base Require Import Res Word Zl Par.
From Verif.Spec Require Import Primes IntSpec LMOSpec PhiSumSpec.
From Verif.Model Require Import Primesieve PhiSum Phi P2 S1.
From Verif.Proofs Require Import Primes PhiSum P2 S1.
From Verif.Properties Require Import PhiProps.
Import ListNotations.
Open Scope Z_scope.

(** *** C07: any thread count, schedule of every round and timing of every round;
    z = x / y below 2^62 is the documented limit of the program
    (src/primesum.cpp:133-138) *)
Theorem C07_P2 : forall lsched speed sched x y threads,
  0 <= x < 2 ^ 122 -> 0 <= y < 2 ^ 62 -> x / Z.max y 1 < 2 ^ 62 -> 1 <= threads < 2 ^ 31 ->
  (forall n, valid_sched (lsched n)) -> (forall k, valid_sched (sched k)) ->
  P2.P2 lsched speed sched x y threads = Ok (P2_sum x y).
Proof. exact P2_ok. Qed.
Example C07_witness : 0 <= 60 < 2 ^ 122 /\ 0 <= 3 < 2 ^ 62 /\ 60 / Z.max 3 1 < 2 ^ 62 /\ 1 <= 8 < 2 ^ 31 /\
  P2_sum 60 3 = 5 * 5 + 5 * 7 + 5 * 11 + 7 * 7 /\
  P2.P2 (fun _ lo hi => [zrange lo hi]) (fun _ => Gt) (fun _ lo hi => [rev (zrange lo ((lo + hi) / 2)); zrange (Z.max lo ((lo + hi) / 2)) hi])
    60 3 8 = Ok 164.
Proof.
  do 4 (split; [vm_compute; intuition discriminate|]). split; [vm_compute; reflexivity|].
  rewrite C07_P2; [vm_compute; reflexivity|split; [discriminate|reflexivity]|split; [discriminate|reflexivity]|reflexivity|split; [discriminate|reflexivity]| |].
  - intros n. apply C13_witness_sched.
  - intros k. apply C13_witness_sched.
Qed.

(** *** C08: 64-bit x always; 128-bit x under the condition of C15 on the values
    of phi_sum it uses.  The sums are int128_t for 64-bit x: their partial sums fit if
    the first two primes are sieved out (c >= 2), y <= 3 or x < 2^60; the callers pass
    c = get_c(y), which is at least 2 for y >= 3. *)
Theorem C08_S1_64 : forall sched x y c, valid_sched sched -> 0 <= x < 2 ^ 63 -> 1 <= y < 2 ^ 63 ->
  y * y <= 2 ^ 63 - 1 -> 0 <= c <= pi (2 ^ 31 - 1) -> 2 <= c \/ y <= 3 \/ x < 2 ^ 60 ->
  S1.S1 sched x y c = Ok (S1_sum x y c).
Proof.
  intros sched x y c HS Hx Hy Hsq Hc Hb.
  apply S1_ok; [exact HS|split; [apply Hx|eapply Z.lt_trans; [apply Hx|reflexivity]]|exact Hy|exact Hc|intros; exact Hsq|exact Hb|].
  intros n Hn. apply window_free_64. change (smax 64) with (2 ^ 63 - 1).
  assert (x / n <= x) by (apply Z.div_le_upper_bound; nia). lia.
Qed.
Theorem C08_S1_partial : forall sched x y c, valid_sched sched -> 0 <= x < 2 ^ 124 -> 1 <= y < 2 ^ 63 ->
  (x < 2 ^ 63 -> y * y <= 2 ^ 63 - 1) -> 0 <= c <= pi (2 ^ 31 - 1) -> 2 <= c \/ y <= 3 \/ x < 2 ^ 60 ->
  (forall n, 1 <= n <= y -> window_free (x / n) c) ->
  S1.S1 sched x y c = Ok (S1_sum x y c).
Proof.
  intros sched x y c HS Hx Hy Hsq Hc Hb HW. apply S1_ok; [exact HS|exact Hx|exact Hy|exact Hc| |exact Hb|exact HW].
  intros H _. apply Hsq. change (smax 64) with (2 ^ 63 - 1) in H. lia.
Qed.
(** ... which holds for every x below the first failing argument of phi_sum. *)
Theorem C08_S1_below_partial : forall sched x y c, valid_sched sched -> 0 <= x < 52175271301331128848 -> 1 <= y < 2 ^ 63 ->
  (x < 2 ^ 63 -> y * y <= 2 ^ 63 - 1) -> 0 <= c <= pi (2 ^ 31 - 1) -> 2 <= c \/ y <= 3 \/ x < 2 ^ 60 ->
  S1.S1 sched x y c = Ok (S1_sum x y c).
Proof.
  intros sched x y c HS Hx Hy Hsq Hc Hb. apply C08_S1_partial; [exact HS| |exact Hy|exact Hsq|exact Hc|exact Hb|].
  - split; [apply Hx|]. eapply Z.lt_trans; [apply Hx|reflexivity].
  - intros n Hn. apply window_free_small. unfold first_bad.
    assert (x / n <= x) by (apply Z.div_le_upper_bound; nia). lia.
Qed.
Example C08_witness : S1_sum 60 6 1 = 420 /\
  S1.S1 (fun lo hi => [rev (zrange lo ((lo + hi) / 2)); zrange (Z.max lo ((lo + hi) / 2)) hi]) 60 6 1 = Ok 420.
Proof. split; vm_compute; reflexivity. Qed.

Print Assumptions C07_P2. Print Assumptions C08_S1_64. Print Assumptions C08_S1_partial. Print Assumptions C08_S1_below_partial.
