(** Properties C13 (phi) and C14 (pi_legendre). *)
From Coq Require Import ZArith List Bool Lia Znumtheory Permutation.
From Verif.Base Require Import Res Word Zl Par.
From Verif.Spec Require Import Primes LMOSpec.
From Verif.Model Require Import Primesieve PhiTiny Phi.
From Verif.Proofs Require Import Phi.
Import ListNotations.
Open Scope Z_scope.

(** *** C13: every x, every schedule; a such that the a-th prime fits into int32_t *)
Theorem C13_phi_partial : forall sched x a, valid_sched sched -> x <= 2 ^ 63 - 1 -> a <= pi (2 ^ 31 - 1) ->
  phi_xa sched x a = Ok (phi x a).
Proof. exact phi_xa_ok. Qed.
(** With the next prime (2147483659, stored as a negative int32_t) the result is wrong. *)
Theorem C13_phi_refuted : exists x a, 0 <= x <= 2 ^ 63 - 1 /\ 0 <= a /\
  forall sched, valid_sched sched -> exists r, phi_xa sched x a = Ok r /\ r <> phi x a.
Proof.
  exists (q31 * q31), (pi q31). split; [split; discriminate|]. split; [apply Primes.pi_nonneg|].
  intros sched HS. exists (phi (q31 * q31) (pi q31) + 1). split; [exact (phi_wrong sched HS)|].
  generalize (phi (q31 * q31) (pi q31)). intros z. lia.
Qed.
(** one thread, and two threads of which the first runs its iterations backwards *)
Example C13_witness_sched : valid_sched (fun lo hi => [zrange lo hi]) /\
  valid_sched (fun lo hi => [rev (zrange lo ((lo + hi) / 2)); zrange (Z.max lo ((lo + hi) / 2)) hi]).
Proof.
  split; intros lo hi; unfold schedule_of; cbn [concat]; rewrite app_nil_r; [reflexivity|].
  destruct (Z.le_gt_cases lo hi) as [L|L].
  - assert (lo <= (lo + hi) / 2 <= hi) by (split; [apply Z.div_le_lower_bound|apply Z.div_le_upper_bound]; lia).
    rewrite Z.max_r by lia. rewrite (zrange_app lo ((lo + hi) / 2) hi) by lia. apply Permutation_app_tail. symmetry. apply Permutation_rev.
  - assert ((lo + hi) / 2 <= lo) by (apply Z.div_le_upper_bound; lia).
    rewrite !zrange_empty by lia. reflexivity.
Qed.
Example C13_witness : phi_xa (fun lo hi => [zrange lo hi]) 60 4 = Ok 14.
Proof.
  rewrite C13_phi_partial; [vm_compute; reflexivity|apply C13_witness_sched|discriminate|].
  change 4 with (pi 7). apply Primes.pi_mono. discriminate.
Qed.

(** *** C14 *)
Theorem C14_pi_legendre_partial : forall sched x, (forall n, valid_sched (sched n)) -> x < 2147483659 ^ 2 ->
  pi_legendre sched x = Ok (pi x).
Proof. intros sched x HS Hx. apply pi_legendre_ok; [exact HS|exact Hx]. Qed.
Theorem C14_pi_legendre_refuted : exists x, 0 <= x <= 2 ^ 63 - 1 /\
  forall sched, (forall n, valid_sched (sched n)) -> exists r, pi_legendre sched x = Ok r /\ r <> pi x.
Proof.
  exists (q31 * q31). split; [split; discriminate|]. intros sched HS. exists (pi (q31 * q31) + 1).
  split; [exact (pi_legendre_wrong sched HS)|]. generalize (pi (q31 * q31)). intros z. lia.
Qed.
Example C14_witness : pi_legendre (fun _ lo hi => [zrange lo hi]) 100 = Ok 25.
Proof.
  rewrite C14_pi_legendre_partial; [vm_compute; reflexivity|intros n; apply C13_witness_sched|reflexivity].
Qed.

Print Assumptions C13_phi_partial.
Print Assumptions C13_phi_refuted.
Print Assumptions C14_pi_legendre_partial.
Print Assumptions C14_pi_legendre_refuted.
