(** Properties C06 (Meissel's formula) and C15 (phi_sum). *)
From Coq Require Import ZArith List Bool Lia Znumtheory.
From Verif.Base Require Import Res Word.
From Verif.Spec Require Import Primes IntSpec LMOSpec PhiSumSpec.
From Verif.Model Require Import Int256 PhiSum.
From Verif.Proofs Require Import NT LMO PhiSum.
Open Scope Z_scope.

(** *** C06: for every y >= floor(cbrt x), i.e. x < (y+1)^3 *)
Theorem C06_meissel : forall x y, 1 <= y <= x -> x < (y + 1) ^ 3 ->
  phi_sum x (pi y) + prime_sum y - 1 - P2_sum x y = prime_sum x.
Proof. intros x y H1 H2. rewrite (meissel_sum x y H1 H2). reflexivity. Qed.
(** ... and the splitting of phi_sum(x, pi(y)) into ordinary and special leaves. *)
Theorem C06_leaves : forall x y c, 0 <= x -> 1 <= y -> 0 <= c <= pi y ->
  S1_sum x y c + S2_sum x y c = phi_sum x (pi y).
Proof. intros x y c H1 H2 H3. symmetry. exact (lmo_split x y c H1 H2 H3). Qed.
Example C06_witness : 1 <= 6 <= 60 /\ 60 < (6 + 1) ^ 3 /\
  phi_sum 60 (pi 6) = 480 /\ P2_sum 60 6 = 49 /\ prime_sum 6 = 10 /\ prime_sum 60 = 440 /\
  S1_sum 60 6 1 = 420 /\ S2_sum 60 6 1 = 60.
Proof. repeat split; try (vm_compute; congruence). Qed.

(** *** C15: 64-bit arguments, 128-bit result *)
Theorem C15_phi_sum_64 : forall x a, x <= 2 ^ 63 - 1 -> 0 <= a <= pi (2 ^ 31 - 1) ->
  phi_sum_64 x a = Ok (phi_sum x a).
Proof. exact phi_sum_64_ok. Qed.
(** 128-bit arguments, 256-bit result: wrong for some arguments ... *)
Theorem C15_phi_sum_128_refuted : exists x a r, 0 <= x <= 2 ^ 127 - 1 /\ 0 <= a <= pi (2 ^ 31 - 1) /\
  phi_sum_128 x a = Ok r /\ sval r <> phi_sum x a.
Proof.
  destruct phi_sum_128_wrong as (r & E & V). exists first_bad, 1, r.
  split; [split; discriminate|]. split; [split; [discriminate|exact one_le_pi31]|].
  split; [exact E|]. rewrite V. intros F. assert (2 ^ 128 = 0) by lia. discriminate.
Qed.
(** ... exact for every argument below the first failing one ... *)
Theorem C15_phi_sum_128_partial : forall x a, - 2 ^ 63 <= x < 52175271301331128848 -> 0 <= a <= pi (2 ^ 31 - 1) ->
  wp (phi_sum_128 x a) (fun r => wf256 r /\ sval r = phi_sum x a).
Proof.
  intros x a Hx Ha. apply phi_sum_128_ok; [split; [apply Hx|]|exact Ha|apply window_free_small; apply Hx].
  destruct Hx as [_ Hx]. apply Z.lt_le_incl. eapply Z.lt_trans; [exact Hx|reflexivity].
Qed.
(** ... and, without bound on x, whenever no negated intermediate sum falls into
    the window where the 256-bit product is wrong. *)
Theorem C15_phi_sum_128_window_partial : forall x a, - 2 ^ 63 <= x <= 2 ^ 127 - 1 -> 0 <= a <= pi (2 ^ 31 - 1) ->
  window_free x a -> wp (phi_sum_128 x a) (fun r => wf256 r /\ sval r = phi_sum x a).
Proof. exact phi_sum_128_ok. Qed.
Example C15_witness : phi_sum_64 60 3 = Ok (phi_sum 60 3) /\ phi_sum 60 3 = 480 /\
  (exists r, phi_sum_128 (10 ^ 19) 4 = Ok r /\ sval r = 11428571428571428558571428571428571431) /\
  window_free (10 ^ 19) 4.
Proof.
  split; [vm_compute; reflexivity|]. split; [vm_compute; reflexivity|]. split.
  - eexists. split; [vm_compute; reflexivity|]. vm_compute. reflexivity.
  - apply window_free_small. reflexivity.
Qed.
(** Beyond the bound too: x = 10^20 has no such intermediate sum with a = 1. *)
Example C15_witness_large : window_free (10 ^ 20) 1.
Proof.
  intros m p Hm Hmu Hp Hd Hq [W1 W2].
  assert (m = 2 /\ p = 2) as [-> ->].
  { exact (odd_only_two m p Hm Hmu Hp Hd Hq). }
  change (pi 2 - 1) with 0 in W2. rewrite phi_sum_0 in W2 by (vm_compute; discriminate).
  vm_compute in W2. now apply W2.
Qed.

Print Assumptions C06_meissel. Print Assumptions C06_leaves. Print Assumptions C15_phi_sum_64.
Print Assumptions C15_phi_sum_128_refuted. Print Assumptions C15_phi_sum_128_partial.
Print Assumptions C15_phi_sum_128_window_partial.
