(** Properties C11, C12 (hard special leaves, partition of the special leaves) and C41
    (load balancer). *)
From Coq Require Import ZArith List Bool Lia Znumtheory Permutation.
From Verif.Base Require Import Res Word Zl Par.
From Verif.Spec Require Import Primes LMOSpec S2Spec TilingSpec.
From Verif.Model Require Import Imath S2 S2LoadBalancer S2Hard.
From Verif.Proofs Require Import Primes LMO Imath S2Leaf S2 S2LoadBalancer S2Hard.
Import ListNotations.
Open Scope Z_scope.

(** *** C11: the hard special leaves, for every thread count, every outcome of the
    measurements of the load balancer, every schedule of the parallel sum, every choice between the tree and the plain sum
    (ho_few), every value of smallest_hard_leaf_.  Missing for the full claim:
    z in (2^59 - 2^34, 2^61], where the 64-bit sums of the bit sieve are wrong from about
    2^59 on (C37_sum_refuted); c < 4 (then y < 7) with z in (2^57, 2^59]; y above 2^48. *)
Theorem C11_hard_partial : forall o x y z c threads, oracles_ok z o -> in_s 32 threads ->
  1 <= y -> y * y <= x -> z = x / y -> z <= 2 ^ 59 - 2 ^ 34 -> (z <= 2 ^ 57 \/ 4 <= c) -> y <= 2 ^ 48 -> 0 <= c <= 9 -> (c = pi y \/ 4 <= c) ->
  S2_hard o x y z c threads = Ok (S2_hard_sum x y c).
Proof. exact S2_hard_ok. Qed.
Print Assumptions C11_hard_partial.

Definition C11_o (few : bool) (n : Z) : hard_oracles :=
  {| ho_order := fun n => zrange 0 n; ho_few := fun _ _ => few; ho_size := 3; ho_leaf := 40;
     ho_obs := fun r => {| ob_increase := Z.odd (r + n); ob_decrease := Z.even r; ob_fast := r <? n; ob_segments := fun s => s; ob_size := 7 |};
     ho_sched := fun r lo hi => if Z.odd (r + n) then [zrange lo hi] else [[]; rev (zrange lo hi)] |}.
Lemma C11_o_ok few n : oracles_ok 166 (C11_o few n).
Proof.
  split; [intros; apply Permutation_refl|]. split; [vm_compute; intuition discriminate|].
  split.
  - intros r. split; [vm_compute; intuition discriminate|]. intros s Hs. cbn [ob_segments C11_o ho_obs]. lia.
  - intros r lo hi. unfold schedule_of. cbn [ho_sched C11_o]. destruct (Z.odd (r + n)); cbn [concat app]; rewrite app_nil_r; auto using Permutation_sym, Permutation_rev.
Qed.
Example C11_witness : oracles_ok 166 (C11_o true 1) /\ S2_hard (C11_o true 1) 10000 60 166 4 3 = Ok (S2_hard_sum 10000 60 4) /\ hard_leaf 10000 60 11 13 = true.
Proof. split; [apply C11_o_ok|]. split; [|vm_compute; reflexivity]. apply C11_hard_partial; try lia; [apply C11_o_ok|vm_compute; intuition discriminate|reflexivity]. Qed.

(** *** C12: the classes partition the special leaves, and the three functions together
    return their sum *)
Theorem C12_partition : forall x y c, S2_trivial_sum x y c + S2_easy_sum x y c + S2_hard_sum x y c = S2_sum x y c.
Proof. exact S2_partition. Qed.
(** a leaf is in exactly one of the classes *)
Theorem C12_classes : forall x y p m, Z.b2z (trivial_leaf x p m) + Z.b2z (easy_leaf x y p m) + Z.b2z (hard_leaf x y p m) = 1.
Proof. exact leaf_classes. Qed.
(** the sum of all special leaves completes the ordinary leaves to phi_sum *)
Theorem C12_phi : forall x y c, 0 <= x -> 1 <= y -> 0 <= c <= pi y -> phi_sum x (pi y) = S1_sum x y c + S2_sum x y c.
Proof. exact lmo_split. Qed.
Print Assumptions C12_partition. Print Assumptions C12_classes. Print Assumptions C12_phi.
Example C12_witness : S2_trivial_sum 2000 20 4 = 1187 /\ S2_easy_sum 2000 20 4 = 3575 /\ S2_hard_sum 2000 20 4 = 0 /\ S2_sum 2000 20 4 = 4762.
Proof. repeat split; vm_compute; reflexivity. Qed.

(** *** C41: the load balancer.  For every sequence of observations the main loop
    terminates, the intervals of all threads tile [1, limit), and in each round the
    segment size is a power of two not below the minimum, every thread has at least one
    segment and there is at least one thread. *)
Theorem C41_plan : forall sqrtz leaf obs limit threads size, 0 <= sqrtz < 2 ^ 32 -> (forall r, obs_ok sqrtz (obs r)) ->
  1 <= limit <= 2 ^ 60 -> 0 <= size <= sqrtz ->
  wp (min_size <- lb_min_size size ;; lb_plan sqrtz leaf obs limit threads min_size)
     (fun plan => tiles 1 limit (concat (map snd plan)) /\ Forall (round_ok limit) plan).
Proof. exact lb_plan_ok. Qed.
Print Assumptions C41_plan.
Definition C41_obs (r : Z) : lb_obs :=
  {| ob_increase := Z.odd r; ob_decrease := Z.even r; ob_fast := r <? 3; ob_segments := fun s => 2 * s; ob_size := 7 |}.
Example C41_witness : (forall r, obs_ok 50 (C41_obs r)) /\
  (m <- lb_min_size 7 ;; lb_plan 50 700 C41_obs 4000 2 m) =
    Ok [((512, 512, 1), [(1, 513); (513, 1025)]); ((512, 512, 2), [(1025, 2049); (2049, 3073)]);
        ((512, 512, 1), [(3073, 3585); (3585, 4000)])].
Proof.
  split; [|vm_compute; reflexivity]. intros r. split; [vm_compute; intuition discriminate|]. intros s Hs. cbn [ob_segments C41_obs]. lia.
Qed.
