(** Property C32 (division by multiplication and shift). *)
From Coq Require Import ZArith.
From Verif.Base Require Import Res.
From Verif.Model Require Import Libdivide.
From Verif.Proofs Require Import Libdivide.
Open Scope Z_scope.

(** *** C32: for every divisor d >= 2 and every 64-bit n, the divider generated for d
    divides n exactly, whichever of the platform variants of the 128-by-64-bit division
    and of the 64-by-64-bit multiplication is compiled. *)
Theorem C32_branchfree : forall div128 mullhi d n,
  (div128 = div128_exact \/ div128 = div128_knuth) -> (mullhi = mullhi_128 \/ mullhi = mullhi_32) ->
  2 <= d < 2 ^ 64 -> 0 <= n < 2 ^ 64 ->
  (denom <- u64_branchfree_gen div128 d ;; u64_branchfree_do mullhi n denom) = Ok (n / d).
Proof. exact libdivide_branchfree. Qed.
(** the variant with branches, which also divides by 1 *)
Theorem C32_branchfull : forall div128 mullhi d n,
  (div128 = div128_exact \/ div128 = div128_knuth) -> (mullhi = mullhi_128 \/ mullhi = mullhi_32) ->
  1 <= d < 2 ^ 64 -> 0 <= n < 2 ^ 64 ->
  (denom <- u64_gen div128 d ;; u64_do mullhi n denom) = Ok (n / d).
Proof. exact libdivide_branchfull. Qed.
(** the divisors 0 and 1 are rejected by the branch-free generator *)
Theorem C32_rejected : forall div128 d, d = 0 \/ d = 1 -> u64_branchfree_gen div128 d = Fail Abort.
Proof. exact libdivide_rejects. Qed.

(** a divisor needing the 65th bit of the multiplier, both division algorithms *)
Example C32_witness :
  u64_branchfree_gen div128_knuth 7 = Ok (2635249153387078803, 2) /\ u64_branchfree_gen div128_exact 7 = Ok (2635249153387078803, 2) /\
  u64_branchfree_do mullhi_32 (2 ^ 64 - 1) (2635249153387078803, 2) = Ok 2635249153387078802 /\ (2 ^ 64 - 1) / 7 = 2635249153387078802.
Proof. repeat split; vm_compute; reflexivity. Qed.
Example C32_witness_large :
  (denom <- u64_branchfree_gen div128_knuth (2 ^ 64 - 59) ;; u64_branchfree_do mullhi_128 (2 ^ 64 - 1) denom) = Ok 1.
Proof. vm_compute; reflexivity. Qed.
Print Assumptions C32_branchfree. Print Assumptions C32_branchfull. Print Assumptions C32_rejected.
