(** Properties C09, C10 (special leaves, trivial and easy part). *)
From Coq Require Import ZArith List Bool Lia Znumtheory Permutation.
From Verif.Base Require Import Res Word Zl Par.
From Verif.Spec Require Import Primes LMOSpec S2Spec.
From Verif.Model Require Import Libdivide S2.
From Verif.Proofs Require Import Primes S2Leaf S2.
Import ListNotations.
Open Scope Z_scope.

(** *** C09: the trivial special leaves; every thread count and schedule.
    c counts small primes (nth_prime rejects c >= 10; c = 0 only occurs for y < 2). *)
Theorem C09_trivial : forall sched x y z c threads, valid_sched sched -> in_s 32 threads ->
  1 <= y < 2 ^ 62 -> y * y <= x -> z = x / y -> z < 2 ^ 63 -> 0 <= c < 10 -> (c = 0 -> y < 2) ->
  S2_trivial sched x y z c threads = Ok (S2_trivial_sum x y c).
Proof. exact S2_trivial_ok. Qed.
(** the trivial leaves are products of two primes p < q <= y *)
Theorem C09_trivial_pq : forall x y c, 1 <= y -> y * y <= x ->
  S2_trivial_sum x y c = psum 2 y (fun p => if c <? pi p then
    psum (p + 1) y (fun q => if x / (p * q) <? p then p * q else 0) else 0).
Proof. exact S2_trivial_pq. Qed.

(** *** C10: the easy special leaves, for every y between the cube root and the
    square root of x; all table accesses succeed and both loops terminate. *)
Theorem C10_easy : forall root sched x y z c, valid_sched sched -> 0 <= root <= 2 ^ 43 ->
  1 <= y < 2 ^ 62 -> y * y <= x < (y + 1) ^ 3 -> x < 2 ^ 127 -> z = x / y -> 0 <= c ->
  S2_easy root sched x y z c = Ok (S2_easy_sum x y c).
Proof. exact S2_easy_ok. Qed.
(** the variant dividing by multiplication (S2_easy_libdivide.cpp), which is the one
    compiled by default *)
Theorem C10_easy_libdivide : forall div128 mullhi root sched x y z c,
  (div128 = div128_exact \/ div128 = div128_knuth) -> (mullhi = mullhi_128 \/ mullhi = mullhi_32) ->
  valid_sched sched -> 0 <= root <= 2 ^ 43 ->
  1 <= y < 2 ^ 62 -> y * y <= x < (y + 1) ^ 3 -> x < 2 ^ 127 -> z = x / y -> 0 <= c ->
  S2_easy_libdivide div128 mullhi root sched x y z c = Ok (S2_easy_sum x y c).
Proof. exact S2_easy_libdivide_impl. Qed.

Definition C09_sched (lo hi : Z) : list (list Z) := [[]; rev (zrange lo hi)].
Example C09_witness_sched : valid_sched C09_sched.
Proof. intros lo hi. unfold schedule_of, C09_sched. cbn [concat app]. rewrite app_nil_r. apply Permutation_sym, Permutation_rev. Qed.
Example C09_witness : S2_trivial C09_sched 1000 15 66 2 4 = Ok (S2_trivial_sum 1000 15 2) /\ S2_trivial_sum 1000 15 2 = 143.
Proof. split; vm_compute; reflexivity. Qed.
Example C10_witness : S2_easy 9 C09_sched 1000 15 66 2 = Ok (S2_easy_sum 1000 15 2) /\ S2_easy_sum 1000 15 2 = 2191.
Proof. split; vm_compute; reflexivity. Qed.
Example C10_witness_libdivide : S2_easy_libdivide div128_exact mullhi_128 9 C09_sched 1000 15 66 2 = Ok 2191.
Proof. vm_compute; reflexivity. Qed.
Print Assumptions C09_trivial. Print Assumptions C09_trivial_pq. Print Assumptions C10_easy. Print Assumptions C10_easy_libdivide.
