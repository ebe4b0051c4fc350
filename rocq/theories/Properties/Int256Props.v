(** C16-C23: the 256-bit and 128-bit integer layer.  Statements only; the proofs
    are in Proofs/Int256*.v.  [sval] (Spec/IntSpec.v) is the integer a pair of
    words denotes in two's complement. *)
From Coq Require Import ZArith List Bool Ascii String Lia.
From Verif.Base Require Import Res Word.
From Verif.Model Require Import Int256.
From Verif.Spec Require Import IntSpec.
From Verif.Proofs Require Import Int256 Int256b Int256c.
Import ListNotations.
Open Scope Z_scope.

(** *** C16 *)
Theorem C16_add : forall a b, wf256 a -> wf256 b ->
  wf256 (add256 a b) /\ sval (add256 a b) = swrap 256 (sval a + sval b).
Proof. intros a b Ha Hb. exact (conj (add256_wf a b) (add256_sval a b Ha Hb)). Qed.

Theorem C16_sub : forall a b, wf256 a -> wf256 b ->
  wf256 (sub256 a b) /\ sval (sub256 a b) = swrap 256 (sval a - sval b).
Proof. intros a b Ha Hb. exact (conj (sub256_wf a b) (sub256_sval a b Ha Hb)). Qed.

Theorem C16_neg : forall a, wf256 a ->
  wf256 (neg256 a) /\ sval (neg256 a) = swrap 256 (- sval a).
Proof. intros a Ha. exact (conj (neg256_wf a Ha) (neg256_sval a Ha)). Qed.

Theorem C16_inc : forall a, wf256 a ->
  wf256 (inc256 a) /\ sval (inc256 a) = swrap 256 (sval a + 1).
Proof. intros a Ha. exact (conj (inc256_wf a Ha) (inc256_sval a Ha)). Qed.

Theorem C16_dec : forall a, wf256 a ->
  wf256 (dec256 a) /\ sval (dec256 a) = swrap 256 (sval a - 1).
Proof. intros a Ha. exact (conj (dec256_wf a Ha) (dec256_sval a Ha)). Qed.

Theorem C16_not : forall a, wf256 a ->
  wf256 (not256 a) /\ sval (not256 a) = - sval a - 1.
Proof. intros a Ha. exact (conj (not256_wf a Ha) (not256_sval a Ha)). Qed.

(** Every integer of the signed 256-bit range is denoted by exactly one
    well-formed pair, so the statements above determine the result. *)
Theorem C16_representation : forall z, in_s 256 z ->
  exists a, (wf256 a /\ sval a = z) /\ forall b, wf256 b /\ sval b = z -> b = a.
Proof. exact sval_repr_unique. Qed.

Example C16_witness :
  let a := of_native (2 ^ 127 + 5) in
  wf256 a /\ sval (add256 a a) = 2 ^ 128 + 10 /\ sval (sub256 (of_native 3) a) = - 2 ^ 127 - 2.
Proof. vm_compute. repeat split; intros H; discriminate. Qed.

(** *** C17: the full statement is false. *)
Theorem C17_mul_refuted : exists a b, wf256 a /\ wf256 b /\
  sval (mul256 a b) <> swrap 256 (sval a * sval b).
Proof. exact mul256_wrong. Qed.

(** Precisely: whenever one operand is in the window [-2^128, -2^128 + 2^64)
    and the other is a 64-bit non-negative number other than 1. *)
Theorem C17_mul_refuted_family : forall a b, wf256 a -> wf256 b ->
  - 2 ^ 128 <= sval a < - 2 ^ 128 + 2 ^ 64 -> 0 <= sval b < 2 ^ 64 -> sval b <> 1 ->
  sval (mul256 a b) <> sval a * sval b /\ in_s 256 (sval a * sval b).
Proof. exact mul256_wrong_family. Qed.

(** Missing from the full statement: operands in [-2^128, -2^128+2^64). *)
Theorem C17_mul_partial : forall a b, wf256 a -> wf256 b ->
  ~ (- 2 ^ 128 <= sval a < - 2 ^ 128 + 2 ^ 64) ->
  ~ (- 2 ^ 128 <= sval b < - 2 ^ 128 + 2 ^ 64) ->
  wf256 (mul256 a b) /\ sval (mul256 a b) = swrap 256 (sval a * sval b).
Proof. exact mul256_partial. Qed.

Example C17_witness :
  let a := of_native (- 2 ^ 100 - 7) in let b := of_native (2 ^ 120 + 3) in
  ~ (- 2 ^ 128 <= sval a < - 2 ^ 128 + 2 ^ 64) /\ ~ (- 2 ^ 128 <= sval b < - 2 ^ 128 + 2 ^ 64) /\
  sval (mul256 a b) = (- 2 ^ 100 - 7) * (2 ^ 120 + 3).
Proof. vm_compute. split; [|split]; auto; intros [H1 H2]; try (apply H1; reflexivity); discriminate H2. Qed.

(** *** C18: the full statement is false for the minimum. *)
Theorem C18_div_refuted : exists a b q, wf256 a /\ wf256 b /\ sval b <> 0 /\
  quot256 a b = Ok q /\ sval q <> Z.quot (sval a) (sval b).
Proof. exact quot256_wrong. Qed.

Theorem C18_div_min_refuted : exists a, wf256 a /\ sval a = - 2 ^ 255 /\
  forall b, wf256 b -> 1 < sval b -> quot256 a b = Fail UB.
Proof. exact quot256_min_ub. Qed.

(** Missing: dividend or divisor equal to -2^255. *)
Theorem C18_div_partial : forall a b, wf256 a -> wf256 b ->
  sval a <> - 2 ^ 255 -> sval b <> - 2 ^ 255 -> sval b <> 0 ->
  exists q r, quot256 a b = Ok q /\ rem256 a b = Ok r /\ wf256 q /\ wf256 r /\
    trunc_div (sval a) (sval b) (sval q) (sval r).
Proof. exact div256_partial. Qed.

Theorem C18_div_by_zero : forall a b, wf256 a -> wf256 b -> sval b = 0 ->
  quot256 a b = Fail Abort /\ rem256 a b = Fail Abort.
Proof. exact div256_by_zero. Qed.

Example C18_witness : exists q r,
  quot256 (neg256 (mul256 (of_native (2 ^ 126 + 9)) (of_native (2 ^ 90)))) (of_native (10 ^ 30 + 1)) = Ok q /\
  rem256 (neg256 (mul256 (of_native (2 ^ 126 + 9)) (of_native (2 ^ 90)))) (of_native (10 ^ 30 + 1)) = Ok r /\
  sval q = - ((2 ^ 126 + 9) * 2 ^ 90 / (10 ^ 30 + 1)) /\
  sval r = - ((2 ^ 126 + 9) * 2 ^ 90 mod (10 ^ 30 + 1)).
Proof. eexists; eexists. split; [vm_compute; reflexivity|]. split; [vm_compute; reflexivity|]. split; vm_compute; reflexivity. Qed.

(** *** C19 *)
Theorem C19_comparisons : forall a b, wf256 a -> wf256 b ->
  (eq256 a b = true <-> sval a = sval b) /\ (ne256 a b = true <-> sval a <> sval b) /\
  (lt256 a b = true <-> sval a < sval b) /\ (le256 a b = true <-> sval a <= sval b) /\
  (gt256 a b = true <-> sval a > sval b) /\ (ge256 a b = true <-> sval a >= sval b).
Proof. exact cmp256_spec. Qed.

Example C19_witness : lt256 (of_native (-5)) (of_native 3) = true /\ gt256 (of_native (2 ^ 100)) (of_native (-1)) = true.
Proof. split; reflexivity. Qed.

(** *** C20: shift counts 1..255, right shift of non-negative values only. *)
Theorem C20_shl_partial : forall a k, wf256 a -> 1 <= k < 256 ->
  exists r, shl256 a k = Ok r /\ wf256 r /\ sval r = swrap 256 (sval a * 2 ^ k).
Proof. exact shl256_sval. Qed.

Theorem C20_shr_partial : forall a k, wf256 a -> 0 <= sval a -> 1 <= k < 256 ->
  exists r, shr256 a k = Ok r /\ wf256 r /\ sval r = sval a / 2 ^ k.
Proof. exact shr256_sval_nonneg. Qed.

(** >> on a negative number shifts in zeroes: not a division by 2^k. *)
Theorem C20_shr_negative_refuted : forall a k, wf256 a -> sval a < 0 -> 1 <= k < 256 ->
  exists r, shr256 a k = Ok r /\ 0 <= sval r /\ sval r <> sval a / 2 ^ k.
Proof. exact shr256_negative_wrong. Qed.

(** Shifting by 0 is not the identity: it is undefined behaviour. *)
Theorem C20_shift_zero_refuted : forall a, shl256 a 0 = Fail UB /\ shr256 a 0 = Fail UB.
Proof. exact shift256_zero_ub. Qed.

Theorem C20_bitwise : forall a b, wf256 a -> wf256 b ->
  sval (and256 a b) = Z.land (sval a) (sval b) /\
  sval (or256 a b) = Z.lor (sval a) (sval b) /\
  sval (xor256 a b) = Z.lxor (sval a) (sval b) /\
  sval (not256 a) = Z.lnot (sval a).
Proof. exact bitwise256_sval. Qed.

Example C20_witness : exists r, shl256 (of_native (2 ^ 100 + 1)) 77 = Ok r /\ sval r = 2 ^ 177 + 2 ^ 77.
Proof. eexists; split; [vm_compute; reflexivity|]. vm_compute; reflexivity. Qed.

(** *** C21 *)
Theorem C21_print_partial : forall n, wf256 n -> sval n <> - 2 ^ 255 ->
  exists s, print256 n = Ok s /\ decimal_of (sval n) s.
Proof. exact print256_ok. Qed.

(** The minimum is printed as "-0". *)
Theorem C21_print_min_refuted : exists n s, wf256 n /\ sval n = - 2 ^ 255 /\
  print256 n = Ok s /\ ~ decimal_of (sval n) s.
Proof. exact print256_min_wrong. Qed.

Example C21_witness : print256 (neg256 (mul256 (of_native (10 ^ 30)) (of_native 1200))) =
  Ok (list_ascii_of_string "-1200000000000000000000000000000000").
Proof. vm_compute. reflexivity. Qed.

(** *** C22 *)
Theorem C22_print_u128 : forall n, in_u 128 n ->
  exists s, print_u128 n = Ok s /\ decimal_of n s.
Proof. exact print_u128_all. Qed.

Theorem C22_print_s128_partial : forall n, in_s 128 n -> n <> smin 128 ->
  exists s, print_s128 n = Ok s /\ decimal_of n s.
Proof. exact print_s128_all. Qed.

(** Printing the minimum negates it: signed overflow. *)
Theorem C22_print_s128_min_refuted : print_s128 (smin 128) = Fail UB.
Proof. exact print_s128_min_ub. Qed.

Example C22_witness : print_s128 (- 10 ^ 20 - 7) = Ok (list_ascii_of_string "-100000000000000000007").
Proof. vm_compute. reflexivity. Qed.

(** *** C23 *)
Theorem C23_from_native : forall z, - 2 ^ 127 <= z < 2 ^ 128 ->
  wf256 (of_native z) /\ sval (of_native z) = z.
Proof. intros z Hz. exact (conj (of_native_wf z) (of_native_sval z Hz)). Qed.

Theorem C23_to_unsigned : forall n a, In n [8; 16; 32; 64; 128] -> wf256 a ->
  in_u n (sval a) -> to_unsigned n a = sval a.
Proof. exact to_unsigned_all. Qed.

(** Missing: converting the minimum of the 32/64/128-bit types. *)
Theorem C23_to_signed_partial : forall n a, In n [8; 16; 32; 64; 128] -> wf256 a ->
  in_s n (sval a) -> (32 <= n -> sval a <> smin n) -> to_signed n a = Ok (sval a).
Proof. exact to_signed_all. Qed.

Theorem C23_to_signed_min_refuted : forall n, In n [32; 64; 128] ->
  to_signed n (of_native (smin n)) = Fail UB.
Proof. exact to_signed_min_all. Qed.

Example C23_witness : to_signed 64 (of_native (- 2 ^ 63 + 1)) = Ok (- 2 ^ 63 + 1) /\
  to_signed 8 (of_native (-128)) = Ok (-128).
Proof. split; vm_compute; reflexivity. Qed.

Print Assumptions C16_add. Print Assumptions C16_sub. Print Assumptions C16_neg.
Print Assumptions C16_inc. Print Assumptions C16_dec. Print Assumptions C16_not.
Print Assumptions C16_representation.
Print Assumptions C17_mul_refuted. Print Assumptions C17_mul_refuted_family.
Print Assumptions C17_mul_partial.
Print Assumptions C18_div_refuted. Print Assumptions C18_div_min_refuted.
Print Assumptions C18_div_partial. Print Assumptions C18_div_by_zero.
Print Assumptions C19_comparisons.
Print Assumptions C20_shl_partial. Print Assumptions C20_shr_partial.
Print Assumptions C20_shr_negative_refuted. Print Assumptions C20_shift_zero_refuted.
Print Assumptions C20_bitwise.
Print Assumptions C21_print_partial. Print Assumptions C21_print_min_refuted.
Print Assumptions C22_print_u128. Print Assumptions C22_print_s128_partial.
Print Assumptions C22_print_s128_min_refuted.
Print Assumptions C23_from_native. Print Assumptions C23_to_unsigned.
Print Assumptions C23_to_signed_partial. Print Assumptions C23_to_signed_min_refuted.
