(** Property C34 (FactorTable). *)
From Coq Require Import ZArith List Bool Lia Znumtheory Permutation.
From Verif.Base Require Import Res Word Zl Arr.
From Verif.Spec Require Import Primes LMOSpec WheelSpec.
From Verif.Model Require Import FactorTable.
From Verif.Proofs Require Import FactorTable.
Import ListNotations.
Open Scope Z_scope.

(** *** C34: the table.  T is the largest value of the element type (uint16_t or uint32_t);
    [order n] is the order in which the n iterations of the parallel loop are executed.
    Full statement: the table describes *every* n coprime to 210, n = 1 included, and the
    comparison holds for all primes.  n = 1 is wrong (C34_one_refuted); the comparison
    needs p < n when n is a prime because the stored value is then T. *)
Theorem C34_factor_table_partial : forall T y threads order, (T = 2 ^ 16 - 1 \/ T = 2 ^ 32 - 1) ->
  y <= ft_max T -> y < 2 ^ 55 -> in_s 32 threads -> (forall n, 1 <= n -> Permutation (order n) (zrange 0 n)) ->
  wp (FactorTable T y threads order) (fun f => forall n, 1 < n <= Z.max 8 y -> coprime210 n = true ->
    exists i v, get_index n = Ok i /\ get_number i = Ok n /\ ft_lpf f i = Ok v /\
      (mu n = 0 -> v = 0) /\ (mu n <> 0 -> ft_mu f i = Ok (mu n)) /\
      (mu n <> 0 -> forall p, prime p -> p * p <= y -> p < n -> (p < v <-> p < least_factor n))).
Proof. exact ft_lookup. Qed.

(** the index of n is that of the largest number <= n coprime to 210 *)
Theorem C34_index : forall n, 1 <= n -> exists i m, get_index n = Ok i /\ get_number i = Ok m /\ m <= n /\ coprime210 m = true /\
  forall k, m < k <= n -> coprime210 k = false.
Proof. exact ft_index_spec. Qed.

(** limits above the capacity of the type are rejected *)
Theorem C34_limit : forall T y threads order, ft_max T < y -> FactorTable T y threads order = Fail Throw.
Proof. intros T y threads order H. unfold FactorTable. destruct (Z.gtb_spec y (ft_max T)); [reflexivity|lia]. Qed.

(** a table of 200 numbers, built by one thread: 143 = 11*13, 121 = 11^2, 187 = 11*17 *)
Example C34_witness : (f <- FactorTable (2 ^ 16 - 1) 200 1 (zrange 0) ;;
    a <- ft_lpf f 32 ;; b <- ft_lpf f 27 ;; c <- ft_lpf f 26 ;;
    n1 <- get_number 32 ;; n2 <- get_number 27 ;; n3 <- get_number 26 ;; Ok [n1; a; n2; b; n3; c]) = Ok [143; 10; 121; 0; 113; 65535].
Proof. vm_compute. reflexivity. Qed.
(** n = 1 has mu(1) = 1 but the table says -1: its entry is never written *)
Theorem C34_one_refuted : exists f, FactorTable (2 ^ 16 - 1) 200 1 (zrange 0) = Ok f /\ get_index 1 = Ok 0 /\ ft_mu f 0 = Ok (-1) /\ mu 1 = 1.
Proof.
  eexists. split; [vm_compute; reflexivity|]. split; [reflexivity|]. split; [reflexivity|vm_compute; reflexivity].
Qed.

Print Assumptions C34_factor_table_partial.
Print Assumptions C34_index.
Print Assumptions C34_limit.
Print Assumptions C34_one_refuted.
