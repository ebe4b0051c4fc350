(** Properties C35 (BinaryIndexedTree), C36, C37 (BitSieve) and C39 (Wheel). *)
From Coq Require Import ZArith List Bool Lia Znumtheory.
From Verif.Base Require Import Res Word Zl.
From Verif.Spec Require Import Primes SieveSpec WheelSpec.
From Verif.Model Require Import Fenwick Wheel BitSieve.
From Verif.Proofs Require Import NT Fenwick Wheel BitSieve.
Import ListNotations.
Open Scope Z_scope.

(** *** C35: after initialisation from a sieve s (bit i stands for low + 2*i) and the
    removal of the numbers vs, a query returns the sum of the remaining numbers up to
    the position; the old contents of the tree do not matter and nothing overflows *)
Theorem C35_fenwick : forall old size get low (s : Z -> bool) vs pos, 0 <= size -> 0 <= low -> low + size <= 2 ^ 63 ->
  (forall i, 0 <= i < size / 2 -> get (2 * i) = Ok (Z.b2z (s i))) ->
  NoDup vs -> (forall v, In v vs -> exists i, 0 <= i < size / 2 /\ s i = true /\ v = low + 2 * i) ->
  0 <= pos < 2 * (size / 2) ->
  (tree <- bit_init old size get low ;; tree <- bit_updates tree vs low ;; bit_sum tree pos) =
  Ok (sumr 0 (pos / 2 + 1) (fun i => if s i && negb (existsb (Z.eqb (low + 2 * i)) vs) then low + 2 * i else 0)).
Proof. exact bit_run_ok. Qed.
Example C35_witness : (tree <- bit_init [7; 7] 16 (fun p => Ok (Z.b2z (negb (p =? 4)))) 101 ;;
  tree <- bit_updates tree [103; 113] 101 ;; bit_sum tree 13) = Ok (101 + 107 + 109 + 111).
Proof. vm_compute. reflexivity. Qed.

(** *** C36: pre_sieve leaves exactly the bits of the numbers without a prime factor
    among the first c primes, whatever the sieve contained before *)
Theorem C36_pre_sieve : forall bs c low,
  (forall w, In w (bs_words bs) -> 0 <= w < 2 ^ 64) -> 0 <= bs_size bs <= 128 * zlen (bs_words bs) -> zlen (bs_words bs) < 2 ^ 58 ->
  0 <= c < 10 -> Z.odd low = true -> 1 <= low < 2 ^ 63 ->
  wp (pre_sieve bs c low) (fun bs' => bs_size bs' = bs_size bs /\ zlen (bs_words bs') = zlen (bs_words bs) /\
    forall i, 0 <= i < 64 * zlen (bs_words bs') ->
      (sieve_bit (bs_words bs') i = true <-> forall p, prime p -> pi p <= c -> ~ (p | low + 2 * i))).
Proof. exact pre_sieve_spec. Qed.
Example C36_witness : (bs <- bs_make 300 ;; bs <- pre_sieve bs 4 121 ;;
   Ok (filter (fun i => sieve_bit (bs_words bs) i) (zrange 0 25))) = Ok [0; 3; 5; 8; 9; 11; 14; 15; 18; 21; 23; 24].
Proof. vm_compute. reflexivity. Qed.

(** *** C37: sums of the marked numbers; full statement for every low <= 2^61, proved
    exactly where the marked numbers of each single word have a sum below 2^64 *)
Theorem C37_sum_exact_partial : forall bs low start stop,
  (forall w, In w (bs_words bs) -> 0 <= w < 2 ^ 64) -> 0 <= bs_size bs <= 128 * zlen (bs_words bs) ->
  0 <= low -> low + 128 * zlen (bs_words bs) <= 2 ^ 60 -> 0 <= start < 2 ^ 63 -> 0 <= stop < bs_size bs ->
  (forall j, 0 <= j < zlen (bs_words bs) -> marked_sum (sieve_bit (bs_words bs)) low (128 * j) (128 * j + 126) < 2 ^ 64) ->
  bs_sum bs low start stop = Ok (marked_sum (sieve_bit (bs_words bs)) low start stop).
Proof. exact bs_sum_exact. Qed.
(** this holds for every sieve below 2^59 with the multiples of 3, 5 and 7 removed *)
Theorem C37_sum_presieved_partial : forall bs low start stop,
  (forall w, In w (bs_words bs) -> 0 <= w < 2 ^ 64) -> 0 <= bs_size bs <= 128 * zlen (bs_words bs) ->
  1 <= low -> low + 128 * zlen (bs_words bs) <= 2 ^ 59 -> 0 <= start < 2 ^ 63 -> 0 <= stop < bs_size bs ->
  (forall i, 0 <= i < 64 * zlen (bs_words bs) -> sieve_bit (bs_words bs) i = true -> forall p, prime p -> p <= 7 -> ~ (p | low + 2 * i)) ->
  bs_sum bs low start stop = Ok (marked_sum (sieve_bit (bs_words bs)) low start stop).
Proof. exact bs_sum_pre. Qed.
Definition C37_words : list Z := match (bs <- bs_make 300 ;; pre_sieve bs 4 (2 ^ 58 + 1)) with Ok bs => bs_words bs | Fail _ => [] end.
Example C37_witness_presieved : (bs <- bs_make 300 ;; pre_sieve bs 4 (2 ^ 58 + 1)) = Ok {| bs_words := C37_words; bs_size := 300 |} /\
  (forall i, 0 <= i < 64 * zlen C37_words -> sieve_bit C37_words i = true -> forall p, prime p -> p <= 7 -> ~ (p | 2 ^ 58 + 1 + 2 * i)) /\
  (forall j, 0 <= j < zlen C37_words -> marked_sum (sieve_bit C37_words) (2 ^ 58 + 1) (128 * j) (128 * j + 126) < 2 ^ 64) /\
  bs_sum {| bs_words := C37_words; bs_size := 300 |} (2 ^ 58 + 1) 3 290 = Ok 19023204826012984894 /\ 2 ^ 64 < 19023204826012984894.
Proof.
  split; [vm_compute; reflexivity|]. split; [|split; [|split; vm_compute; reflexivity]].
  - intros i Hi Hb p Hp P7 Hd.
    assert (A : forallb (fun i => negb (sieve_bit C37_words i) || forallb (fun p => negb ((2 ^ 58 + 1 + 2 * i) mod p =? 0)) [2; 3; 4; 5; 6; 7]) (zrange 0 (64 * zlen C37_words)) = true) by (vm_compute; reflexivity).
    rewrite forallb_forall in A. specialize (A i ltac:(apply in_zrange; exact Hi)). rewrite Hb in A. cbn [negb orb] in A. rewrite forallb_forall in A.
    pose proof (prime_ge_2 p Hp) as P2. specialize (A p ltac:(cbn [In]; lia)). apply Z.mod_divide in Hd; [|lia]. rewrite Hd in A. discriminate.
  - intros j Hj. assert (A : forallb (fun j => marked_sum (sieve_bit C37_words) (2 ^ 58 + 1) (128 * j) (128 * j + 126) <? 2 ^ 64) (zrange 0 (zlen C37_words)) = true) by (vm_compute; reflexivity).
    rewrite forallb_forall in A. apply Z.ltb_lt. apply (A j). now apply in_zrange.
Qed.
(** and for every sieve whatsoever below 2^58 *)
Theorem C37_sum_partial : forall bs low start stop,
  (forall w, In w (bs_words bs) -> 0 <= w < 2 ^ 64) -> 0 <= bs_size bs <= 128 * zlen (bs_words bs) ->
  0 <= low -> low + 128 * zlen (bs_words bs) <= 2 ^ 58 -> 0 <= start < 2 ^ 63 -> 0 <= stop < bs_size bs ->
  bs_sum bs low start stop = Ok (marked_sum (sieve_bit (bs_words bs)) low start stop).
Proof. exact bs_sum_spec. Qed.
Example C37_witness : (bs <- bs_make 300 ;; bs <- pre_sieve bs 4 121 ;; bs_sum bs 121 3 140) = Ok 6174 /\
  marked_sum (fun i => negb (existsb (fun p => (121 + 2 * i) mod p =? 0) [3; 5; 7])) 121 3 140 = 6174.
Proof. vm_compute. auto. Qed.
(** The code's per-word sums overflow: a sieve produced by pre_sieve(6, low) at
    low = 2^60 + 1 gives a wrong sum. *)
Theorem C37_sum_refuted : exists bs low start stop,
  (bs <- bs_make 512 ;; pre_sieve bs 6 low) = Ok bs /\ low <= 2 ^ 61 /\ 0 <= start <= stop /\ stop < bs_size bs /\
  exists v, bs_sum bs low start stop = Ok v /\ v <> marked_sum (sieve_bit (bs_words bs)) low start stop.
Proof. exact bs_sum_wrong. Qed.

(** *** C39: the multiples visited in consecutive segments *)
Theorem C39_wheel : forall p low ends, 1 <= p -> 1 <= low -> low + 12 * p < 2 ^ 63 -> segments_from low ends ->
  (forall h, In h ends -> h + 12 * p < 2 ^ 63) ->
  (it <- wheel_start p low ;; wheel_runs p low it ends) = Ok (hits_from p low ends).
Proof. exact wheel_ok. Qed.
Example C39_witness : (it <- wheel_start 13 1000 ;; wheel_runs 13 1000 it [1100; 1200; 1500]) = Ok [[1027; 1079]; [1157]; [1261; 1313; 1339; 1391; 1417; 1469]] /\
  segments_from 1000 [1100; 1200; 1500].
Proof. vm_compute. split; [reflexivity|]. repeat split; discriminate. Qed.

Print Assumptions C35_fenwick.
Print Assumptions C36_pre_sieve.
Print Assumptions C37_sum_exact_partial.
Print Assumptions C37_sum_presieved_partial.
Print Assumptions C37_sum_partial.
Print Assumptions C37_sum_refuted.
Print Assumptions C39_wheel.
