(** Properties C56 (wheels, first multiples), C57 (crossing off), C58 (pre-sieving),
    C59 (sieved segments) and C60 (lowest bit of a word) of lib/primesieve. *)
From Coq Require Import ZArith List Bool Lia Znumtheory.
From Verif.Base Require Import Res Word Zl.
From Verif.Spec Require Import Primes PsSpec PsRunSpec.
From Verif.Model Require Import PsTables PsMath PsErat.
From Verif.Proofs Require Import Primes PsErat PsMathP PsRun.
Import ListNotations.
Open Scope Z_scope.

(** *** C56: addSievingPrime either finds the first multiple to remove, from which the walk
    along the wheel table visits the n-th one after n steps, or there is none up to stop. *)
Theorem C56_wheel30 : forall stop p L, prime p -> 7 <= p < 2 ^ 32 -> L mod 30 = 0 -> 0 <= L -> L + 6 < 2 ^ 64 -> 0 <= stop < 2 ^ 64 ->
  (exists mi wi, first_multiple 30 8 wheel30_init stop p L = Ok (Some (mi, wi)) /\ walk_ok 30 wheel30 L p mi wi) \/
  (first_multiple 30 8 wheel30_init stop p L = Ok None /\ forall q, eligible 30 L p q = true -> stop < p * q).
Proof. exact first_multiple_30. Qed.
Theorem C56_wheel210 : forall stop p L, prime p -> 7 <= p < 2 ^ 32 -> L mod 30 = 0 -> 0 <= L -> L + 6 < 2 ^ 64 -> 0 <= stop < 2 ^ 64 ->
  (exists mi wi, first_multiple 210 48 wheel210_init stop p L = Ok (Some (mi, wi)) /\ walk_ok 210 wheel210 L p mi wi) \/
  (first_multiple 210 48 wheel210_init stop p L = Ok None /\ forall q, eligible 210 L p q = true -> stop < p * q).
Proof. exact first_multiple_210. Qed.
Theorem C56_floor_pow2 : forall x, 0 < x < 2 ^ 64 -> floor_pow2 x = 2 ^ Z.log2 x.
Proof. exact floor_pow2_eq. Qed.
Theorem C56_ilog2 : forall x, 0 <= x < 2 ^ 64 -> ilog2 x = Z.log2 x.
Proof. exact ilog2_eq. Qed.
(** whatever the C library's sqrt returned *)
Theorem C56_isqrt : forall r0 x, 0 <= r0 -> 0 <= x < 2 ^ 64 -> ps_isqrt r0 x = Ok (Z.sqrt x).
Proof. exact ps_isqrt_eq. Qed.

(** 7 in the segment at 60: 7 * 11 = 60 + 17 is the first, byte 0, bit 3, then 7 * 13 = 60 + 31 *)
Example C56_first : first_multiple 30 8 wheel30_init 1000 7 60 = Ok (Some (0, 2)) /\
  wheel_walk wheel30 (7 / 30) 1 0 2 = Ok (0, 3) /\ wheel_walk wheel30 (7 / 30) 2 0 2 = Ok (1, 4) /\
  rank 30 60 7 11 = 0 /\ rank 30 60 7 13 = 1 /\ eligible 30 60 7 13 = true.
Proof. vm_compute. repeat split; reflexivity. Qed.
(** a prime just below 2^32 whose square is above stop *)
Example C56_none : first_multiple 210 48 wheel210_init (2 ^ 32) 4294967291 (30 * 2 ^ 27) = Ok None.
Proof. vm_compute. reflexivity. Qed.
(** the first multiple behind low + 6 is above 2^64 *)
Example C56_wrap : first_multiple 30 8 wheel30_init (2 ^ 64 - 1) 4294967291 18446744073709551600 = Ok None.
Proof. vm_compute. reflexivity. Qed.
Example C56_math : floor_pow2 1000 = 512 /\ ilog2 1000 = 9 /\ ps_isqrt 3 1000 = Ok 31 /\ ps_isqrt 35 1000 = Ok 31.
Proof. split; [reflexivity|]. split; [reflexivity|]. split; vm_compute; reflexivity. Qed.
Print Assumptions C56_wheel30. Print Assumptions C56_wheel210. Print Assumptions C56_floor_pow2.
Print Assumptions C56_ilog2. Print Assumptions C56_isqrt.

(** *** C57: after any history of the object, adding a prime succeeds, and crossing off
    removes exactly the multiples of all primes added so far. *)
Theorem C57_small : forall stop L0, 0 <= stop < 2 ^ 64 -> L0 mod 30 = 0 -> 0 <= L0 -> forall l1 S, 0 < l1 -> 1 <= S <= 2 ^ 22 ->
  forall L ps e size sieve B, small_run stop l1 L0 S L ps e -> L < 2 ^ 64 -> 0 <= size <= zlen sieve -> zlen sieve <= 2 ^ 40 -> holds sieve L B ->
  exists e' sieve', esmall_cross sieve size e = Ok (e', sieve') /\ zlen sieve' = zlen sieve /\ crossed 30 L size stop ps B sieve'.
Proof. exact small_run_cross. Qed.
Theorem C57_small_add : forall stop L0, 0 <= stop < 2 ^ 64 -> L0 mod 30 = 0 -> 0 <= L0 -> forall l1 S, 0 < l1 -> 1 <= S <= 2 ^ 22 ->
  forall L ps e p, small_run stop l1 L0 S L ps e -> prime p -> 7 <= p <= 5 * 2 ^ 22 -> p * p <= L + 30 * S + 6 -> L + 6 < 2 ^ 64 ->
  exists e', esmall_add p L e = Ok e'.
Proof. exact small_run_add. Qed.
Theorem C57_medium : forall stop L0, 0 <= stop < 2 ^ 64 -> L0 mod 30 = 0 -> 0 <= L0 -> forall S, 1 <= S <= 2 ^ 22 ->
  forall L ps e size sieve B, medium_run stop L0 S L ps e -> L < 2 ^ 64 -> 0 <= size <= zlen sieve -> zlen sieve <= 2 ^ 22 -> holds sieve L B ->
  exists e' sieve', emedium_cross sieve size e = Ok (e', sieve') /\ zlen sieve' = zlen sieve /\ crossed 30 L size stop ps B sieve'.
Proof. exact medium_run_cross. Qed.
Theorem C57_medium_add : forall stop L0, 0 <= stop < 2 ^ 64 -> L0 mod 30 = 0 -> 0 <= L0 -> forall S, 1 <= S <= 2 ^ 22 ->
  forall L ps e p, medium_run stop L0 S L ps e -> prime p -> 7 <= p <= 5 * 2 ^ 22 -> p * p <= L + 30 * S + 6 -> L + 6 < 2 ^ 64 ->
  exists e', emedium_add p L e = Ok e'.
Proof. exact medium_run_add. Qed.
Theorem C57_big : forall stop L0, 0 <= stop < 2 ^ 64 -> L0 mod 30 = 0 -> 0 <= L0 -> forall k mx, 0 <= k <= 22 -> 0 <= mx < 2 ^ 32 ->
  forall L ps e sieve B, big_run stop L0 k mx L ps e -> L < 2 ^ 64 -> zlen sieve = 2 ^ k -> holds sieve L B ->
  exists e' sieve', ebig_cross sieve e = Ok (e', sieve') /\ zlen sieve' = zlen sieve /\ crossed 210 L (2 ^ k) stop ps B sieve'.
Proof. exact big_run_cross. Qed.
Theorem C57_big_add : forall stop L0, 0 <= stop < 2 ^ 64 -> L0 mod 30 = 0 -> 0 <= L0 -> forall k mx, 0 <= k <= 22 -> 0 <= mx < 2 ^ 32 ->
  forall L ps e p, big_run stop L0 k mx L ps e -> prime p -> 30 < p <= mx -> p * p <= L + 30 * 2 ^ k + 6 -> L + 6 < 2 ^ 64 ->
  exists e', ebig_add p L e = Ok e'.
Proof. exact big_run_add. Qed.

(** A full sieve array holds every number. *)
Lemma full_holds n L : 0 <= n -> holds (amake n 255) L (fun _ => true).
Proof.
  intros Hn i Hi. rewrite amake_len in Hi by lia. exists 255. split; [apply amake_get; lia|]. split; [lia|].
  intros j Hj. assert (E : forallb (Z.testbit 255) (zrange 0 8) = true) by reflexivity. rewrite forallb_forall in E. apply E. apply in_zrange. lia.
Qed.
Ltac prm := apply primeb_spec; vm_compute; reflexivity.
(** 7 and 11 are added in the segment at 0, then two segments of 8 bytes are sieved: the
    first byte of the second, 240 + {7, ..., 31}, loses 253 and 259, and 247 stays (13 * 19). *)
Example C57_small_run : exists e sieve', small_run 1000 4 0 8 240 [7; 11] e /\
  match esmall_cross (amake 8 255) 8 e with Ok (_, s) => s = sieve' | _ => False end /\ nth 0 sieve' 0 = 255 - 2 ^ 2 - 2 ^ 4.
Proof.
  do 2 eexists. split; [|split].
  - change [7; 11] with (([] ++ [7]) ++ [11]). change 240 with (0 + 30 * 8).
    eapply sr_cross; [eapply sr_add; [eapply sr_add; [apply sr_init|prm|lia|lia|lia|vm_compute; reflexivity]|prm|lia|lia|lia|vm_compute; reflexivity]| | |exists (fun _ => true); apply (full_holds 8 0); lia|vm_compute; reflexivity]; [lia|reflexivity].
  - vm_compute. reflexivity.
  - vm_compute. reflexivity.
Qed.
Example C57_medium_run : exists e sieve', medium_run 1000 0 8 240 [7; 11] e /\
  match emedium_cross (amake 8 255) 8 e with Ok (_, s) => s = sieve' | _ => False end /\ nth 0 sieve' 0 = 255 - 2 ^ 2 - 2 ^ 4.
Proof.
  do 2 eexists. split; [|split].
  - change [7; 11] with (([] ++ [7]) ++ [11]). change 240 with (0 + 30 * 8).
    eapply mr_cross; [eapply mr_add; [eapply mr_add; [apply mr_init|prm|lia|lia|lia|vm_compute; reflexivity]|prm|lia|lia|lia|vm_compute; reflexivity]| | |exists (fun _ => true); apply (full_holds 8 0); lia|vm_compute; reflexivity]; [lia|reflexivity].
  - vm_compute. reflexivity.
  - vm_compute. reflexivity.
Qed.
(** 31 in the segments of 8 bytes at 900 and 1140: 31 * 31 = 961 is bit 7 of byte 1 of the
    first, 31 * 37 = 1147 bit 0 of byte 0 of the second *)
Example C57_big_run : exists e sieve', big_run 10000 900 3 100 1140 [31] e /\
  match ebig_cross (amake 8 255) e with Ok (_, s) => s = sieve' | _ => False end /\ nth 0 sieve' 0 = 255 - 2 ^ 0.
Proof.
  do 2 eexists. split; [|split].
  - change [31] with ([] ++ [31]). change 1140 with (900 + 30 * 2 ^ 3).
    eapply br_cross; [eapply br_add; [apply br_init|prm|lia|lia|lia|vm_compute; reflexivity]| | |exists (fun _ => true); apply (full_holds 8 900); lia|vm_compute; reflexivity]; [lia|reflexivity].
  - vm_compute. reflexivity.
  - vm_compute. reflexivity.
Qed.
Print Assumptions C57_small. Print Assumptions C57_small_add. Print Assumptions C57_medium. Print Assumptions C57_medium_add.
Print Assumptions C57_big. Print Assumptions C57_big_add.

(** *** C58: after init the pattern copied into any segment leaves exactly the numbers
    without a prime factor up to maxPrime. *)
Theorem C58 : forall ps start stop ps' low size sieve, pre_made ps -> presieve_init start stop ps = Ok ps' ->
  low mod 30 = 0 -> 0 <= low -> 1 <= size <= zlen sieve -> zlen sieve <= 2 ^ 40 ->
  7 <= ps_max ps' <= 19 /\ ps_max ps <= ps_max ps' /\
  exists sieve', presieve_copy sieve size low ps' = Ok sieve' /\ zlen sieve' = zlen sieve /\
    (forall k, size <= k < zlen sieve -> aget sieve' k = aget sieve k) /\
    forall k, 0 <= k < size -> exists b, aget sieve' k = Ok b /\ 0 <= b < 256 /\
      forall j, 0 <= j < 8 -> Z.testbit b j = presieved (ps_max ps') (low + 30 * k + off j).
Proof. exact presieve_correct. Qed.
Theorem C58_init : forall start stop ps, pre_made ps -> exists ps', presieve_init start stop ps = Ok ps'.
Proof. exact presieve_total. Qed.
(** a small interval: multiples of 7 are removed, from the 10 bytes at 60 on *)
Example C58_copy : exists ps, presieve_init 7 200 presieve0 = Ok ps /\ ps_max ps = 7 /\
  presieve_copy (amake 12 0) 10 60 ps = Ok [119; 191; 251; 253; 223; 254; 239; 119; 191; 251; 0; 0].
Proof. eexists. split; [vm_compute; reflexivity|]. split; vm_compute; reflexivity. Qed.
Print Assumptions C58. Print Assumptions C58_init.

(** *** C59: with all sieving primes added, a segment shows exactly its primes; the next one
    follows without gap until stop is reached. *)
Theorem C59 : forall c start stop sieve_size ps0, 7 <= start <= stop -> stop < 2 ^ 64 -> 0 <= sieve_size < 2 ^ 64 -> pre_made ps0 ->
  forall e ps l, erat_run c start stop sieve_size ps0 e ps l ->
  (forall p, prime p -> e_maxpre e < p -> p * p <= e_high e -> In p l) ->
  exists e', erat_segment e ps = Ok e' /\ 1 <= e_size e' <= e_size e /\ zlen (e_sieve e') = e_size e /\
    shows_primes (e_sieve e') (8 * ((e_size e' + 7) / 8)) (e_low e) start stop /\
    (erat_has_next e' = false /\ stop < e_low e + 30 * e_size e' + 7 /\ e_low e + 30 * (e_size e' - 1) + 7 <= stop \/
     erat_has_next e' = true /\ e_low e' = e_low e + 30 * e_size e' /\ e_low e' + 7 <= stop).
Proof. exact erat_run_segment. Qed.
Theorem C59_init : forall c start stop sieve_size ps0, 7 <= start <= stop -> stop < 2 ^ 64 -> 0 <= sieve_size < 2 ^ 64 -> pre_made ps0 ->
  exists e ps, erat_init c start stop sieve_size (erat0 start stop) ps0 = Ok (e, ps) /\
    e_low e = 30 * ((start - 7) / 30) /\ e_size e = sieve_bytes sieve_size.
Proof. exact erat_run_init. Qed.
Theorem C59_add : forall c start stop sieve_size ps0, 7 <= start <= stop -> stop < 2 ^ 64 -> 0 <= sieve_size < 2 ^ 64 -> pre_made ps0 ->
  forall e ps l p, erat_run c start stop sieve_size ps0 e ps l -> prime p -> e_maxpre e < p -> p * p <= e_high e ->
  exists e', erat_add p e = Ok e' /\ e_low e' = e_low e /\ e_high e' = e_high e.
Proof. exact erat_run_add. Qed.

(** The interval [7, 200]: 11 and 13 are added, and the segment can be sieved. *)
Definition C59_cpu : cpu := {| cpu_small := fun l1 => l1 / 5; cpu_l1 := Some 32768 |}.
Example C59_run : exists e ps, erat_run C59_cpu 7 200 8 presieve0 e ps [11; 13] /\ e_maxpre e = 7 /\ e_high e = 200 /\
  (forall p, prime p -> e_maxpre e < p -> p * p <= e_high e -> In p [11; 13]) /\
  exists e', erat_segment e ps = Ok e' /\ shows_primes (e_sieve e') (8 * ((e_size e' + 7) / 8)) (e_low e) 7 200.
Proof.
  assert (A1 : 7 <= 7 <= 200) by lia. assert (A2 : 200 < 2 ^ 64) by lia. assert (A3 : 0 <= 8 < 2 ^ 64) by lia.
  destruct (C59_init C59_cpu 7 200 8 presieve0 A1 A2 A3 pm_new) as (e & ps & E & _).
  assert (F : match erat_init C59_cpu 7 200 8 (erat0 7 200) presieve0 with Ok (e, _) => (e_maxpre e =? 7) && (e_high e =? 200) | _ => false end = true) by (vm_compute; reflexivity).
  rewrite E in F. apply andb_true_iff in F. rewrite !Z.eqb_eq in F. destruct F as [F1 F2].
  pose proof (er_init C59_cpu 7 200 8 presieve0 e ps E) as R0.
  assert (P11 : prime 11) by prm. assert (P13 : prime 13) by prm.
  assert (G : forall e', erat_add 11 e = Ok e' -> e_maxpre e' = e_maxpre e) by apply erat_add_maxpre.
  destruct (C59_add _ _ _ _ _ A1 A2 A3 pm_new _ _ _ 11 R0 P11 ltac:(lia) ltac:(lia)) as (e1 & E1 & _ & H1).
  pose proof (erat_add_maxpre _ _ _ E1) as M1.
  pose proof (er_add _ _ _ _ _ _ _ _ _ _ R0 P11 ltac:(lia) ltac:(lia) E1) as R1.
  destruct (C59_add _ _ _ _ _ A1 A2 A3 pm_new _ _ _ 13 R1 P13 ltac:(lia) ltac:(lia)) as (e2 & E2 & _ & H2).
  pose proof (erat_add_maxpre _ _ _ E2) as M2.
  pose proof (er_add _ _ _ _ _ _ _ _ _ _ R1 P13 ltac:(lia) ltac:(lia) E2) as R2.
  assert (C : forall p, prime p -> e_maxpre e2 < p -> p * p <= e_high e2 -> In p [11; 13]).
  { intros p Pp Hp Hpp. assert (HB : 7 < p <= 14) by nia.
    assert (X : forallb (fun p => negb (primeb p) || (p =? 11) || (p =? 13)) (zrange 8 15) = true) by (vm_compute; reflexivity).
    rewrite forallb_forall in X. specialize (X p). rewrite in_zrange in X. specialize (X ltac:(lia)). rewrite (proj2 (primeb_spec p) Pp) in X. cbn [negb orb] in X.
    apply orb_true_iff in X. rewrite !Z.eqb_eq in X. destruct X as [->| ->]; [now left|right; now left]. }
  exists e2, ps. split; [exact R2|]. split; [lia|]. split; [lia|]. split; [exact C|].
  destruct (C59 _ _ _ _ _ A1 A2 A3 pm_new _ _ _ R2 C) as (e' & E' & _ & _ & S' & _). eauto.
Qed.
Print Assumptions C59. Print Assumptions C59_init. Print Assumptions C59_add.

(** *** C60: both versions of nextPrime give the number of the lowest set bit. *)
Theorem C60_ctz : forall ctz bits low k, lowest bits k -> ctz bits = k -> k < 64 ->
  next_prime_ctz ctz bits low = Ok (uwrap 64 (low + (30 * (k / 8) + off (k mod 8)))).
Proof. exact next_prime_ctz_eq. Qed.
Theorem C60_bruijn : forall bits low k, 0 <= bits < 2 ^ 64 -> lowest bits k ->
  next_prime_bruijn bits low = Ok (uwrap 64 (low + (30 * (k / 8) + off (k mod 8)))).
Proof. exact next_prime_bruijn_eq. Qed.
Example C60_word : next_prime_bruijn (2 ^ 63 + 2 ^ 17) 300 = Ok (300 + 60 + 11) /\ next_prime_ctz (fun _ => 17) (2 ^ 63 + 2 ^ 17) 300 = Ok (300 + 60 + 11) /\ lowest (2 ^ 63 + 2 ^ 17) 17.
Proof.
  split; [vm_compute; reflexivity|]. split; [vm_compute; reflexivity|]. split; [lia|]. split; [reflexivity|].
  assert (X : forallb (fun j => negb (Z.testbit (2 ^ 63 + 2 ^ 17) j)) (zrange 0 17) = true) by reflexivity.
  intros j Hj. rewrite forallb_forall in X. specialize (X j). rewrite in_zrange in X. specialize (X Hj). now apply negb_true_iff in X.
Qed.
Print Assumptions C60_ctz. Print Assumptions C60_bruijn.
