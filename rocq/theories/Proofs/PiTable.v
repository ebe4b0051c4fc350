(** The compressed prime counting table. *)
From Coq Require Import ZArith List Bool Lia Znumtheory.
From Verif.Base Require Import Res Word Zl Arr.
From Verif.Spec Require Import Primes BitSpec LMOSpec.
From Verif.Model Require Import Popcnt Primesieve PiTable.
From Verif.Proofs Require Import Primes NT PhiSum Primesieve Popcnt.
Import ListNotations.
Open Scope Z_scope.

(** bits of word w: primes up to max *)
Definition word_ok (m w b : Z) : Prop :=
  0 <= b < 2 ^ 64 /\ forall k, 0 <= k < 64 -> Z.testbit b k = primeb (64 * w + k) && (64 * w + k <=? m).

Lemma bits_bound b n : 0 <= n -> 0 <= b -> (forall k, n <= k -> Z.testbit b k = false) -> b < 2 ^ n.
Proof.
  intros Hn Hb H. destruct (Z.eq_dec b 0) as [->|N]; [apply Z.pow_pos_nonneg; lia|].
  apply Z.log2_lt_pow2; [lia|]. destruct (Z.lt_ge_cases (Z.log2 b) n); auto.
  specialize (H (Z.log2 b) H0). rewrite Z.bit_log2 in H; [discriminate|lia].
Qed.
Lemma high_bits b n k : 0 <= b < 2 ^ n -> 0 <= n <= k -> Z.testbit b k = false.
Proof.
  intros Hb Hk. destruct (Z.eq_dec b 0) as [->|N]; [apply Z.bits_0|].
  apply Z.bits_above_log2; [lia|]. assert (Z.log2 b < n) by (apply Z.log2_lt_pow2; lia). lia.
Qed.

Lemma lor_bit_bound a b n : 0 <= n -> 0 <= a < 2 ^ n -> 0 <= b < 2 ^ n -> 0 <= Z.lor a b < 2 ^ n.
Proof.
  intros Hn Ha Hb. assert (0 <= Z.lor a b) by (apply Z.lor_nonneg; lia). split; auto.
  apply bits_bound; auto. intros k Hk. rewrite Z.lor_spec, (high_bits a n), (high_bits b n); auto.
Qed.

Lemma ushl1 k : 0 <= k < 64 -> ushl 64 1 k = Ok (2 ^ k).
Proof.
  intros H. unfold ushl. destruct (Z.leb_spec 0 k), (Z.ltb_spec k 64); try lia. cbn [andb].
  rewrite Z.shiftl_mul_pow2, Z.mul_1_l by lia. f_equal. unfold uwrap. apply Z.mod_small.
  split; [apply Z.pow_nonneg; lia|apply Z.pow_lt_mono_r; lia].
Qed.

(** pi over a stretch of numbers *)
Lemma sumr_pi lo n : -1 <= lo -> 0 <= n -> sumr 0 n (fun k => Z.b2z (primeb (lo + 1 + k))) = pi (lo + n) - pi lo.
Proof.
  intros Hlo. revert n. apply natlike_ind.
  - rewrite sumr_empty by lia. rewrite Z.add_0_r. lia.
  - intros n Hn IH. unfold Z.succ. rewrite sumr_snoc by lia. rewrite IH.
    replace (lo + (n + 1)) with (lo + n + 1) by ring. rewrite pi_succ. replace (lo + 1 + n) with (lo + n + 1) by ring.
    destruct (primeb (lo + n + 1)); simpl Z.b2z; lia.
Qed.

Lemma popcount_land b r : 0 <= r < 64 -> popcount (Z.land b (Z.ones (r + 1))) = sumr 0 (r + 1) (fun k => Z.b2z (Z.testbit b k)).
Proof.
  intros H. unfold popcount. rewrite (sumr_split 0 (r + 1) 64) by lia.
  rewrite (sumr_zero (r + 1) 64).
  - rewrite Z.add_0_r. apply sumr_ext. intros k Hk. rewrite Z.land_spec, Z.ones_spec_low by lia. now rewrite andb_true_r.
  - intros k Hk. rewrite Z.land_spec, Z.ones_spec_high by lia. now rewrite andb_false_r.
Qed.

(** a correct table up to max *)
Definition pi_ok (t : pitable) (m : Z) : Prop :=
  max_ t = m /\ forall w, 0 <= w <= m / 64 -> exists b, aget (pi_ t) w = Ok (pi (64 * w - 1), b) /\ word_ok m w b.

Lemma pi_get_ok t m n : pi_ok t m -> 0 <= n <= m -> pi_get t n = Ok (pi n).
Proof.
  intros [Hm Ht] Hn. unfold pi_get. rewrite Hm.
  destruct (Z.leb_spec 0 n), (Z.leb_spec n m); try lia. cbn [andb assert_ bind].
  pose proof (Z.mod_pos_bound n 64 ltac:(lia)) as R. set (r := n mod 64) in *.
  assert (E : ushr 64 18446744073709551615 (63 - r) = Ok (Z.ones (r + 1))).
  { unfold ushr. destruct (Z.leb_spec 0 (63 - r)), (Z.ltb_spec (63 - r) 64); try lia. cbn [andb]. f_equal.
    change 18446744073709551615 with (Z.ones 64). rewrite Z.shiftr_div_pow2 by lia.
    rewrite Z.ones_div_pow2 by lia. f_equal. lia. }
  rewrite E. cbn [bind].
  destruct (Ht (n / 64)) as (b & Eb & Hb & Hbits).
  { split; [apply Z.div_pos; lia|apply Z.div_le_mono; lia]. }
  rewrite Eb. cbn [bind fst snd]. f_equal.
  assert (N : n = 64 * (n / 64) + r) by (unfold r; apply Z.div_mod; lia).
  rewrite popcnt64_ok, popcount_land by (auto; rewrite Z.land_ones by lia; pose proof (Z.mod_pos_bound b (2 ^ (r + 1)) ltac:(apply Z.pow_pos_nonneg; lia));
      assert (2 ^ (r + 1) <= 2 ^ 64) by (apply Z.pow_le_mono_r; lia); lia).
  assert (Hq : 0 <= n / 64) by (apply Z.div_pos; lia).
  rewrite (sumr_ext 0 (r + 1) _ (fun k => Z.b2z (primeb (64 * (n / 64) - 1 + 1 + k)))).
  - rewrite sumr_pi by lia. replace (64 * (n / 64) - 1 + (r + 1)) with n by lia. lia.
  - intros k Hk. rewrite Hbits by lia. destruct (Z.leb_spec (64 * (n / 64) + k) m); [|lia].
    rewrite andb_true_r. do 2 f_equal. lia.
Qed.

Lemma PiTable_ok m : 0 <= m < 2 ^ 62 -> wp (PiTable m) (fun t => pi_ok t m).
Proof.
  intros Hm. unfold PiTable. assert (Hw : 0 <= m / 64) by (apply Z.div_pos; lia).
  assert (F : 2 ^ 63 < 2 ^ 400) by reflexivity. assert (P63 : 2 ^ 63 = 2 * 2 ^ 62) by reflexivity.
  apply wp_bind.
  (* the primes up to [p] have been recorded *)
  pose (I := fun (p : Z) (l : list (Z * Z)) => zlen l = m / 64 + 1 /\
     forall w, 0 <= w <= m / 64 -> exists b, aget l w = Ok (0, b) /\ 0 <= b < 2 ^ 64 /\
       forall k, 0 <= k < 64 -> Z.testbit b k = primeb (64 * w + k) && (64 * w + k <=? p)).
  apply (loop_rule _ (fun st => 0 <= fst st <= m /\ I (fst st) (snd st)) (fun st => m - fst st)).
  - intros [p l] [Hp [Hl HI]]. cbn [fst snd] in *.
    pose proof (next_prime_gt p) as Hgt. pose proof (next_prime_prime p) as Hpr.
    pose proof (next_prime_le p) as Hle. set (q := next_prime p) in *.
    destruct (Z.leb_spec q m) as [Hq|Hq].
    + assert (Hqw : 0 <= q / 64 <= m / 64) by (split; [apply Z.div_pos; lia|apply Z.div_le_mono; lia]).
      destruct (HI (q / 64) Hqw) as (b & Eb & Hb & Hbits). rewrite Eb. cbn [bind fst snd].
      pose proof (Z.mod_pos_bound q 64 ltac:(lia)) as R. rewrite ushl1 by lia. cbn [bind].
      apply wp_bind, wp_aset; [lia|]. intros l' Hl' Hg. cbn [wp fst snd]. split; [|lia]. split; [lia|].
      assert (N : q = 64 * (q / 64) + q mod 64) by (apply Z.div_mod; lia).
      split; [congruence|]. intros w Hw2. rewrite Hg. destruct (Z.eqb_spec w (q / 64)) as [->|Nw].
      * eexists. split; [reflexivity|]. split.
        { apply lor_bit_bound; auto; [lia|]. split; [apply Z.pow_nonneg; lia|apply Z.pow_lt_mono_r; lia]. }
        intros k Hk. rewrite Z.lor_spec, Hbits, Z.pow2_bits_eqb by lia.
        destruct (Z.eqb_spec (q mod 64) k) as [<-|Nk].
        -- rewrite orb_true_r. replace (64 * (q / 64) + q mod 64) with q by lia.
           rewrite (proj2 (primeb_spec q)) by auto. rewrite Z.leb_refl. reflexivity.
        -- rewrite orb_false_r. destruct (primeb (64 * (q / 64) + k)) eqn:Bp; auto. cbn [andb].
           apply primeb_spec in Bp. destruct (Z.leb_spec (64 * (q / 64) + k) p), (Z.leb_spec (64 * (q / 64) + k) q); auto; try lia.
           specialize (Hle _ Bp). lia.
      * destruct (HI w Hw2) as (b' & Eb' & Hb' & Hbits'). exists b'. split; auto. split; auto.
        intros k Hk. rewrite Hbits' by lia. destruct (primeb (64 * w + k)) eqn:Bp; auto. cbn [andb].
        apply primeb_spec in Bp. destruct (Z.leb_spec (64 * w + k) p), (Z.leb_spec (64 * w + k) q); auto; try lia.
        specialize (Hle _ Bp ltac:(lia)). assert (Eq : 64 * w + k = q) by lia. exfalso. apply Nw.
        rewrite <- Eq. rewrite Z.mul_comm, Z.div_add_l, Z.div_small by lia. lia.
    + (* done *)
      cbn [wp].
      assert (Hdone : forall k, primeb k && (k <=? p) = primeb k && (k <=? m)).
      { intros k. destruct (primeb k) eqn:B; auto. cbn [andb]. apply primeb_spec in B.
        destruct (Z.leb_spec k p), (Z.leb_spec k m); auto; try lia. specialize (Hle _ B ltac:(lia)). lia. }
      apply wp_bind. rewrite Hl.
      apply (for_rule 0 (m / 64 + 1) _ (fun i st => zlen (fst st) = m / 64 + 1 /\ snd st = pi (Z.min (64 * i - 1) m) /\
         forall w, 0 <= w <= m / 64 -> exists b, aget (fst st) w = Ok (if w <? i then pi (64 * w - 1) else 0, b) /\ word_ok m w b)).
      * assert (m / 64 <= m) by (apply Z.div_le_upper_bound; lia). lia.
      * cbn [fst snd]. split; [auto|]. split; [rewrite Z.min_l by lia; reflexivity|]. intros w Hw2.
        destruct (HI w Hw2) as (b & Eb & Hb & Hbits). exists b. destruct (Z.ltb_spec w 0); [lia|]. split; auto.
        split; auto. intros k Hk. rewrite Hbits by lia. apply Hdone.
      * intros i [l2 pix] Hi (HL & HP & HW). cbn [fst snd] in *.
        destruct (HW i ltac:(lia)) as (b & Eb & Hb & Hbits). rewrite Eb. cbn [bind fst snd].
        apply wp_bind, wp_aset; [lia|]. intros l3 Hl3 Hg. cbn [wp fst snd].
        split; [congruence|]. split.
        -- rewrite popcnt64_ok by auto. unfold popcount.
           assert (S1 : sumr 0 64 (fun k => Z.b2z (Z.testbit b k)) = sumr 0 64 (fun k => Z.b2z (primeb (64 * i + k) && (64 * i + k <=? m)))).
           { apply sumr_ext. intros k Hk. now rewrite Hbits by lia. }
           assert (Him : 64 * i <= m) by (pose proof (Z.mul_div_le m 64 ltac:(lia)); lia).
           rewrite S1, HP, Z.min_l by lia. unfold uwrap.
           rewrite (sumr_split 0 (Z.min 64 (m - 64 * i + 1)) 64) by lia.
           rewrite (sumr_zero (Z.min 64 (m - 64 * i + 1)) 64).
           2:{ intros k Hk. destruct (Z.leb_spec (64 * i + k) m); [lia|]. now rewrite andb_false_r. }
           rewrite (sumr_ext 0 (Z.min 64 (m - 64 * i + 1)) _ (fun k => Z.b2z (primeb (64 * i - 1 + 1 + k)))).
           2:{ intros k Hk. destruct (Z.leb_spec (64 * i + k) m); [|lia]. rewrite andb_true_r. do 2 f_equal. lia. }
           rewrite sumr_pi by lia.
           replace (64 * i - 1 + Z.min 64 (m - 64 * i + 1)) with (Z.min (64 * (i + 1) - 1) m) by lia.
           match goal with |- ?a mod _ = ?b => replace a with b by ring end.
           apply Z.mod_small. split; [apply pi_nonneg|].
           pose proof (pi_le (Z.min (64 * (i + 1) - 1) m) ltac:(lia)).
           assert (P64 : 2 ^ 64 = 4 * 2 ^ 62) by reflexivity. lia.
        -- intros w Hw2. rewrite Hg. destruct (Z.eqb_spec w i) as [->|Nw].
           ++ exists b. destruct (Z.ltb_spec i (i + 1)); [|lia]. rewrite HP, Z.min_l by (pose proof (Z.mul_div_le m 64 ltac:(lia)); lia). split; auto. split; auto.
           ++ destruct (HW w Hw2) as (b' & Eb' & Wb'). exists b'. split; auto. rewrite Eb'.
              destruct (Z.ltb_spec w i), (Z.ltb_spec w (i + 1)); auto; lia.
      * intros [l2 pix] (HL & HP & HW). cbn [fst snd wp] in *. split; [reflexivity|]. cbn [pi_ max_].
        intros w Hw2. destruct (HW w Hw2) as (b & Eb & Wb). exists b. split; auto. rewrite Eb.
        destruct (Z.ltb_spec w (Z.max 0 (m / 64 + 1))); auto; lia.
  - cbn [fst snd]. split; [lia|]. split; [apply amake_len; lia|].
    intros w Hw2. exists 0. split; [apply amake_get; lia|]. split; [lia|].
    intros k Hk. rewrite Z.bits_0. destruct (Z.leb_spec (64 * w + k) 0); [|now rewrite andb_false_r].
    replace (64 * w + k) with 0 by lia. reflexivity.
  - cbn [fst]. lia.
Qed.

Lemma PiTable_lookup m : 0 <= m < 2 ^ 62 ->
  wp (PiTable m) (fun t => pi_size t = m + 1 /\ forall n, 0 <= n <= m -> pi_get t n = Ok (pi n)).
Proof.
  intros Hm. eapply wp_mono; [apply PiTable_ok; auto|]. intros t Ht. split.
  - unfold pi_size. now rewrite (proj1 Ht).
  - intros n Hn. exact (pi_get_ok t m n Ht Hn).
Qed.
