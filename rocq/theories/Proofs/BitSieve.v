(** Correctness of the model of the bit sieve. *)
From Coq Require Import ZArith List Bool Lia Znumtheory.
From Verif.Base Require Import Res Word Zl Arr IType.
From Verif.Spec Require Import Primes BitSpec LMOSpec SieveSpec.
From Verif.Model Require Import Imath Popcnt BitSieve.
From Verif.Proofs Require Import Primes NT Imath Popcnt Phi Fenwick.
Import ListNotations.
Open Scope Z_scope.
Local Ltac Zify.zify_post_hook ::= idtac.

Lemma uwrap_small v : 0 <= v < 2 ^ 64 -> uwrap 64 v = v.
Proof. intros H. unfold uwrap. apply Z.mod_small. exact H. Qed.
Lemma uwrap_range v : 0 <= uwrap 64 v < 2 ^ 64.
Proof. unfold uwrap. apply Z.mod_pos_bound. reflexivity. Qed.
Lemma uwrap_bit v k : 0 <= k < 64 -> Z.testbit (uwrap 64 v) k = Z.testbit v k.
Proof. intros H. unfold uwrap. apply Z.mod_pow2_bits_low. lia. Qed.
Lemma word_high w k : 0 <= w < 2 ^ 64 -> 64 <= k -> Z.testbit w k = false.
Proof. intros Hw Hk. rewrite <- (Z.mod_small w (2 ^ 64)) by lia. apply Z.mod_pow2_bits_high. lia. Qed.

Lemma set_bit_get r : 0 <= r < 128 -> aget bs_set_bit r = Ok (2 ^ (r / 2)).
Proof.
  intros Hr. assert (C : forallb (fun r => match aget bs_set_bit r with Ok v => v =? 2 ^ (r / 2) | _ => false end) (zrange 0 128) = true) by (vm_compute; reflexivity).
  rewrite forallb_forall in C. specialize (C r). rewrite in_zrange in C. specialize (C Hr).
  destruct (aget bs_set_bit r); [|discriminate]. apply Z.eqb_eq in C. now rewrite C.
Qed.

(** *** Meaning of a sieve *)
Definition words_rep (s : list Z) (N last : Z) (F : Z -> bool) : Prop :=
  zlen s = N /\ forall j, 0 <= j < last -> exists w, aget s j = Ok w /\ 0 <= w < 2 ^ 64 /\
    forall k, 0 <= k < 64 -> Z.testbit w k = F (64 * j + k).
Definition bs_rep (bs : bitsieve) (N : Z) (F : Z -> bool) : Prop :=
  0 <= bs_size bs <= 128 * N /\ words_rep (bs_words bs) N N F.

Lemma words_rep_ext s N last F G : words_rep s N last F -> (forall i, 0 <= i < 64 * last -> F i = G i) -> words_rep s N last G.
Proof.
  intros [H1 H2] E. split; auto. intros j Hj. destruct (H2 j Hj) as (w & A & B & C). exists w. split; auto. split; auto.
  intros k Hk. rewrite C by auto. apply E. lia.
Qed.
Lemma bs_rep_ext bs N F G : bs_rep bs N F -> (forall i, 0 <= i < 64 * N -> F i = G i) -> bs_rep bs N G.
Proof. intros [H1 H2] E. split; auto. eapply words_rep_ext; eauto. Qed.

Lemma half_pos i : 0 <= i -> Z.shiftr (2 * i) 7 = i / 64 /\ Z.land (2 * i) 127 = 2 * (i mod 64) /\ Z.rem (2 * i) 2 = 0.
Proof.
  intros Hi. rewrite Z.shiftr_div_pow2 by lia. change (2 ^ 7) with (2 * 64). rewrite Z.div_mul_cancel_l by lia. split; auto.
  change 127 with (Z.ones 7). rewrite Z.land_ones by lia. change (2 ^ 7) with (2 * 64). rewrite Z.mul_mod_distr_l by lia. split; auto.
  rewrite Z.mul_comm. now rewrite Z.rem_mul by lia.
Qed.
Lemma idx_split i N : 0 <= i < 64 * N -> 0 <= i / 64 < N /\ 0 <= i mod 64 < 64 /\ i = 64 * (i / 64) + i mod 64.
Proof.
  intros H. pose proof (Z.mod_pos_bound i 64 ltac:(lia)). pose proof (Z.div_mod i 64 ltac:(lia)).
  split; [|lia]. split; [apply Z.div_pos; lia|apply Z.div_lt_upper_bound; lia].
Qed.

Theorem bs_get_ok bs N F i : bs_rep bs N F -> 0 <= 2 * i < bs_size bs -> bs_get bs (2 * i) = Ok (F i).
Proof.
  intros [Hs [HL HW]] Hi. unfold bs_get. destruct (half_pos i ltac:(lia)) as (E1 & E2 & E3).
  destruct (Z.ltb_spec (2 * i) (bs_size bs)); [|lia]. rewrite E3. cbn [assert_]. rewrite Z.eqb_refl. cbn [assert_].
  unfold assert_. rewrite !bind_Ok. rewrite E1, E2. destruct (idx_split i N ltac:(lia)) as (I1 & I2 & I3).
  destruct (HW (i / 64) I1) as (w & A & B & C). rewrite A, bind_Ok. rewrite set_bit_get by lia. rewrite bind_Ok.
  replace (2 * (i mod 64) / 2) with (i mod 64) by (rewrite Z.mul_comm, Z.div_mul; lia).
  rewrite I3 at 2. rewrite <- C by lia. f_equal.
  destruct (Z.testbit w (i mod 64)) eqn:T.
  - destruct (Z.eqb_spec (Z.land w (2 ^ (i mod 64))) 0) as [E|]; auto. exfalso.
    assert (X : Z.testbit (Z.land w (2 ^ (i mod 64))) (i mod 64) = true) by (rewrite Z.land_spec, T, Z.pow2_bits_true; auto; lia).
    rewrite E, Z.bits_0 in X. discriminate.
  - replace (Z.land w (2 ^ (i mod 64))) with 0; [reflexivity|]. symmetry. apply Z.bits_inj'. intros n Hn.
    rewrite Z.land_spec, Z.bits_0, Z.pow2_bits_eqb by lia. destruct (Z.eqb_spec (i mod 64) n) as [<-|]; [now rewrite T|apply andb_false_r].
Qed.
Theorem bs_unset_ok bs N F i (Q : bitsieve -> Prop) : bs_rep bs N F -> 0 <= 2 * i < bs_size bs ->
  (forall bs', bs_size bs' = bs_size bs -> bs_rep bs' N (fun j => if j =? i then false else F j) -> Q bs') ->
  wp (bs_unset bs (2 * i)) Q.
Proof.
  intros [Hs [HL HW]] Hi HQ. unfold bs_unset. destruct (half_pos i ltac:(lia)) as (E1 & E2 & E3).
  destruct (Z.ltb_spec (2 * i) (bs_size bs)); [|lia]. rewrite E3, Z.eqb_refl.
  unfold assert_. rewrite !bind_Ok. rewrite E1, E2. destruct (idx_split i N ltac:(lia)) as (I1 & I2 & I3).
  destruct (HW (i / 64) I1) as (w & A & B & C). rewrite A, bind_Ok. rewrite set_bit_get by lia. rewrite bind_Ok.
  replace (2 * (i mod 64) / 2) with (i mod 64) by (rewrite Z.mul_comm, Z.div_mul; lia).
  apply wp_bind. apply wp_aset; [lia|]. intros s' L' G'. cbn [wp]. apply HQ; [reflexivity|]. split; [exact Hs|].
  split; [cbn [bs_words]; lia|]. cbn [bs_words]. intros j Hj. rewrite G'. destruct (Z.eqb_spec j (i / 64)) as [->|Nj].
  - eexists. split; [reflexivity|]. split.
    { split; [apply Z.land_nonneg; left; lia|]. pose proof (uwrap_range (Z.lnot (2 ^ (i mod 64)))) as R.
      destruct (Z.eq_dec (Z.land w (uwrap 64 (Z.lnot (2 ^ (i mod 64))))) 0) as [->|NZ]; [lia|].
      assert (0 <= Z.land w (uwrap 64 (Z.lnot (2 ^ (i mod 64))))) by (apply Z.land_nonneg; left; lia).
      apply Z.log2_lt_pow2; [lia|]. eapply Z.le_lt_trans; [apply Z.log2_land; lia|].
      destruct (Z.eq_dec w 0) as [->|]; [rewrite Z.land_0_l in NZ; lia|].
      eapply Z.le_lt_trans; [apply Z.le_min_l|]. apply Z.log2_lt_pow2; lia. }
    intros k Hk. rewrite Z.land_spec, uwrap_bit, Z.lnot_spec, C, Z.pow2_bits_eqb by lia.
    destruct (Z.eqb_spec (i mod 64) k) as [E|E].
    + destruct (Z.eqb_spec (64 * (i / 64) + k) i); [now rewrite andb_false_r|lia].
    + destruct (Z.eqb_spec (64 * (i / 64) + k) i); [lia|now rewrite andb_true_r].
  - destruct (HW j Hj) as (w' & A' & B' & C'). exists w'. split; auto. split; auto. intros k Hk. rewrite C' by auto.
    destruct (Z.eqb_spec (64 * j + k) i) as [E|]; auto. exfalso. apply Nj. subst i.
    rewrite Z.mul_comm, Z.div_add_l, Z.div_small by lia. lia.
Qed.

Lemma bs_make_ok size : 0 <= size < 2 ^ 62 -> exists N, 0 <= N /\ size <= 128 * N < size + 128 /\
  wp (bs_make size) (fun bs => bs_size bs = size /\ bs_rep bs N (fun _ => false)).
Proof.
  intros Hs. destruct (ceil_div_all u64 size 128) as (n & E & N1 & N2); [cbn; tauto|lia|lia|change (tmax u64) with (2 ^ 64 - 1); lia|].
  exists n. assert (0 <= n) by lia. assert (HN : 128 * n < size + 128).
  { destruct (Z.lt_ge_cases (128 * n) (size + 128)); auto. specialize (N2 (n - 1) ltac:(lia)). lia. }
  split; [lia|]. split; [lia|]. unfold bs_make. rewrite E, bind_Ok. cbn [wp bs_size]. split; [reflexivity|]. split; [cbn [bs_size]; lia|].
  cbn [bs_words]. split; [apply amake_len; lia|]. intros j Hj. exists 0. split; [apply amake_get; lia|]. split; [lia|].
  intros k Hk. apply Z.bits_0.
Qed.

(** *** Summation *)
(** one word, exactly as computed (modulo 2^64) *)
Definition wsum (w low : Z) : Z := sumr 0 64 (fun k => if Z.testbit w k then low + 2 * k else 0).
Definition bsum (n j : Z) : Z := sumr 0 n (fun k => if Z.testbit j k then 2 * k else 0).

Lemma bsum_clear n j t u : low2 j t u -> t < n -> bsum n (j - 2 ^ t) = bsum n j - 2 * t.
Proof.
  intros (Ht & Hu & ->) Htn. unfold bsum.
  replace (2 ^ t * (2 * u + 1) - 2 ^ t) with (2 ^ t * (2 * u)) by ring.
  cut (sumr 0 n (fun k => if Z.testbit (2 ^ t * (2 * u + 1)) k then 2 * k else 0) =
       sumr 0 n (fun k => (if Z.testbit (2 ^ t * (2 * u)) k then 2 * k else 0) + (if k =? t then 2 * t else 0))).
  { intros ->. rewrite sumr_add. rewrite (sumr_single 0 n t (fun k => if k =? t then 2 * t else 0)).
    - rewrite Z.eqb_refl. ring.
    - lia.
    - intros i _ Hi. now apply Z.eqb_neq in Hi as ->. }
  apply sumr_ext. intros k Hk. rewrite !(Z.mul_comm (2 ^ t)), !Z.mul_pow2_bits by lia.
  destruct (Z.eqb_spec k t) as [->|Nk].
  - rewrite Z.sub_diag, Z.testbit_odd_0, Z.testbit_even_0. lia.
  - destruct (Z.lt_ge_cases k t).
    + rewrite !Z.testbit_neg_r by lia. lia.
    + replace (k - t) with (Z.succ (k - t - 1)) by lia. rewrite Z.testbit_odd_succ, Z.testbit_even_succ by lia. lia.
Qed.
Lemma bsum_bound j : 0 <= bsum 16 j <= 240.
Proof.
  split; [apply sumr_nonneg; intros; destruct (Z.testbit j i); lia|].
  change 240 with (sumr 0 16 (fun k => 2 * k)). apply sumr_le. intros i Hi. destruct (Z.testbit j i); lia.
Qed.
Lemma sumbits_ok i : 0 <= i < 2 ^ 16 -> sumbits i = Ok (bsum 16 i).
Proof.
  intros Hi. unfold sumbits. destruct (Z.leb_spec 0 i), (Z.ltb_spec i (2 ^ 16)); try lia. cbn [andb].
  unfold assert_. rewrite bind_Ok. unfold sumbits_entry. apply wp_eq. assert (2 ^ 16 < 2 ^ 400) by reflexivity.
  apply (loop_rule _ (fun '(j, s) => 0 <= j <= i /\ s + bsum 16 j = bsum 16 i /\ 0 <= s) (fun '(j, _) => j)); [|split; [lia|]; split; [ring|lia]|lia].
  intros [j s] (Hj & Es & Hs0). destruct (Z.eqb_spec j 0) as [->|NZ].
  - cbn [wp]. rewrite <- Es. change (bsum 16 0) with 0. ring.
  - destruct (low2_exists j ltac:(lia)) as (t & u & L). change (Z.land j (- j)) with (lb j).
    rewrite (low2_lb _ _ _ L). rewrite Z.log2_pow2 by (destruct L; lia).
    rewrite (low2_clear _ _ _ L). pose proof L as (Ht & Hu & E). pose proof (Z.pow_pos_nonneg 2 t ltac:(lia) Ht).
    assert (Ht16 : t < 16). { apply (Z.pow_lt_mono_r_iff 2); [lia|lia|]. nia. }
    pose proof (bsum_clear 16 j t u L Ht16) as BC. pose proof (bsum_bound i). pose proof (bsum_bound (j - 2 ^ t)).
    unfold uwrap. rewrite !(Z.mod_small _ (2 ^ 8)); try (change (2 ^ 8) with 256; lia).
    2:{ rewrite Z.mod_small; change (2 ^ 8) with 256; lia. }
    cbn [wp]. split; [|lia]. split; [nia|]. lia.
Qed.

Lemma part16 w a k : 0 <= a -> 0 <= k -> Z.testbit (Z.land (Z.shiftr w a) 0xffff) k = (k <? 16) && Z.testbit w (a + k).
Proof.
  intros Ha Hk. change 0xffff with (Z.ones 16). rewrite Z.land_spec, Z.shiftr_spec by lia.
  replace (k + a) with (a + k) by ring. destruct (Z.ltb_spec k 16).
  - rewrite Z.ones_spec_low by lia. now rewrite andb_true_r.
  - rewrite Z.ones_spec_high by lia. now rewrite andb_false_r.
Qed.
Lemma part16_range w a : 0 <= Z.land (Z.shiftr w a) 0xffff < 2 ^ 16.
Proof. change 0xffff with (Z.ones 16). rewrite Z.land_ones by lia. apply Z.mod_pos_bound. reflexivity. Qed.
Lemma popcount16 b : (forall k, 16 <= k -> Z.testbit b k = false) -> popcount b = sumr 0 16 (fun k => Z.b2z (Z.testbit b k)).
Proof.
  intros H. unfold popcount. rewrite (sumr_split 0 16 64) by lia. rewrite (sumr_zero 16 64); [ring|].
  intros k Hk. now rewrite H by lia.
Qed.
(** contribution of one 16-bit part *)
Lemma part_sum w a low b : 0 <= a -> b = Z.land (Z.shiftr w a) 0xffff ->
  bsum 16 b + (low + 2 * a) * popcount b = sumr a (a + 16) (fun k => if Z.testbit w k then low + 2 * k else 0).
Proof.
  intros Ha ->. rewrite popcount16 by (intros k Hk; rewrite part16 by lia; destruct (Z.ltb_spec k 16); [lia|reflexivity]).
  unfold bsum. rewrite <- sumr_scal, <- sumr_add. replace a with (0 + a) at 6 by ring. replace (a + 16) with (16 + a) by ring.
  rewrite (sumr_shift 0 16 a). apply sumr_ext. intros k Hk. rewrite !part16 by lia.
  destruct (Z.ltb_spec k 16); [|lia]. cbn [andb]. replace (k + a) with (a + k) by ring. destruct (Z.testbit w (a + k)); cbn [Z.b2z]; ring.
Qed.

Lemma cadd m a a' b b' : a mod m = a' mod m -> b mod m = b' mod m -> (a + b) mod m = (a' + b') mod m.
Proof. intros H1 H2. rewrite (Zplus_mod a b), H1, H2. now rewrite <- Zplus_mod. Qed.
Lemma cmul m a a' b : a mod m = a' mod m -> (a * b) mod m = (a' * b) mod m.
Proof. intros H1. rewrite (Zmult_mod a b), H1. now rewrite <- Zmult_mod. Qed.
Lemma cmod m a a' : a mod m = a' mod m -> (a mod m) mod m = a' mod m.
Proof. intros H1. now rewrite Zmod_mod. Qed.
Ltac cong_mod := repeat match goal with
  | |- (_ mod _) mod _ = _ => apply cmod
  | |- (_ + _) mod _ = _ => apply cadd
  | |- (_ * _) mod _ = _ => apply cmul
  | |- _ => reflexivity end.

Theorem sum_bits_mod w low : 0 <= w < 2 ^ 64 -> sum_bits w low = Ok (wsum w low mod 2 ^ 64, (low + 128) mod 2 ^ 64).
Proof.
  intros Hw. unfold sum_bits.
  assert (E3 : Z.shiftr w 48 = Z.land (Z.shiftr w 48) 0xffff).
  { apply Z.bits_inj'. intros k Hk. rewrite part16, Z.shiftr_spec by lia. replace (k + 48) with (48 + k) by ring.
    destruct (Z.ltb_spec k 16); auto. cbn [andb]. apply word_high; lia. }
  assert (E0 : Z.land w 0xffff = Z.land (Z.shiftr w 0) 0xffff) by now rewrite Z.shiftr_0_r.
  rewrite E0, E3.
  pose proof (part16_range w 0) as R0. pose proof (part16_range w 16) as R1.
  pose proof (part16_range w 32) as R2. pose proof (part16_range w 48) as R3.
  pose proof (part_sum w 0 low _ ltac:(lia) eq_refl) as S0. pose proof (part_sum w 16 low _ ltac:(lia) eq_refl) as S1.
  pose proof (part_sum w 32 low _ ltac:(lia) eq_refl) as S2. pose proof (part_sum w 48 low _ ltac:(lia) eq_refl) as S3.
  assert (ES : wsum w low = sumr 0 (0 + 16) (fun k => if Z.testbit w k then low + 2 * k else 0) +
    sumr 16 (16 + 16) (fun k => if Z.testbit w k then low + 2 * k else 0) + sumr 32 (32 + 16) (fun k => if Z.testbit w k then low + 2 * k else 0) +
    sumr 48 (48 + 16) (fun k => if Z.testbit w k then low + 2 * k else 0)).
  { unfold wsum. rewrite (sumr_split 0 16 64), (sumr_split 16 32 64), (sumr_split 32 48 64) by lia.
    change (0 + 16) with 16. change (16 + 16) with 32. change (32 + 16) with 48. change (48 + 16) with 64. ring. }
  rewrite <- S0, <- S1, <- S2, <- S3 in ES. clear S0 S1 S2 S3 E0 E3.
  assert (W16 : 2 ^ 16 < 2 ^ 64) by reflexivity.
  rewrite !sumbits_ok by assumption. rewrite !bind_Ok. rewrite !popcnt64_ok by lia. unfold uwrap.
  clear R0 R1 R2 R3 W16. revert ES.
  generalize (popcount (Z.land (Z.shiftr w 0) 65535)) (popcount (Z.land (Z.shiftr w 16) 65535))
    (popcount (Z.land (Z.shiftr w 32) 65535)) (popcount (Z.land (Z.shiftr w 48) 65535))
    (bsum 16 (Z.land (Z.shiftr w 0) 65535)) (bsum 16 (Z.land (Z.shiftr w 16) 65535))
    (bsum 16 (Z.land (Z.shiftr w 32) 65535)) (bsum 16 (Z.land (Z.shiftr w 48) 65535)).
  intros c0 c1 c2 c3 d0 d1 d2 d3 ES. generalize dependent (wsum w low). intros W ->. generalize (2 ^ 64). intros M.
  f_equal. f_equal; (etransitivity; [cong_mod|f_equal; ring]).
Qed.

Lemma wsum_bound w low : 0 <= low -> 0 <= wsum w low <= 64 * (low + 126).
Proof.
  intros Hl. unfold wsum. split; [apply sumr_nonneg; intros; destruct (Z.testbit w i); lia|].
  transitivity (sumr 0 64 (fun _ => low + 126)); [apply sumr_le; intros; destruct (Z.testbit w i); lia|].
  rewrite sumr_const by lia. lia.
Qed.
Lemma sum_bits_ok w low : 0 <= w < 2 ^ 64 -> 0 <= low <= 2 ^ 60 -> wsum w low < 2 ^ 64 -> sum_bits w low = Ok (wsum w low, low + 128).
Proof.
  intros Hw Hl Hs. rewrite sum_bits_mod by auto. pose proof (wsum_bound w low ltac:(lia)).
  rewrite !Z.mod_small; [reflexivity|lia|lia].
Qed.

(** sums by bit index *)
Definition isum (F : Z -> bool) (low a b : Z) : Z := sumr a b (fun i => if F i then low + 2 * i else 0).
Lemma isum_split F low a b c : a <= b <= c -> isum F low a c = isum F low a b + isum F low b c.
Proof. apply sumr_split. Qed.
Lemma isum_empty F low a b : b <= a -> isum F low a b = 0. Proof. apply sumr_empty. Qed.

(** a word restricted by a mask that keeps the bits a <= k < b *)
Lemma wsum_masked F w m j low a b : 0 <= a <= b -> b <= 64 ->
  (forall k, 0 <= k < 64 -> Z.testbit w k = F (64 * j + k)) ->
  (forall k, 0 <= k < 64 -> Z.testbit m k = (a <=? k) && (k <? b)) ->
  wsum (Z.land w m) (low + 128 * j) = isum F low (64 * j + a) (64 * j + b).
Proof.
  intros Hab Hb HF HM. unfold wsum, isum.
  replace (64 * j + a) with (a + 64 * j) by ring. replace (64 * j + b) with (b + 64 * j) by ring.
  rewrite sumr_shift. rewrite (sumr_split 0 a 64), (sumr_split a b 64) by lia.
  rewrite (sumr_zero 0 a), (sumr_zero b 64).
  - rewrite Z.add_0_r, Z.add_0_l. apply sumr_ext. intros k Hk. rewrite Z.land_spec, HF, HM by lia.
    destruct (Z.leb_spec a k), (Z.ltb_spec k b); try lia. cbn [andb]. rewrite andb_true_r. replace (k + 64 * j) with (64 * j + k) by ring.
    destruct (F (64 * j + k)); ring.
  - intros k Hk. rewrite Z.land_spec, HM by lia. destruct (Z.ltb_spec k b); [lia|]. now rewrite !andb_false_r.
  - intros k Hk. rewrite Z.land_spec, HM by lia. destruct (Z.leb_spec a k); [lia|]. cbn [andb]. now rewrite andb_false_r.
Qed.
Lemma wsum_full F w j low : (forall k, 0 <= k < 64 -> Z.testbit w k = F (64 * j + k)) ->
  wsum w (low + 128 * j) = isum F low (64 * j) (64 * j + 64).
Proof.
  intros HF. unfold wsum, isum. replace (64 * j) with (0 + 64 * j) at 1 by ring. replace (64 * j + 64) with (64 + 64 * j) by ring.
  rewrite sumr_shift. apply sumr_ext. intros k Hk. rewrite HF by lia. replace (k + 64 * j) with (64 * j + k) by ring.
  destruct (F (64 * j + k)); ring.
Qed.
Lemma land_word w m : 0 <= w < 2 ^ 64 -> 0 <= m -> 0 <= Z.land w m < 2 ^ 64.
Proof.
  intros Hw Hm. assert (0 <= Z.land w m) by (apply Z.land_nonneg; left; lia). split; auto.
  destruct (Z.eq_dec (Z.land w m) 0) as [->|N]; [lia|]. apply Z.log2_lt_pow2; [lia|].
  eapply Z.le_lt_trans; [apply Z.log2_land; lia|]. eapply Z.le_lt_trans; [apply Z.le_min_l|].
  destruct (Z.eq_dec w 0) as [->|]; [reflexivity|]. apply Z.log2_lt_pow2; lia.
Qed.

Lemma mask1_bit s k : 0 <= s < 64 -> 0 <= k < 64 -> Z.testbit (uwrap 64 (Z.lnot (uwrap 64 (2 ^ s - 1)))) k = (s <=? k).
Proof.
  intros Hs Hk. rewrite uwrap_bit, Z.lnot_spec, uwrap_bit by lia. rewrite Z.sub_1_r, <- Z.ones_equiv.
  destruct (Z.leb_spec s k); [now rewrite Z.ones_spec_high by lia|now rewrite Z.ones_spec_low by lia].
Qed.
Lemma mask2_bit s k : 0 <= s < 64 -> 0 <= k < 64 -> Z.testbit (Z.lor (uwrap 64 (Z.shiftl (uwrap 64 (2 ^ s - 1)) 1)) 1) k = (k <? s + 1).
Proof.
  intros Hs Hk. rewrite Z.lor_spec, uwrap_bit, Z.shiftl_spec by lia. destruct (Z.eq_dec k 0) as [->|].
  - change (Z.testbit 1 0) with true. rewrite orb_true_r. symmetry. apply Z.ltb_lt. lia.
  - replace (Z.testbit 1 k) with false.
    2:{ symmetry. apply Z.bits_above_log2; [lia|]. change (Z.log2 1) with 0. lia. }
    rewrite orb_false_r, uwrap_bit by lia. rewrite Z.sub_1_r, <- Z.ones_equiv.
    destruct (Z.ltb_spec k (s + 1)); [now rewrite Z.ones_spec_low by lia|now rewrite Z.ones_spec_high by lia].
Qed.

Lemma isum_nonneg F low a b : 0 <= low -> 0 <= a -> 0 <= isum F low a b.
Proof. intros Hl Ha. apply sumr_nonneg. intros i Hi. destruct (F i); lia. Qed.
Lemma isum_bound F low a b : 0 <= low -> 0 <= a -> low + 2 * b <= 2 ^ 60 -> 0 <= isum F low a b <= 2 ^ 120.
Proof.
  intros Hl Ha Hb. split; [now apply isum_nonneg|]. destruct (Z.le_gt_cases b a) as [L|L]; [rewrite isum_empty by lia; discriminate|].
  apply Z.le_trans with (sumr a b (fun _ => 2 ^ 60)).
  - apply sumr_le. intros i Hi. destruct (F i); [lia|discriminate].
  - rewrite sumr_const by lia. change (2 ^ 120) with (2 ^ 60 * 2 ^ 60). apply Z.mul_le_mono_nonneg; lia.
Qed.
Lemma schk128 v : - 2 ^ 127 <= v < 2 ^ 127 -> schk 128 v = Ok v.
Proof. intros H. apply schk_ok. unfold in_s. change (smin 128) with (- 2 ^ 127). change (smax 128) with (2 ^ 127 - 1). lia. Qed.
(** the sum of the marked numbers of each word fits in uint64_t *)
Definition words_fit (F : Z -> bool) (low N : Z) : Prop := forall j, 0 <= j < N -> isum F low (64 * j) (64 * j + 64) < 2 ^ 64.
Lemma isum_sub F low a b a' b' : 0 <= low -> 0 <= a' <= a -> a <= b <= b' -> isum F low a b <= isum F low a' b'.
Proof.
  intros Hl Ha Hb. rewrite (isum_split F low a' a b'), (isum_split F low a b b') by lia.
  pose proof (isum_nonneg F low a' a ltac:(lia) ltac:(lia)). pose proof (isum_nonneg F low b b' ltac:(lia) ltac:(lia)). lia.
Qed.
Lemma words_fit_small F low N : 0 <= low -> low + 128 * N <= 2 ^ 58 -> words_fit F low N.
Proof.
  intros Hl Hb j Hj. unfold isum. apply Z.le_lt_trans with (sumr (64 * j) (64 * j + 64) (fun _ => low + 128 * N - 2)).
  - apply sumr_le. intros i Hi. destruct (F i); lia.
  - rewrite sumr_const by lia. lia.
Qed.
Lemma sum_words_ok s N F low from n : words_rep s N N F -> 0 <= from -> 0 <= n -> from + n <= N -> 0 <= low -> low + 128 * N <= 2 ^ 60 -> words_fit F low N ->
  sum_words s from n (low + 128 * from) = Ok (isum F low (64 * from) (64 * (from + n)), low + 128 * (from + n)).
Proof.
  intros [HL HW] Hf Hn Hfn Hl Hb Hfit. unfold sum_words. apply wp_eq. assert (2 ^ 60 < 2 ^ 400) by reflexivity. assert (2 ^ 120 < 2 ^ 127) by reflexivity.
  apply (for_rule 0 n _ (fun i '(s0, l0) => s0 = isum F low (64 * from) (64 * (from + i)) /\ l0 = low + 128 * (from + i))).
  - lia.
  - split; [rewrite isum_empty by lia; reflexivity|ring].
  - intros i [s0 l0] Hi (-> & ->). destruct (HW (from + i) ltac:(lia)) as (w & A & B & C). rewrite A, bind_Ok.
    rewrite sum_bits_ok; [|lia|lia|rewrite (wsum_full F w (from + i) low C); apply Hfit; lia]. rewrite bind_Ok.
    rewrite (wsum_full F w (from + i) low C). rewrite <- isum_split by lia.
    pose proof (isum_bound F low (64 * from) (64 * (from + i) + 64) ltac:(lia) ltac:(lia) ltac:(lia)). rewrite schk128 by lia. rewrite bind_Ok. cbn [wp]. split; [|ring].
    f_equal. ring.
  - intros [s0 l0] (-> & ->). rewrite Z.max_r by lia. split; reflexivity.
Qed.

Lemma even_dec a : a mod 2 = 0 \/ a mod 2 = 1.
Proof. pose proof (Z.mod_pos_bound a 2). lia. Qed.

Theorem bs_sum_idx bs N F low start stop : bs_rep bs N F -> 0 <= low -> low + 128 * N <= 2 ^ 60 -> words_fit F low N ->
  0 <= start < 2 ^ 63 -> 0 <= stop -> stop < bs_size bs ->
  bs_sum bs low start stop = Ok (isum F low ((start + 1) / 2) (stop / 2 + 1)).
Proof.
  intros [Hs HW] Hl Hb Hfit Hst Hsp Hsz. unfold bs_sum. rewrite !Z.rem_mod_nonneg by lia.
  pose proof (Z.div_mod start 2 ltac:(lia)) as D1. pose proof (Z.div_mod stop 2 ltac:(lia)) as D2.
  pose proof (even_dec start) as P1. pose proof (even_dec stop) as P2.
  set (a := (start + 1) / 2). assert (Ea : start + start mod 2 = 2 * a).
  { unfold a. destruct P1 as [P1|P1]; rewrite P1 in *.
    - replace (start + 1) with (1 + (start / 2) * 2) by lia. rewrite Z.div_add by lia. change (1 / 2) with 0. lia.
    - replace (start + 1) with ((start / 2 + 1) * 2) by lia. rewrite Z.div_mul by lia. lia. }
  set (b := stop / 2). assert (Eb : stop - stop mod 2 = 2 * b) by (unfold b; lia).
  rewrite Ea, Eb. assert (0 <= a) by (unfold a; apply Z.div_pos; lia). assert (0 <= b) by (unfold b; apply Z.div_pos; lia).
  assert (a <= 2 ^ 62) by (assert (2 ^ 63 = 2 * 2 ^ 62) by reflexivity; lia).
  assert (C62 : 2 ^ 60 < 2 ^ 62 < 2 ^ 63) by (split; reflexivity).
  assert (C63 : 2 * 2 ^ 62 < 2 ^ 64) by reflexivity.
  rewrite !uwrap_small by lia. rewrite Z.gtb_ltb. destruct (Z.ltb_spec (2 * b) (2 * a)) as [L|G].
  { rewrite isum_empty by lia. reflexivity. }
  destruct (Z.ltb_spec (2 * b) (bs_size bs)); [|lia]. unfold assert_. rewrite bind_Ok.
  assert (QD : forall v, 0 <= v -> Z.quot (2 * v) 128 = v / 64 /\ Z.rem (2 * v) 128 = 2 * (v mod 64)).
  { intros v Hv. rewrite Z.quot_div_nonneg, Z.rem_mod_nonneg by lia. change 128 with (2 * 64).
    rewrite Z.div_mul_cancel_l, Z.mul_mod_distr_l by lia. auto. }
  destruct (QD a ltac:(lia)) as [Qa Ra]. destruct (QD b ltac:(lia)) as [Qb Rb]. rewrite Qa, Qb, Ra, Rb.
  pose proof HW as [HLn HWd].
  destruct (idx_split a N ltac:(lia)) as (A1 & A2 & A3). destruct (idx_split b N ltac:(lia)) as (B1 & B2 & B3).
  set (ja := a / 64) in *. set (ka := a mod 64) in *. set (jb := b / 64) in *. set (kb := b mod 64) in *.
  rewrite !set_bit_get by lia. rewrite !bind_Ok.
  rewrite !(Z.mul_comm 2 ka), !(Z.mul_comm 2 kb), !Z.div_mul by lia.
  set (m1 := uwrap 64 (Z.lnot (uwrap 64 (2 ^ ka - 1)))). set (m2 := Z.lor (uwrap 64 (Z.shiftl (uwrap 64 (2 ^ kb - 1)) 1)) 1).
  assert (M1 : 0 <= m1) by apply uwrap_range.
  assert (M2 : 0 <= m2) by (apply Z.lor_nonneg; split; [apply uwrap_range|lia]).
  assert (EL : uwrap 64 (low + uwrap 64 (2 * a - ka * 2)) = low + 128 * ja).
  { rewrite (uwrap_small (2 * a - ka * 2)) by lia. rewrite uwrap_small by lia. lia. }
  rewrite EL. destruct (Z.eqb_spec ja jb) as [Ej|Nj].
  - destruct (HWd ja A1) as (w & W1 & W2 & W3). rewrite W1, bind_Ok.
    assert (E : wsum (Z.land w (Z.land m1 m2)) (low + 128 * ja) = isum F low (64 * ja + ka) (64 * ja + (kb + 1))).
    { apply wsum_masked; [lia|lia|exact W3|]. intros k Hk. unfold m1, m2. rewrite Z.land_spec, mask1_bit, mask2_bit by lia. reflexivity. }
    rewrite sum_bits_ok; [|apply land_word; [lia|apply Z.land_nonneg; left; lia]|lia|].
    2:{ rewrite E. eapply Z.le_lt_trans; [apply (isum_sub F low _ _ (64 * ja) (64 * ja + 64)); lia|]. apply Hfit. lia. }
    rewrite bind_Ok, E. f_equal. f_equal; lia.
  - assert (Hj : ja < jb). { assert (ja <= jb) by (apply Z.div_le_mono; lia). lia. }
    destruct (HWd ja A1) as (w & W1 & W2 & W3). rewrite W1, bind_Ok.
    assert (E : wsum (Z.land w m1) (low + 128 * ja) = isum F low (64 * ja + ka) (64 * ja + 64)).
    { apply wsum_masked; [lia|lia|exact W3|]. intros k Hk. unfold m1. rewrite mask1_bit by lia. destruct (Z.ltb_spec k 64); [now rewrite andb_true_r|lia]. }
    rewrite sum_bits_ok; [|apply land_word; lia|lia|].
    2:{ rewrite E. eapply Z.le_lt_trans; [apply (isum_sub F low _ _ (64 * ja) (64 * ja + 64)); lia|]. apply Hfit. lia. }
    rewrite bind_Ok, E.
    replace (low + 128 * ja + 128) with (low + 128 * (ja + 1)) by ring.
    rewrite (sum_words_ok _ N F low (ja + 1)) by (auto; lia). rewrite bind_Ok.
    replace (ja + 1 + (jb - (ja + 1))) with jb by ring.
    assert (C60 : 2 ^ 120 < 2 ^ 127) by reflexivity.
    replace (64 * ja + 64) with (64 * (ja + 1)) by ring. rewrite <- isum_split by lia.
    pose proof (isum_bound F low (64 * ja + ka) (64 * jb) ltac:(lia) ltac:(lia) ltac:(lia)). rewrite schk128 by lia. rewrite bind_Ok.
    destruct (HWd jb B1) as (v & V1 & V2 & V3). rewrite V1, bind_Ok.
    assert (E' : wsum (Z.land v m2) (low + 128 * jb) = isum F low (64 * jb + 0) (64 * jb + (kb + 1))).
    { apply wsum_masked; [lia|lia|exact V3|]. intros k Hk. unfold m2. rewrite mask2_bit by lia. destruct (Z.leb_spec 0 k); [reflexivity|lia]. }
    rewrite sum_bits_ok; [|apply land_word; lia|lia|].
    2:{ rewrite E'. eapply Z.le_lt_trans; [apply (isum_sub F low _ _ (64 * jb) (64 * jb + 64)); lia|]. apply Hfit. lia. }
    rewrite bind_Ok, E'. rewrite Z.add_0_r. rewrite <- isum_split by lia.
    pose proof (isum_bound F low (64 * ja + ka) (64 * jb + (kb + 1)) ltac:(lia) ltac:(lia) ltac:(lia)). rewrite schk128 by lia. f_equal. f_equal; lia.
Qed.

Lemma marked_isum F low start stop : 0 <= start -> 0 <= stop ->
  marked_sum F low start stop = isum F low ((start + 1) / 2) (stop / 2 + 1).
Proof.
  intros Hst Hsp. unfold marked_sum, isum.
  cut (forall d, 0 <= d -> sumr start (start + d) (fun k => if Z.even k && F (k / 2) then low + k else 0) =
    sumr ((start + 1) / 2) ((start + d + 1) / 2) (fun i => if F i then low + 2 * i else 0)).
  { intros H. destruct (Z.le_gt_cases start (stop + 1)) as [L|L].
    - replace (stop + 1) with (start + (stop + 1 - start)) by ring. rewrite H by lia. f_equal.
      replace (start + (stop + 1 - start) + 1) with (stop + 1 * 2) by ring. now rewrite Z.div_add by lia.
    - rewrite !sumr_empty; [reflexivity| |lia]. replace (stop / 2 + 1) with ((stop + 1 * 2) / 2) by (rewrite Z.div_add by lia; ring).
      apply Z.div_le_mono; lia. }
  intros d Hd. pattern d. apply natlike_ind; [| |exact Hd].
  - rewrite Z.add_0_r. now rewrite !sumr_empty by lia.
  - intros k Hk IH. unfold Z.succ. rewrite Z.add_assoc. rewrite sumr_snoc, IH by lia. set (n := start + k).
    pose proof (Z.div_mod n 2 ltac:(lia)) as D. rewrite Zeven_mod. destruct (even_dec n) as [E|E]; rewrite E in D |- *.
    + change (Zeq_bool 0 0) with true. cbn [andb].
      replace (n + 1 + 1) with (0 + (n / 2 + 1) * 2) by lia. rewrite Z.div_add by lia. change (0 / 2) with 0.
      replace (n + 1) with (1 + n / 2 * 2) by lia. rewrite Z.div_add by lia. change (1 / 2) with 0.
      rewrite !Z.add_0_l. rewrite sumr_snoc; [f_equal; destruct (F (n / 2)); lia|].
      apply Z.div_le_lower_bound; [lia|]. 
      pose proof (Z.mul_div_le (start + 1) 2 ltac:(lia)).
      assert (2 * ((start + 1) / 2) <= n + 1) by (unfold n; lia). lia.
    + change (Zeq_bool 1 0) with false. cbn [andb]. rewrite Z.add_0_r. f_equal.
      replace (n + 1) with (0 + (n / 2 + 1) * 2) at 1 by lia. replace (n + 1 + 1) with (1 + (n / 2 + 1) * 2) by lia.
      rewrite !Z.div_add by lia. reflexivity.
Qed.

(** *** pre_sieve *)
Definition bp (t : Z) : Z := nth (Z.to_nat t) bs_primes 0.
Definition np (c n : Z) : bool := forallb (fun t => negb (n mod bp t =? 0)) (zrange 2 (c + 1)).

Lemma np_snoc c n : 2 <= c -> np c n = np (c - 1) n && negb (n mod bp c =? 0).
Proof. intros H. unfold np. rewrite zrange_snoc by lia. rewrite forallb_app. cbn [forallb]. rewrite andb_true_r. now replace (c - 1 + 1) with c by ring. Qed.
Lemma bs_primes_get i : 2 <= i < 10 -> aget bs_primes i = Ok (bp i) /\ 3 <= bp i <= 23 /\ Z.odd (bp i) = true /\ prime (bp i) /\ pi (bp i) = i.
Proof.
  intros Hi. assert (C : forallb (fun i => match aget bs_primes i with Ok v => (v =? bp i) && (3 <=? bp i) && (bp i <=? 23) && Z.odd (bp i) && primeb (bp i) && (pi (bp i) =? i) | _ => false end) (zrange 2 10) = true) by (vm_compute; reflexivity).
  rewrite forallb_forall in C. specialize (C i). rewrite in_zrange in C. specialize (C Hi).
  destruct (aget bs_primes i); [|discriminate]. rewrite !andb_true_iff, !Z.leb_le, !Z.eqb_eq in C. destruct C as (((((E & A) & B) & D) & F) & G).
  rewrite E. split; [reflexivity|]. split; [lia|]. split; [exact D|]. split; [now apply primeb_spec|exact G].
Qed.
Lemma bs_masks_get i : 2 <= i < 10 -> exists m, aget bs_masks i = Ok m /\ 0 <= m < 2 ^ 64 /\
  forall k, 0 <= k < 64 -> Z.testbit m k = (k mod bp i =? 0).
Proof.
  intros Hi. assert (C : forallb (fun i => match aget bs_masks i with Ok m => (0 <=? m) && (m <? 2 ^ 64) && forallb (fun k => Bool.eqb (Z.testbit m k) (k mod bp i =? 0)) (zrange 0 64) | _ => false end) (zrange 2 10) = true) by (vm_compute; reflexivity).
  rewrite forallb_forall in C. specialize (C i). rewrite in_zrange in C. specialize (C Hi).
  destruct (aget bs_masks i) as [m|]; [|discriminate]. rewrite !andb_true_iff, Z.leb_le, Z.ltb_lt in C. destruct C as ((A & B) & D).
  exists m. split; [reflexivity|]. split; [lia|]. intros k Hk. rewrite forallb_forall in D. specialize (D k). rewrite in_zrange in D.
  apply eqb_prop. now apply D.
Qed.

Lemma bs_copy_ok s N last n F (Q : list Z -> Prop) : words_rep s N last F -> 0 <= n <= last -> last + n <= N -> N < 2 ^ 62 ->
  (forall m, 0 <= m < 64 * n -> F (64 * last + m) = F m) ->
  (forall s', words_rep s' N (last + n) F -> Q s') -> wp (bs_copy s n last) Q.
Proof.
  intros [HL HW] Hn Hb HN HP HQ. unfold bs_copy. assert (2 ^ 62 < 2 ^ 400) by reflexivity.
  apply (for_rule 0 n _ (fun k s => words_rep s N (last + k) F)).
  - lia.
  - rewrite Z.add_0_r. split; auto.
  - intros k s1 Hk [HL1 HW1]. destruct (HW1 k ltac:(lia)) as (w & A & B & C). rewrite A, bind_Ok.
    apply wp_aset; [lia|]. intros s2 L2 G2. split; [lia|]. intros j Hj. rewrite G2.
    destruct (Z.eqb_spec j (last + k)) as [->|Nj].
    + exists w. split; [reflexivity|]. split; [exact B|]. intros i Hi. rewrite C by lia. rewrite <- HP by lia. f_equal. ring.
    + apply HW1. lia.
  - intros s1 H1. rewrite Z.max_r in H1 by lia. auto.
Qed.

Definition divs (i L : Z) : Prop := forall t, 2 <= t < i -> (bp t | L).
Lemma mod_eq_div a b p : 0 < p -> (p | a - b) -> a mod p = b mod p.
Proof. intros Hp [k E]. replace a with (b + k * p) by lia. now rewrite Z.mod_add by lia. Qed.
Lemma forallb_ext_in {A} (f g : A -> bool) l : (forall x, In x l -> f x = g x) -> forallb f l = forallb g l.
Proof. induction l as [|a l IH]; intros H; [reflexivity|]. cbn [forallb]. rewrite H by now left. rewrite IH; [reflexivity|]. intros. apply H. now right. Qed.
Lemma np_period low i L m : 2 <= i <= 10 -> divs i L -> np (i - 1) (low + 2 * (64 * L + m)) = np (i - 1) (low + 2 * m).
Proof.
  intros Hi HD. unfold np. apply forallb_ext_in. intros t Ht. rewrite in_zrange in Ht. f_equal. f_equal.
  destruct (bs_primes_get t ltac:(lia)) as (_ & Hp & _). apply mod_eq_div; [lia|].
  destruct (HD t ltac:(lia)) as [k E]. exists (128 * k). rewrite E. ring.
Qed.

Lemma bs_fill_ok s N S last e i low (Q : list Z * Z -> Prop) : 2 <= i <= 10 -> 1 <= N < 2 ^ 62 ->
  words_rep s N last (fun m => np (i - 1) (low + 2 * m)) -> S = N \/ (divs i S /\ (S | last) /\ ((S | e) \/ e = N)) ->
  1 <= S -> S <= last -> last <= e -> e <= N ->
  (forall s', words_rep s' N e (fun m => np (i - 1) (low + 2 * m)) -> Q (s', e)) ->
  wp (bs_fill s S last e N) Q.
Proof.
  intros Hi HN HR HS HS1 HSl Hle HeN HQ. unfold bs_fill. assert (C62 : 2 ^ 62 < 2 ^ 400) by reflexivity. assert (C64 : 2 ^ 62 < 2 ^ 64) by reflexivity.
  apply (loop_rule _ (fun '(s, last) => words_rep s N last (fun m => np (i - 1) (low + 2 * m)) /\ S <= last <= e /\
    (S = N \/ (divs i S /\ ((S | last) \/ last = N) /\ ((S | e) \/ e = N)))) (fun '(_, last) => e - last)); [| |lia].
  2:{ split; [exact HR|]. split; [lia|]. destruct HS as [HS|(H1 & H2 & H3)]; auto. }
  intros [s1 l1] (R1 & L1 & D1). destruct (Z.ltb_spec l1 e) as [Lt|Ge].
  - destruct D1 as [D1|(HD & [HDl|HDl] & HDe)]; [lia| |lia].
    rewrite (uwrap_small (N - l1)) by lia. set (n := Z.min S (N - l1)).
    assert (Hn : 0 < n <= S /\ n <= N - l1) by (unfold n; lia).
    assert (Hne : l1 + n <= e).
    { destruct HDe as [[k Ek]|Ek]; [|lia]. destruct HDl as [k' Ek']. assert (k' < k) by nia. nia. }
    apply wp_bind. eapply bs_copy_ok; [exact R1|lia|lia|lia| |].
    { intros m Hm. cbv beta. apply np_period; auto. intros t Ht. eapply Z.divide_trans; [apply HD; auto|exact HDl]. }
    intros s2 R2. rewrite uwrap_small by lia. cbn [wp]. split; [|lia]. split; [exact R2|]. split; [lia|]. right. split; [auto|]. split; [|auto].
    unfold n. destruct (Z.min_spec S (N - l1)) as [[_ ->]|[_ ->]]; [left; apply Z.divide_add_r; auto; apply Z.divide_refl|right; ring].
  - cbn [wp]. replace l1 with e in * by lia. auto.
Qed.

Lemma odd_div2 p a : Z.odd p = true -> (p | 2 * a) -> (p | a).
Proof.
  intros Ho H. apply (Gauss p 2 a); auto. apply Zgcd_1_rel_prime.
  rewrite Zodd_mod in Ho. apply Zeq_bool_eq in Ho. rewrite Z.gcd_comm, <- Z.gcd_mod by lia. rewrite Ho. reflexivity.
Qed.
Lemma hit_bit p low j sh k : 3 <= p -> Z.odd p = true -> (p | low + 2 * (64 * j + sh)) -> 0 <= sh < p -> 0 <= k < 64 ->
  ((sh <=? k) && ((k - sh) mod p =? 0)) = ((low + 2 * (64 * j + k)) mod p =? 0).
Proof.
  intros Hp Ho [q E] Hsh Hk. apply eq_true_iff_eq. rewrite andb_true_iff, Z.leb_le, !Z.eqb_eq. split.
  - intros [L M]. apply Z.mod_divide in M; [|lia]. destruct M as [r M]. apply Z.mod_divide; [lia|]. exists (q + 2 * r). lia.
  - intros M. apply Z.mod_divide in M; [|lia]. destruct M as [r M].
    assert (D : (p | k - sh)). { apply odd_div2; auto. exists (r - q). lia. }
    split; [|now apply Z.mod_divide; [lia|]]. destruct D as [d D]. assert (d > -1) by nia. nia.
Qed.
Lemma fast_modulo_ok x p : 3 <= p <= 23 -> 0 <= x < 2 * p -> fast_modulo x p = Ok (if x <? p then x else x - p).
Proof.
  intros Hp Hx. unfold fast_modulo. rewrite (uwrap_small (p * 2)) by lia. destruct (Z.ltb_spec x (p * 2)); [|lia].
  unfold assert_. rewrite bind_Ok. destruct (Z.ltb_spec x p); [reflexivity|]. now rewrite uwrap_small by lia.
Qed.

Lemma bs_remove_ok s N last F low i m sh (Q : list Z * Z -> Prop) : 2 <= i < 10 -> words_rep s N last F -> 0 <= last <= N -> N < 2 ^ 62 ->
  0 <= m < 2 ^ 64 -> (forall k, 0 <= k < 64 -> Z.testbit m k = (k mod bp i =? 0)) ->
  0 <= sh < bp i -> (bp i | low + 2 * sh) ->
  (forall s' sh', words_rep s' N last (fun n => F n && negb ((low + 2 * n) mod bp i =? 0)) -> Q (s', sh')) ->
  wp (bs_remove s last (bp i) m sh (uwrap 64 (bp i - Z.rem 64 (bp i)))) Q.
Proof.
  intros Hi [HL HW] Hl HN Hm HM Hsh HD HQ. destruct (bs_primes_get i Hi) as (_ & Hp & Ho & _ & _). set (p := bp i) in *.
  assert (Hr : 0 < Z.rem 64 p < p).
  { rewrite Z.rem_mod_nonneg by lia. pose proof (Z.mod_pos_bound 64 p ltac:(lia)). split; [|lia].
    destruct (Z.eq_dec (64 mod p) 0) as [E|]; [|lia]. exfalso. apply Z.mod_divide in E; [|lia].
    assert (D : (p | 1)). { do 6 (apply odd_div2; [exact Ho|]). exact E. }
    apply Z.divide_1_r_nonneg in D; lia. }
  rewrite uwrap_small by lia. unfold bs_remove. assert (2 ^ 62 < 2 ^ 400) by reflexivity.
  apply (for_rule 0 last _ (fun j '(s, sh) => zlen s = N /\ 0 <= sh < p /\ (p | low + 2 * (64 * j + sh)) /\
     forall j', 0 <= j' < last -> exists w, aget s j' = Ok w /\ 0 <= w < 2 ^ 64 /\ forall k, 0 <= k < 64 ->
       Z.testbit w k = if j' <? j then F (64 * j' + k) && negb ((low + 2 * (64 * j' + k)) mod p =? 0) else F (64 * j' + k))).
  - lia.
  - split; [exact HL|]. split; [lia|]. split; [rewrite Z.mul_0_r; exact HD|]. intros j' Hj'. destruct (HW j' Hj') as (w & A & B & C).
    exists w. split; auto. split; auto. intros k Hk. destruct (Z.ltb_spec j' 0); [lia|auto].
  - intros j [s1 sh1] Hj (L1 & R1 & D1 & W1). destruct (W1 j Hj) as (w & A & B & C). rewrite A, bind_Ok.
    assert (ES : ushl 64 m sh1 = Ok (uwrap 64 (Z.shiftl m sh1))).
    { unfold ushl. destruct (Z.leb_spec 0 sh1), (Z.ltb_spec sh1 64); try lia. reflexivity. }
    rewrite ES, bind_Ok. apply wp_bind. apply wp_aset; [lia|]. intros s2 L2 G2.
    rewrite (uwrap_small (sh1 + (p - Z.rem 64 p))) by lia. rewrite fast_modulo_ok by lia. rewrite bind_Ok. cbn [wp].
    split; [lia|]. pose proof (Z.quot_rem' 64 p) as QR.
    assert (DD : (p | low + 2 * (64 * (j + 1) + (sh1 + (p - Z.rem 64 p))))).
    { destruct D1 as [q E]. exists (q + 2 * (Z.quot 64 p) + 2). lia. }
    split; [destruct (Z.ltb_spec (sh1 + (p - Z.rem 64 p)) p); lia|]. split.
    { destruct (Z.ltb_spec (sh1 + (p - Z.rem 64 p)) p); [exact DD|]. destruct DD as [q E]. exists (q - 2). lia. }
    intros j' Hj'. rewrite G2. destruct (Z.eqb_spec j' j) as [->|Nj].
    + eexists. split; [reflexivity|]. split; [apply land_word; [lia|apply uwrap_range]|]. intros k Hk.
      rewrite Z.land_spec, uwrap_bit, Z.lnot_spec, uwrap_bit by lia. rewrite C by lia. rewrite Z.ltb_irrefl.
      destruct (Z.ltb_spec j (j + 1)); [|lia]. f_equal. f_equal. rewrite <- (hit_bit p low j sh1 k) by (auto; lia).
      rewrite Z.shiftl_spec by lia. destruct (Z.leb_spec sh1 k).
      * cbn [andb]. apply HM. lia.
      * apply Z.testbit_neg_r. lia.
    + destruct (W1 j' Hj') as (w' & A' & B' & C'). exists w'. split; auto. split; auto. intros k Hk. rewrite C' by auto.
      destruct (Z.ltb_spec j' j), (Z.ltb_spec j' (j + 1)); try lia; reflexivity.
  - intros [s1 sh1] (L1 & _ & _ & W1). rewrite Z.max_r in W1 by lia. apply HQ. split; auto. intros j Hj. destruct (W1 j Hj) as (w & A & B & C).
    exists w. split; auto. split; auto. intros k Hk. rewrite C by auto. destruct (Z.ltb_spec j last); [reflexivity|lia].
Qed.

Lemma first_multiple p low : 3 <= p <= 23 -> Z.odd p = true -> Z.odd low = true -> 1 <= low < 2 ^ 63 ->
  exists q sh, ceil_div u64 low p = Ok q /\
    (let multiple := uwrap 64 (q * p) in
     let multiple := uwrap 64 (multiple + uwrap 64 (p * Z.land (uwrap 64 (Z.lnot multiple)) 1)) in
     Z.quot (uwrap 64 (multiple - low)) 2) = sh /\ 0 <= sh < p /\ (p | low + 2 * sh).
Proof.
  intros Hp Ho Hl Hb. destruct (ceil_div_all u64 low p) as (q & E & N1 & N2); [cbn; tauto|lia|lia|change (tmax u64) with (2 ^ 64 - 1); lia|].
  exists q. eexists. split; [exact E|]. split; [reflexivity|]. cbv zeta.
  assert (HQ : low <= q * p < low + p).
  { split; [lia|]. destruct (Z.lt_ge_cases (q * p) (low + p)); auto. specialize (N2 (q - 1) ltac:(lia)). lia. }
  assert (C : 2 ^ 63 + 100 < 2 ^ 64) by reflexivity. rewrite (uwrap_small (q * p)) by lia.
  assert (EL : Z.land (uwrap 64 (Z.lnot (q * p))) 1 = 1 - (q * p) mod 2).
  { change 1 with (Z.ones 1) at 1. rewrite Z.land_ones by lia. change (2 ^ 1) with 2.
    rewrite <- !Z.bit0_mod. rewrite uwrap_bit by lia. rewrite Z.lnot_spec by lia. destruct (Z.testbit (q * p) 0); reflexivity. }
  rewrite !EL. clear EL.
  rewrite Zodd_mod in Ho, Hl. apply Zeq_bool_eq in Ho, Hl.
  pose proof (Z.div_mod low 2 ltac:(lia)) as Dl. pose proof (Z.div_mod p 2 ltac:(lia)) as Dp. rewrite Ho in Dp. rewrite Hl in Dl.
  pose proof (Z.div_mod (q * p) 2 ltac:(lia)) as Dq. destruct (even_dec (q * p)) as [Eq|Eq]; rewrite Eq in Dq |- *.
  - change (1 - 0) with 1. rewrite Z.mul_1_r. rewrite (uwrap_small p) by lia. rewrite (uwrap_small (q * p + p)) by lia.
    rewrite (uwrap_small (q * p + p - low)) by lia. rewrite Z.quot_div_nonneg by lia.
    replace (q * p + p - low) with ((q * p / 2 + p / 2 - low / 2) * 2) by lia. rewrite Z.div_mul by lia. split; [lia|]. exists (q + 1). lia.
  - change (1 - 1) with 0. rewrite Z.mul_0_r. rewrite (uwrap_small 0) by lia. rewrite Z.add_0_r. rewrite (uwrap_small (q * p)) by lia.
    rewrite (uwrap_small (q * p - low)) by lia. rewrite Z.quot_div_nonneg by lia.
    replace (q * p - low) with ((q * p / 2 - low / 2) * 2) by lia. rewrite Z.div_mul by lia. split; [lia|]. exists q. lia.
Qed.

Lemma np_rough c n : 0 <= c < 10 -> Z.odd n = true -> 1 <= n -> np c n = roughb c n.
Proof.
  intros Hc Ho Hn. assert (R1 : roughb 1 n = true).
  { change 1 with (pi 2). rewrite roughb_step; [|apply prime_2|lia]. change (pi 2 - 1) with 0. rewrite roughb_le0 by lia. cbn [andb].
    rewrite Zodd_mod in Ho. apply Zeq_bool_eq in Ho. now rewrite Ho. }
  destruct (Z.le_gt_cases c 1) as [L|G].
  - unfold np. rewrite zrange_empty by lia. cbn [forallb]. destruct (Z.eq_dec c 1) as [->|]; [auto|]. now rewrite roughb_le0 by lia.
  - cut (forall d, 0 <= d -> 1 + d < 10 -> np (1 + d) n = roughb (1 + d) n).
    { intros H. specialize (H (c - 1) ltac:(lia) ltac:(lia)). now replace (1 + (c - 1)) with c in H by ring. }
    intros d Hd. pattern d. apply natlike_ind; [intros _; unfold np; now rewrite zrange_empty by lia| |exact Hd].
    intros k Hk IH Hb. destruct (bs_primes_get (1 + Z.succ k) ltac:(lia)) as (_ & _ & _ & Pp & Ep).
    rewrite np_snoc by lia. rewrite <- Ep at 3. rewrite roughb_step by (auto; lia). rewrite Ep.
    replace (1 + Z.succ k - 1) with (1 + k) by lia. rewrite IH by lia. reflexivity.
Qed.

Theorem pre_sieve_ok bs N F0 c low (Q : bitsieve -> Prop) : bs_rep bs N F0 -> N < 2 ^ 58 -> 0 <= c < 10 ->
  Z.odd low = true -> 1 <= low < 2 ^ 63 ->
  (forall bs', bs_size bs' = bs_size bs -> bs_rep bs' N (fun i => roughb c (low + 2 * i)) -> Q bs') ->
  wp (pre_sieve bs c low) Q.
Proof.
  intros [Hsz [HL HW]] HN Hc Hl Hlb HQ. unfold pre_sieve. change (zlen bs_primes) with 10. destruct (Z.ltb_spec c 10); [|lia].
  unfold assert_. rewrite bind_Ok. destruct (Z.eqb_spec (zlen (bs_words bs)) 0) as [E0|N0].
  { cbn [wp]. apply HQ; auto. split; auto. split; auto. intros j Hj. lia. }
  assert (HN1 : 1 <= N). { pose proof (zlen_nonneg (bs_words bs)). lia. }
  assert (C1 : 2 ^ 58 * 23 < 2 ^ 64) by reflexivity. assert (C2 : 2 ^ 58 < 2 ^ 62) by reflexivity. assert (C3 : 2 ^ 62 < 2 ^ 400) by reflexivity.
  apply wp_bind. apply wp_aset; [lia|]. intros s0 L0 G0. cbv zeta. rewrite L0, HL.
  apply wp_bind.
  apply (for_rule 2 (c + 1) _ (fun i '(s, last, sieved) => sieved = last /\ 1 <= last <= N /\ (last = N \/ divs i last) /\
     words_rep s N last (fun m => np (i - 1) (low + 2 * m)))).
  - lia.
  - split; [reflexivity|]. split; [lia|]. split; [right; intros t Ht; lia|]. split; [lia|]. intros j Hj. replace j with 0 by lia.
    exists (2 ^ 64 - 1). split; [rewrite G0; reflexivity|]. split; [lia|]. intros k Hk.
    change (2 ^ 64 - 1) with (Z.ones 64). rewrite Z.ones_spec_low by lia. reflexivity.
  - intros i [[s last] sieved] Hi (-> & Hlast & HD & HR). destruct (bs_primes_get i ltac:(lia)) as (Ep & Hp & Ho & _). rewrite Ep, bind_Ok.
    rewrite (uwrap_small (last * bp i)) by nia.
    apply wp_bind. eapply (bs_fill_ok s N last last (Z.min (last * bp i) N) i low); [lia|lia|exact HR| |lia|lia| |lia|].
    { destruct HD as [HD|HD]; [left; exact HD|right]. split; [exact HD|]. split; [apply Z.divide_refl|].
      destruct (Z.min_spec (last * bp i) N) as [[_ ->]|[_ ->]]; [left; exists (bp i); ring|right; reflexivity]. }
    { apply Z.min_glb; [nia|lia]. }
    intros s1 R1. set (last1 := Z.min (last * bp i) N) in *.
    assert (H1 : 1 <= last1 <= N) by (unfold last1; split; [apply Z.min_glb; [nia|lia]|lia]).
    destruct (first_multiple (bp i) low Hp Ho Hl Hlb) as (q & sh & Eq & Esh & Hsh & Dsh). rewrite Eq, bind_Ok.
    cbv zeta in Esh. destruct (bs_masks_get i ltac:(lia)) as (m & Em & Hm & HM). rewrite Em, bind_Ok. rewrite Esh.
    apply wp_bind. eapply bs_remove_ok; [lia|exact R1|lia|lia|exact Hm|exact HM|exact Hsh|exact Dsh|].
    intros s2 sh2 R2. cbn [wp]. split; [reflexivity|]. split; [lia|]. split.
    + unfold last1. destruct (Z.min_spec (last * bp i) N) as [[L ->]|[_ ->]]; [right|left; reflexivity].
      intros t Ht. destruct (Z.eq_dec t i) as [->|]; [exists last; ring|]. destruct HD as [HD|HD]; [exfalso; nia|].
      apply Z.divide_mul_l. apply HD. lia.
    + eapply words_rep_ext; [exact R2|]. intros n Hn. cbv beta. replace (i + 1 - 1) with i by ring. now rewrite (np_snoc i) by lia.
  - intros [[s last] sieved] (-> & Hlast & HD & HR).
    assert (EM : np (Z.max 2 (c + 1) - 1) = np c \/ c <= 1) by (destruct (Z.le_gt_cases c 1); [now right|left; f_equal; lia]).
    apply wp_bind. eapply (bs_fill_ok s N last last N (Z.max 2 (c + 1)) low); [lia|lia|exact HR| |lia|lia|lia|lia|].
    { destruct HD as [HD|HD]; [left; exact HD|right]. split; [exact HD|]. split; [apply Z.divide_refl|right; reflexivity]. }
    intros s1 R1. cbn [wp]. apply HQ; [reflexivity|]. split; [exact Hsz|]. cbn [bs_words]. eapply words_rep_ext; [exact R1|].
    intros i Hi. cbv beta. rewrite <- np_rough; [|lia| |lia].
    + destruct EM as [E|E]; [now rewrite E|]. unfold np. now rewrite !zrange_empty by lia.
    + rewrite Z.odd_add_mul_2. exact Hl.
Qed.

(** *** In terms of the words *)
Lemma aget_nth (l : list Z) j : 0 <= j < zlen l -> aget l j = Ok (nth (Z.to_nat j) l 0).
Proof.
  intros Hj. unfold aget, zlen in *. destruct (Z.ltb_spec j 0); [lia|].
  rewrite (nth_error_nth' l 0) by lia. reflexivity.
Qed.
Lemma bs_rep_self bs : (forall w, In w (bs_words bs) -> 0 <= w < 2 ^ 64) -> 0 <= bs_size bs <= 128 * zlen (bs_words bs) ->
  bs_rep bs (zlen (bs_words bs)) (sieve_bit (bs_words bs)).
Proof.
  intros HI Hs. split; [exact Hs|]. split; [reflexivity|]. intros j Hj. eexists. split; [apply aget_nth; exact Hj|].
  split; [apply HI; apply nth_In; unfold zlen in Hj; lia|]. intros k Hk. unfold sieve_bit.
  replace ((64 * j + k) / 64) with j by (rewrite Z.mul_comm, Z.div_add_l, Z.div_small by lia; lia).
  replace ((64 * j + k) mod 64) with k by (rewrite Z.add_comm, Z.mul_comm, Z.mod_add, Z.mod_small by lia; reflexivity). reflexivity.
Qed.
Lemma bs_rep_bit bs N F i : bs_rep bs N F -> 0 <= i < 64 * N -> sieve_bit (bs_words bs) i = F i.
Proof.
  intros [_ [HL HW]] Hi. destruct (idx_split i N Hi) as (A & B & C). destruct (HW (i / 64) A) as (w & W1 & W2 & W3).
  rewrite aget_nth in W1 by lia. injection W1 as W1. unfold sieve_bit. rewrite W1. rewrite W3 by lia. now rewrite <- C.
Qed.
Theorem pre_sieve_spec bs c low :
  (forall w, In w (bs_words bs) -> 0 <= w < 2 ^ 64) -> 0 <= bs_size bs <= 128 * zlen (bs_words bs) -> zlen (bs_words bs) < 2 ^ 58 ->
  0 <= c < 10 -> Z.odd low = true -> 1 <= low < 2 ^ 63 ->
  wp (pre_sieve bs c low) (fun bs' => bs_size bs' = bs_size bs /\ zlen (bs_words bs') = zlen (bs_words bs) /\
    forall i, 0 <= i < 64 * zlen (bs_words bs') ->
      (sieve_bit (bs_words bs') i = true <-> forall p, prime p -> pi p <= c -> ~ (p | low + 2 * i))).
Proof.
  intros HI Hs HN Hc Hl Hb. eapply pre_sieve_ok; [apply bs_rep_self; assumption|lia|lia|exact Hl|lia|].
  intros bs' E R. split; [exact E|]. pose proof R as [_ [HL _]]. split; [exact HL|]. rewrite HL. intros i Hi.
  rewrite (bs_rep_bit _ _ _ i R) by lia. rewrite roughb_spec by lia. unfold rough. split; intros H p Pp Hp; [now apply H|].
  intros D. now apply (H p Pp Hp).
Qed.
(** at most 31 of 64 consecutive odd numbers are divisible by none of 3, 5 and 7 *)
Definition free357 (n : Z) : bool := negb (n mod 3 =? 0) && negb (n mod 5 =? 0) && negb (n mod 7 =? 0).
Lemma free357_mod n : free357 n = free357 (n mod 105).
Proof.
  assert (E : forall p q, 0 < p -> 105 = p * q -> 0 < q -> (n mod 105) mod p = n mod p).
  { intros p q Hp -> Hq. rewrite Z.rem_mul_r by lia. rewrite Z.mul_comm, Z.mod_add by lia. apply Z.mod_mod. lia. }
  unfold free357. now rewrite (E 3 35), (E 5 21), (E 7 15) by lia.
Qed.
Lemma free357_count n : sumr 0 64 (fun k => Z.b2z (free357 (n + 2 * k))) <= 31.
Proof.
  assert (C : forallb (fun r => sumr 0 64 (fun k => Z.b2z (free357 (r + 2 * k))) <=? 31) (zrange 0 105) = true) by (vm_compute; reflexivity).
  rewrite forallb_forall in C. specialize (C (n mod 105)). rewrite in_zrange, Z.leb_le in C. specialize (C (Z.mod_pos_bound n 105 ltac:(lia))).
  eapply Z.le_trans; [|exact C]. apply Z.eq_le_incl, sumr_ext. intros k _. f_equal.
  rewrite free357_mod, (free357_mod (n mod 105 + 2 * k)). f_equal. now rewrite Zplus_mod_idemp_l.
Qed.
Lemma words_fit_free357 F low N : 0 <= low -> low + 128 * N <= 2 ^ 59 -> (forall i, 0 <= i < 64 * N -> F i = true -> free357 (low + 2 * i) = true) -> words_fit F low N.
Proof.
  intros Hl Hb HF j Hj. unfold isum. apply Z.le_lt_trans with (sumr (64 * j) (64 * j + 64) (fun i => 2 ^ 59 * Z.b2z (free357 (low + 2 * i)))).
  - apply sumr_le. intros i Hi. destruct (F i) eqn:E; [|destruct (free357 _); cbn [Z.b2z]; lia]. rewrite HF by (auto; lia). cbn [Z.b2z]. lia.
  - rewrite sumr_scal. replace (64 * j) with (0 + 64 * j) at 1 by ring. replace (64 * j + 64) with (64 + 64 * j) by ring. rewrite sumr_shift.
    pose proof (free357_count (low + 128 * j)) as C.
    rewrite (sumr_ext 0 64 _ (fun k => Z.b2z (free357 (low + 128 * j + 2 * k)))) by (intros k _; f_equal; f_equal; ring). lia.
Qed.
(** numbers without a prime factor among the first 4 primes *)
Lemma rough_free357 a n : 4 <= a -> 1 <= n -> roughb a n = true -> free357 n = true.
Proof.
  intros Ha Hn R. apply roughb_spec in R; [|lia]. unfold free357.
  assert (Q : forall p, prime p -> pi p <= 4 -> negb (n mod p =? 0) = true).
  { intros p Pp Hp. apply negb_true_iff, Z.eqb_neq. intros E. apply (R p Pp); [lia|]. apply Z.mod_divide; [pose proof (prime_ge_2 p Pp); lia|exact E]. }
  rewrite !Q; [reflexivity| | | | | |]; try (now apply primeb_spec); vm_compute; discriminate.
Qed.
Lemma words_fit_rough F a low N : 1 <= low -> low + 128 * N <= 2 ^ 59 -> 4 <= a -> (forall i, 0 <= i < 64 * N -> F i = true -> roughb a (low + 2 * i) = true) -> words_fit F low N.
Proof. intros Hl Hb Ha HF. apply words_fit_free357; [lia|lia|]. intros i Hi Fi. apply (rough_free357 a); [lia|lia|now apply HF]. Qed.

Theorem bs_sum_exact bs low start stop :
  (forall w, In w (bs_words bs) -> 0 <= w < 2 ^ 64) -> 0 <= bs_size bs <= 128 * zlen (bs_words bs) ->
  0 <= low -> low + 128 * zlen (bs_words bs) <= 2 ^ 60 -> 0 <= start < 2 ^ 63 -> 0 <= stop < bs_size bs ->
  (forall j, 0 <= j < zlen (bs_words bs) -> marked_sum (sieve_bit (bs_words bs)) low (128 * j) (128 * j + 126) < 2 ^ 64) ->
  bs_sum bs low start stop = Ok (marked_sum (sieve_bit (bs_words bs)) low start stop).
Proof.
  intros HI Hs Hl Hb Ha Hz HF. rewrite (bs_sum_idx bs (zlen (bs_words bs)) (sieve_bit (bs_words bs))); try lia; [|now apply bs_rep_self|].
  - now rewrite marked_isum by lia.
  - intros j Hj. specialize (HF j Hj). rewrite marked_isum in HF by lia.
    replace (128 * j + 1) with (1 + 64 * j * 2) in HF by ring. replace (128 * j + 126) with (0 + (64 * j + 63) * 2) in HF by ring.
    rewrite !Z.div_add in HF by lia. change (1 / 2) with 0 in HF. change (0 / 2) with 0 in HF.
    replace (64 * j) with (0 + 64 * j) at 1 by ring. replace (64 * j + 64) with (0 + (64 * j + 63) + 1) by ring. exact HF.
Qed.
Theorem bs_sum_spec bs low start stop :
  (forall w, In w (bs_words bs) -> 0 <= w < 2 ^ 64) -> 0 <= bs_size bs <= 128 * zlen (bs_words bs) ->
  0 <= low -> low + 128 * zlen (bs_words bs) <= 2 ^ 58 -> 0 <= start < 2 ^ 63 -> 0 <= stop < bs_size bs ->
  bs_sum bs low start stop = Ok (marked_sum (sieve_bit (bs_words bs)) low start stop).
Proof.
  intros HI Hs Hl Hb Ha Hz. rewrite (bs_sum_idx bs (zlen (bs_words bs)) (sieve_bit (bs_words bs))); try lia; [|now apply bs_rep_self|now apply words_fit_small].
  now rewrite marked_isum by lia.
Qed.
(** after pre_sieve with c >= 4, and as long as bits are only cleared, one word cannot
    overflow below 2^59 *)
Theorem bs_sum_pre bs low start stop :
  (forall w, In w (bs_words bs) -> 0 <= w < 2 ^ 64) -> 0 <= bs_size bs <= 128 * zlen (bs_words bs) ->
  1 <= low -> low + 128 * zlen (bs_words bs) <= 2 ^ 59 -> 0 <= start < 2 ^ 63 -> 0 <= stop < bs_size bs ->
  (forall i, 0 <= i < 64 * zlen (bs_words bs) -> sieve_bit (bs_words bs) i = true -> forall p, prime p -> p <= 7 -> ~ (p | low + 2 * i)) ->
  bs_sum bs low start stop = Ok (marked_sum (sieve_bit (bs_words bs)) low start stop).
Proof.
  intros HI Hs Hl Hb Ha Hz HP. rewrite (bs_sum_idx bs (zlen (bs_words bs)) (sieve_bit (bs_words bs))); try lia; [|now apply bs_rep_self|].
  - now rewrite marked_isum by lia.
  - apply words_fit_free357; [lia|lia|]. intros i Hi Fi. specialize (HP i Hi Fi). unfold free357.
    assert (Q : forall p, prime p -> p <= 7 -> negb ((low + 2 * i) mod p =? 0) = true).
    { intros p Pp Hp. apply negb_true_iff, Z.eqb_neq. intros E. apply (HP p Pp Hp). apply Z.mod_divide; [pose proof (prime_ge_2 p Pp); lia|exact E]. }
    rewrite !Q; [reflexivity| | | | | |]; try (now apply primeb_spec); lia.
Qed.
Theorem bs_sum_wrong : exists bs low start stop,
  (bs <- bs_make 512 ;; pre_sieve bs 6 low) = Ok bs /\ low <= 2 ^ 61 /\ 0 <= start <= stop /\ stop < bs_size bs /\
  exists v, bs_sum bs low start stop = Ok v /\ v <> marked_sum (sieve_bit (bs_words bs)) low start stop.
Proof.
  destruct (bs <- bs_make 512 ;; pre_sieve bs 6 (2 ^ 60 + 1)) as [bs|] eqn:E; [|vm_compute in E; discriminate].
  exists bs, (2 ^ 60 + 1), 0, 510. split; [exact E|]. vm_compute in E. injection E as <-.
  split; [vm_compute; discriminate|]. split; [lia|]. split; [reflexivity|].
  eexists. split; [vm_compute; reflexivity|]. vm_compute. discriminate.
Qed.
