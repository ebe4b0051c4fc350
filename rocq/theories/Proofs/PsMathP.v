(** The integer functions of lib/primesieve's pmath.hpp, and nextPrime. *)
From Coq Require Import ZArith List Lia Bool.
From Verif.Base Require Import Res Word Zl.
From Verif.Model Require Import PsTables PsMath PsErat.
From Verif.Spec Require Import PsSpec.
Import ListNotations.
Open Scope Z_scope.
Local Ltac Zify.zify_post_hook ::= idtac.

Lemma smear x y w : 0 < w -> (forall k, 0 <= k -> Z.testbit y k = true <-> exists d, 0 <= d < w /\ Z.testbit x (k + d) = true) ->
  forall k, 0 <= k -> Z.testbit (Z.lor y (Z.shiftr y w)) k = true <-> exists d, 0 <= d < 2 * w /\ Z.testbit x (k + d) = true.
Proof.
  intros Hw H k Hk. rewrite Z.lor_spec, Z.shiftr_spec, orb_true_iff, !H by lia. split.
  - intros [(d & Hd & E)|(d & Hd & E)]; [exists d; split; auto; lia|]. exists (w + d). split; [lia|]. now replace (k + (w + d)) with (k + w + d) by lia.
  - intros (d & Hd & E). destruct (Z.lt_ge_cases d w); [left; exists d; split; [lia|auto]|]. right. exists (d - w). split; [lia|]. now replace (k + w + (d - w)) with (k + d) by lia.
Qed.

Theorem floor_pow2_eq x : 0 < x < 2 ^ 64 -> floor_pow2 x = 2 ^ Z.log2 x.
Proof.
  intros Hx. unfold floor_pow2. cbn [fold_left].
  assert (H1 : forall k, 0 <= k -> Z.testbit x k = true <-> exists d, 0 <= d < 1 /\ Z.testbit x (k + d) = true).
  { intros k Hk. split; [intros E; exists 0; split; [lia|now rewrite Z.add_0_r]|]. intros (d & Hd & E). assert (d = 0) by lia. subst d. now rewrite Z.add_0_r in E. }
  pose proof (smear x _ 1 ltac:(lia) H1) as H2. change (2 * 1) with 2 in H2.
  pose proof (smear x _ 2 ltac:(lia) H2) as H4. change (2 * 2) with 4 in H4.
  pose proof (smear x _ 4 ltac:(lia) H4) as H8. change (2 * 4) with 8 in H8.
  pose proof (smear x _ 8 ltac:(lia) H8) as H16. change (2 * 8) with 16 in H16.
  pose proof (smear x _ 16 ltac:(lia) H16) as H32. change (2 * 16) with 32 in H32.
  pose proof (smear x _ 32 ltac:(lia) H32) as H64. change (2 * 32) with 64 in H64.
  clear H2 H4 H8 H16 H32. match type of H64 with forall k, _ -> Z.testbit ?y k = _ <-> _ => set (z := y) in * end. clearbody z.
  assert (L : 0 <= Z.log2 x < 64) by (split; [apply Z.log2_nonneg|apply Z.log2_lt_pow2; lia]).
  assert (E : z = Z.ones (Z.log2 x + 1)).
  { apply Z.bits_inj'. intros k Hk. rewrite Z.testbit_ones_nonneg by lia. apply eq_true_iff_eq. rewrite H64, Z.ltb_lt by auto. split.
    - intros (d & Hd & E). destruct (Z.le_gt_cases (k + d) (Z.log2 x)); [lia|]. rewrite Z.bits_above_log2 in E by lia. discriminate.
    - intros Hl. exists (Z.log2 x - k). split; [lia|]. replace (k + (Z.log2 x - k)) with (Z.log2 x) by lia. apply Z.bit_log2. lia. }
  rewrite E, Z.shiftr_div_pow2 by lia. rewrite Z.ones_div_pow2 by lia. rewrite !Z.ones_equiv. replace (Z.log2 x + 1 - 1) with (Z.log2 x) by lia.
  replace (Z.log2 x + 1) with (Z.succ (Z.log2 x)) by lia. rewrite Z.pow_succ_r by lia. lia.
Qed.

Lemma ilog2_step x l i (w : Z) : 0 < i -> 0 <= x < 2 ^ (2 * i) -> l + Z.log2 x = w ->
  let '(x', l') := (if Z.shiftl 1 i <=? x then (Z.shiftr x i, l + i) else (x, l)) in 0 <= x' < 2 ^ i /\ l' + Z.log2 x' = w.
Proof.
  intros Hi Hx <-. rewrite Z.shiftl_mul_pow2, Z.mul_1_l by lia. assert (0 < 2 ^ i) by (apply Z.pow_pos_nonneg; lia). destruct (Z.leb_spec (2 ^ i) x).
  - rewrite Z.log2_shiftr by lia. rewrite Z.shiftr_div_pow2 by lia.
    assert (i <= Z.log2 x) by (apply Z.log2_le_pow2; lia). split; [|lia]. split; [apply Z.div_pos; lia|].
    apply Z.div_lt_upper_bound; [lia|]. rewrite <- Z.pow_add_r by lia. now replace (i + i) with (2 * i) by lia.
  - split; lia.
Qed.
Theorem ilog2_eq x : 0 <= x < 2 ^ 64 -> ilog2 x = Z.log2 x.
Proof.
  intros Hx. unfold ilog2. cbn [fold_left].
  pose proof (ilog2_step x 0 32 (Z.log2 x) ltac:(lia) Hx ltac:(lia)) as H. destruct (if Z.shiftl 1 32 <=? x then _ else _) as [x1 l1]. destruct H as [B1 E1].
  pose proof (ilog2_step x1 l1 16 _ ltac:(lia) B1 E1) as H. destruct (if Z.shiftl 1 16 <=? x1 then _ else _) as [x2 l2]. destruct H as [B2 E2].
  pose proof (ilog2_step x2 l2 8 _ ltac:(lia) B2 E2) as H. destruct (if Z.shiftl 1 8 <=? x2 then _ else _) as [x3 l3]. destruct H as [B3 E3].
  pose proof (ilog2_step x3 l3 4 _ ltac:(lia) B3 E3) as H. destruct (if Z.shiftl 1 4 <=? x3 then _ else _) as [x4 l4]. destruct H as [B4 E4].
  pose proof (ilog2_step x4 l4 2 _ ltac:(lia) B4 E4) as H. destruct (if Z.shiftl 1 2 <=? x4 then _ else _) as [x5 l5]. destruct H as [B5 E5].
  pose proof (ilog2_step x5 l5 1 _ ltac:(lia) B5 E5) as H. destruct (if Z.shiftl 1 1 <=? x5 then _ else _) as [x6 l6]. destruct H as [B6 E6].
  cbn [snd]. change (2 ^ 1) with 2 in B6. assert (C : x6 = 0 \/ x6 = 1) by lia. destruct C as [-> | ->]; cbn [Z.log2] in E6; lia.
Qed.

Theorem ps_isqrt_eq r0 x : 0 <= r0 -> 0 <= x < 2 ^ 64 -> ps_isqrt r0 x = Ok (Z.sqrt x).
Proof.
  intros Hr Hx. apply wp_eq. unfold ps_isqrt. apply wp_bind.
  assert (SQ : forall r, 0 <= r <= 2 ^ 32 - 1 -> uwrap 64 (r * r) = r * r) by (intros r H; apply Z.mod_small; nia).
  apply (loop_rule _ (fun r => 0 <= r <= 2 ^ 32 - 1) (fun r => r)); [|lia|lia].
  intros r Hr'. rewrite SQ by auto. rewrite Z.gtb_ltb. destruct (Z.ltb_spec x (r * r)); cbn [wp].
  - assert (1 <= r) by nia. assert (E : uwrap 64 (r - 1) = r - 1) by (apply Z.mod_small; lia). rewrite E. lia.
  - apply (loop_rule _ (fun r => 0 <= r <= 2 ^ 32 - 1 /\ r * r <= x) (fun r => 2 ^ 32 - r)); [|lia|lia].
    clear r Hr' H. intros r (Hr' & H). rewrite SQ by auto.
    assert (E1 : uwrap 64 (x - r * r) = x - r * r) by (apply Z.mod_small; nia). assert (E2 : uwrap 64 (r * 2) = r * 2) by (apply Z.mod_small; lia).
    rewrite E1, E2, Z.gtb_ltb. destruct (Z.ltb_spec (r * 2) (x - r * r)); cbn [wp].
    + assert (E : uwrap 64 (r + 1) = r + 1) by (apply Z.mod_small; lia). rewrite E. assert ((r + 1) * (r + 1) <= x) by lia. assert (r + 1 <= 2 ^ 32 - 1) by nia. lia.
    + symmetry. apply Z.sqrt_unique. lia.
Qed.

(** *** nextPrime *)
(** the number of trailing zeros *)

Lemma lowest_split bits k : 0 <= bits -> lowest bits k -> exists t, bits = 2 ^ k * (2 * t + 1) /\ 0 <= t.
Proof.
  intros Hb (Hk & H1 & H2). exists (bits / 2 ^ (k + 1)). split; [|apply Z.div_pos; [lia|apply Z.pow_pos_nonneg; lia]].
  apply Z.bits_inj'. intros j Hj.
  assert (E : 2 ^ k * (2 * (bits / 2 ^ (k + 1)) + 1) = Z.lor (Z.shiftl (Z.shiftr bits (k + 1)) (k + 1)) (2 ^ k)).
  { rewrite Z.shiftl_mul_pow2, Z.shiftr_div_pow2 by lia.
    assert (L : Z.land (bits / 2 ^ (k + 1) * 2 ^ (k + 1)) (2 ^ k) = 0).
    { apply Z.bits_inj'. intros i Hi. rewrite Z.land_spec, Z.pow2_bits_eqb, Z.bits_0 by lia. destruct (Z.eqb_spec k i); [subst|now rewrite andb_false_r].
      rewrite Z.mul_pow2_bits_low by lia. reflexivity. }
    rewrite <- Z.lxor_lor, <- Z.add_nocarry_lxor by exact L. rewrite Z.pow_add_r by lia. change (2 ^ 1) with 2. ring. }
  rewrite E, Z.lor_spec, Z.pow2_bits_eqb by lia. destruct (Z.lt_trichotomy j k) as [J|[->|J]].
  - rewrite H2, Z.shiftl_spec_low by lia. destruct (Z.eqb_spec k j); [lia|reflexivity].
  - rewrite H1, Z.eqb_refl. now rewrite orb_true_r.
  - destruct (Z.eqb_spec k j); [lia|]. rewrite orb_false_r, Z.shiftl_spec_high, Z.shiftr_spec by lia. f_equal. lia.
Qed.

Definition bit_value (k : Z) : Z := 30 * (k / 8) + off (k mod 8).

Lemma bit_values_ok k : 0 <= k < 64 -> aget bit_values k = Ok (bit_value k).
Proof.
  assert (E : forallb (fun k => match aget bit_values k with Ok v => v =? bit_value k | _ => false end) (zrange 0 64) = true) by (vm_compute; reflexivity).
  rewrite forallb_forall in E. intros H. specialize (E k). rewrite in_zrange in E. specialize (E H).
  destruct (aget bit_values k) as [v|]; [|discriminate]. apply Z.eqb_eq in E. now subst.
Qed.
Lemma bruijn_ok k : 0 <= k < 64 ->
  aget bruijn_bit_values (Z.shiftr (uwrap 64 ((2 ^ (k + 1) - 1) * 0x3F08A4C6ACB9DBD)) 58) = Ok (bit_value k).
Proof.
  assert (E : forallb (fun k => match aget bruijn_bit_values (Z.shiftr (uwrap 64 ((2 ^ (k + 1) - 1) * 0x3F08A4C6ACB9DBD)) 58) with Ok v => v =? bit_value k | _ => false end) (zrange 0 64) = true) by (vm_compute; reflexivity).
  rewrite forallb_forall in E. intros H. specialize (E k). rewrite in_zrange in E. specialize (E H).
  destruct (aget bruijn_bit_values _) as [v|]; [|discriminate]. apply Z.eqb_eq in E. now subst.
Qed.

Theorem next_prime_ctz_eq ctz bits low k : lowest bits k -> ctz bits = k -> k < 64 ->
  next_prime_ctz ctz bits low = Ok (uwrap 64 (low + bit_value k)).
Proof. intros (Hk & _) E H. unfold next_prime_ctz. rewrite E, bit_values_ok by lia. reflexivity. Qed.

Lemma lxor_pred k t : 0 <= k -> 0 <= t -> Z.lxor (2 ^ k * (2 * t + 1)) (2 ^ k * (2 * t + 1) - 1) = 2 ^ (k + 1) - 1.
Proof.
  intros Hk Ht. assert (P : 0 < 2 ^ k) by (apply Z.pow_pos_nonneg; lia).
  assert (P2 : 2 ^ (k + 1) = 2 * 2 ^ k) by (rewrite Z.pow_add_r by lia; change (2 ^ 1) with 2; ring).
  replace (2 ^ (k + 1) - 1) with (Z.ones (k + 1)) by (rewrite Z.ones_equiv; lia).
  apply Z.bits_inj'. intros j Hj. rewrite Z.lxor_spec, Z.testbit_ones_nonneg by lia.
  replace (2 ^ k * (2 * t + 1)) with (2 ^ k + t * 2 ^ (k + 1)) by (rewrite P2; ring).
  replace (2 ^ k + t * 2 ^ (k + 1) - 1) with ((2 ^ k - 1) + t * 2 ^ (k + 1)) by ring.
  destruct (Z.ltb_spec j (k + 1)).
  - rewrite <- (Z.mod_pow2_bits_low (2 ^ k + t * 2 ^ (k + 1)) (k + 1)) by lia. rewrite <- (Z.mod_pow2_bits_low ((2 ^ k - 1) + t * 2 ^ (k + 1)) (k + 1)) by lia.
    rewrite !Z.mod_add, !Z.mod_small by lia. rewrite Z.pow2_bits_eqb by lia.
    replace (2 ^ k - 1) with (Z.ones k) by (rewrite Z.ones_equiv; lia). rewrite Z.testbit_ones_nonneg by lia.
    destruct (Z.eqb_spec k j); destruct (Z.ltb_spec j k); try lia; reflexivity.
  - replace j with ((j - (k + 1)) + (k + 1)) by lia. rewrite <- !Z.div_pow2_bits by lia. rewrite !Z.div_add, !Z.div_small by lia. apply xorb_nilpotent.
Qed.

Theorem next_prime_bruijn_eq bits low k : 0 <= bits < 2 ^ 64 -> lowest bits k -> next_prime_bruijn bits low = Ok (uwrap 64 (low + bit_value k)).
Proof.
  intros Hb HL. pose proof HL as (Hk & H1 & _). destruct (lowest_split bits k ltac:(lia) HL) as (t & E & Ht).
  assert (P : 0 < 2 ^ k) by (apply Z.pow_pos_nonneg; lia).
  assert (K : k < 64). { destruct (Z.lt_ge_cases k 64); auto. exfalso. assert (2 ^ 64 <= 2 ^ k) by (apply Z.pow_le_mono_r; lia). nia. }
  unfold next_prime_bruijn. assert (B1 : 1 <= bits) by nia. assert (EW : uwrap 64 (bits - 1) = bits - 1) by (apply Z.mod_small; lia). rewrite EW.
  rewrite E at 1. rewrite E at 1. rewrite lxor_pred by auto. rewrite bruijn_ok by lia. reflexivity.
Qed.
