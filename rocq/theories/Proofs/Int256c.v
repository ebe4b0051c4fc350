From Coq Require Import ZArith List Bool Ascii Lia.
From Verif.Base Require Import Res Word.
From Verif.Model Require Import Int256.
From Verif.Spec Require Import IntSpec.
From Verif.Proofs Require Import Int256 Int256b.
Import ListNotations.
Open Scope Z_scope.

Lemma uval_of_native x : 0 <= x < 2 ^ 128 -> uval (of_native x) = x.
Proof.
  intros H. unfold uval, of_native, uwrap; cbn [low high]. rewrite Z.mod_small by lia.
  destruct (Z.ltb_spec x 0); lia.
Qed.

Lemma ne256_zero x : wf256 x -> ne256 x (of_native 0) = negb (uval x =? 0).
Proof.
  intros H. unfold ne256. f_equal. apply eq_true_iff_eq.
  rewrite eq256_spec by (auto using of_native_wf). rewrite !Z.eqb_eq. split.
  - intros E. apply sval_inj in E; auto using of_native_wf. subst. apply uval_of_native. pow_norm; lia.
  - intros E. f_equal. apply uval_inj; auto using of_native_wf.

Qed.

(** find_most_significant_bit returns the bit length *)
Lemma find_msb_ok a : wf256 a ->
  wp (find_msb a) (fun p => 0 <= p /\ uval a < 2 ^ p /\ (p = 0 \/ 2 ^ (p - 1) <= uval a)).
Proof.
  intros Ha. pose proof (uval_range a Ha) as HA. unfold find_msb.
  apply (loop_rule _ (fun st => wf256 (fst st) /\ 0 <= snd st /\ uval (fst st) = uval a / 2 ^ (snd st) /\
                        (snd st = 0 \/ 2 ^ (snd st - 1) <= uval a))
                     (fun st => uval (fst st))).
  - intros [x pos] (Hx & Hp & E & Hl). cbn [fst snd] in *.
    rewrite ne256_zero by auto. pose proof (uval_range x Hx) as HX.
    destruct (Z.eqb_spec (uval x) 0) as [E0|E0]; simpl negb; cbv iota.
    + simpl. split; [lia|]. split; auto.
      rewrite E0 in E. symmetry in E. assert (0 < 2 ^ pos) by (apply Z.pow_pos_nonneg; lia).
      apply Z.div_small_iff in E; lia.
    + destruct (shr256_ok x 1 Hx ltac:(lia)) as (r & Er & Wr & Ur). rewrite Er. cbn [bind wp fst snd].
      assert (0 < 2 ^ pos) by (apply Z.pow_pos_nonneg; lia).
      change (2 ^ 1) with 2 in Ur.
      assert (uval r < uval x) by (rewrite Ur; apply Z.div_lt; lia).
      pose proof (uval_range r Wr).
      split; [|lia]. split; auto. split; [lia|]. split.
      * rewrite Ur, E, Z.div_div by lia. f_equal. rewrite Z.pow_add_r by lia. reflexivity.
      * right. replace (pos + 1 - 1) with pos by ring.
        assert (1 <= uval a / 2 ^ pos) by lia.
        pose proof (Z.mul_div_le (uval a) (2 ^ pos) ltac:(lia)). nia.
  - cbn [fst snd]. repeat split; try apply Ha; try lia; try now rewrite Z.div_1_r.
  - cbn [fst snd]. assert (2 ^ 256 < 2 ^ 400) by (pow_norm; lia). lia.
Qed.

Lemma get_bit_ok a i : wf256 a -> 0 <= i < 256 -> get_bit a i = Ok (Z.testbit (uval a) i).
Proof.
  intros Ha Hi. unfold get_bit.
  assert (L : forall v k, 0 <= k -> negb (Z.land (v / 2 ^ k) 1 =? 0) = Z.testbit v k).
  { intros v k Hk. rewrite Z.testbit_odd, Z.shiftr_div_pow2 by lia.
    change 1 with (Z.ones 1) at 1. rewrite Z.land_ones by lia. change (2 ^ 1) with 2.
    rewrite Zmod_odd. destruct (Z.odd (v / 2 ^ k)); reflexivity. }
  rewrite uval_testbit by (auto; lia).
  destruct (Z.geb_spec i 128), (Z.ltb_spec i 128); try lia.
  - rewrite ushr_ok by lia. cbn [bind]. now rewrite L by lia.
  - rewrite ushr_ok by lia. cbn [bind]. now rewrite L by lia.
Qed.

Lemma lor_pow2 x i : 0 <= i -> Z.testbit x i = false -> Z.lor x (2 ^ i) = x + 2 ^ i.
Proof.
  intros Hi Hb. assert (E : Z.land x (2 ^ i) = 0).
  { apply Z.bits_inj'. intros n Hn. rewrite Z.land_spec, Z.bits_0.
    destruct (Z.eq_dec n i) as [->|Hne]; [now rewrite Hb|].
    rewrite Z.pow2_bits_false by lia. apply andb_false_r. }
  rewrite Z.add_nocarry_lxor by auto. symmetry. now apply Z.lxor_lor.
Qed.

(** set_bit(i, true) on a clear bit adds 2^i *)
Lemma set_bit_true_ok q i : wf256 q -> 0 <= i < 256 -> Z.testbit (uval q) i = false ->
  exists q', set_bit q i true = Ok q' /\ wf256 q' /\ uval q' = uval q + 2 ^ i.
Proof.
  intros Hq Hi Hb. unfold set_bit. destruct (Z.geb_spec i 256); [lia|].
  rewrite uval_testbit in Hb by (auto; lia).
  pose proof Hq as [H1 H2].
  assert (HP : forall k, 0 <= k < 128 -> 0 < 2 ^ k < 2 ^ 128).
  { intros k Hk. split; [apply Z.pow_pos_nonneg; lia|apply Z.pow_lt_mono_r; lia]. }
  destruct (Z.geb_spec i 128), (Z.ltb_spec i 128); try lia.
  - rewrite ushl_ok by lia. cbn [bind].
    rewrite Z.mul_1_l, Z.mod_small by (specialize (HP (i - 128)); lia).
    eexists; split; [reflexivity|].
    pose proof (HP (i - 128) ltac:(lia)).
    pose proof (lor_bound (high q) (2 ^ (i - 128)) 128 ltac:(lia) H2 ltac:(lia)).
    split; [split; cbn [low high]; auto|].
    unfold uval; cbn [low high]. rewrite lor_pow2 by (auto; lia).
    replace (2 ^ i) with (2 ^ 128 * 2 ^ (i - 128)) by (rewrite <- Z.pow_add_r by lia; f_equal; lia). ring.
  - rewrite ushl_ok by lia. cbn [bind].
    rewrite Z.mul_1_l, Z.mod_small by (specialize (HP i); lia).
    eexists; split; [reflexivity|].
    pose proof (HP i ltac:(lia)).
    pose proof (lor_bound (low q) (2 ^ i) 128 ltac:(lia) H1 ltac:(lia)).
    split; [split; cbn [low high]; auto|].
    unfold uval; cbn [low high]. rewrite lor_pow2 by (auto; lia). ring.
Qed.

(** set_bit(0, b) on an even number adds b *)
Lemma set_bit0_ok q b : wf256 q -> Z.even (uval q) = true ->
  exists q', set_bit q 0 b = Ok q' /\ wf256 q' /\ uval q' = uval q + Z.b2z b.
Proof.
  intros Hq He. assert (Hb : Z.testbit (uval q) 0 = false).
  { rewrite Z.bit0_odd. rewrite <- Z.negb_even, He. reflexivity. }
  destruct b.
  - destruct (set_bit_true_ok q 0 Hq ltac:(lia) Hb) as (q' & E & W & U). exists q'. auto.
  - unfold set_bit. change (0 >=? 256) with false. change (0 >=? 128) with false. cbv iota.
    rewrite (ushl_ok 1 0) by lia. cbn [bind].
    eexists; split; [reflexivity|].
    rewrite uval_testbit in Hb by (auto; lia). change (0 <? 128) with true in Hb; cbv iota in Hb.
    assert (El : Z.land (low q) (2 ^ 128 - 1 - (1 * 2 ^ 0) mod 2 ^ 128) = low q).
    { destruct Hq as [H1 _]. change (1 * 2 ^ 0) with 1. rewrite Z.mod_small by (pow_norm; lia).
      apply Z.bits_inj'. intros n Hn. rewrite Z.land_spec.
      destruct (Z.eq_dec n 0) as [->|Hn0]; [now rewrite Hb|].
      destruct (Z.lt_ge_cases n 128).
      + replace (2 ^ 128 - 1 - 1) with (2 * Z.ones 127) by reflexivity.
        replace n with (Z.succ (n - 1)) at 2 by lia. rewrite Z.testbit_even_succ by lia.
        rewrite Z.ones_spec_low by lia. apply andb_true_r.
      + rewrite (bits_high (low q) 128) by lia. reflexivity. }
    rewrite El. destruct q as [lq hq]; cbn [low high] in *. split; [exact Hq|]. simpl Z.b2z. ring.
Qed.

Lemma bit_of_div A i : 0 <= i -> A / 2 ^ i = 2 * (A / 2 ^ (i + 1)) + Z.b2z (Z.testbit A i).
Proof.
  intros Hi. rewrite Z.testbit_spec' by lia.
  rewrite Z.pow_add_r by lia. change (2 ^ 1) with 2.
  rewrite <- Z.div_div by (try apply Z.pow_nonzero; lia).
  apply Z.div_mod. lia.
Qed.

Lemma testbit_mul_pow2_low q i : 0 <= i -> Z.testbit (q * 2 ^ (i + 1)) i = false.
Proof. intros. apply Z.mul_pow2_bits_low. lia. Qed.

(** Unsigned long division of non-negative by positive numbers *)
Lemma udiv256_ok a b : wf256 a -> wf256 b -> 0 <= sval a -> 0 < sval b ->
  wp (udiv256 a b) (fun qr => wf256 (fst qr) /\ wf256 (snd qr) /\
     sval (fst qr) = sval a / sval b /\ sval (snd qr) = sval a mod sval b).
Proof.
  intros Ha Hb Sa Sb.
  pose proof (sval_range a) as Ra. pose proof (sval_range b) as Rb.
  unfold in_s, smin, smax in Ra, Rb. change (256 - 1) with 255 in Ra, Rb.
  pose proof (sval_nonneg_uval a Ha Sa) as Ua. pose proof (sval_nonneg_uval b Hb ltac:(lia)) as Ub.
  assert (Wn : forall x, wf256 (of_native x)) by apply of_native_wf.
  assert (S0 : sval (of_native 0) = 0) by reflexivity.
  assert (S1 : sval (of_native 1) = 1) by reflexivity.
  assert (Wm : wf256 min_value) by (unfold wf256, min_value; cbn [low high]; pow_norm; lia).
  assert (Sm : sval min_value = - 2 ^ 255) by reflexivity.
  unfold udiv256. rewrite !eq256_spec by auto. rewrite S0, S1.
  destruct (Z.eqb_spec (sval b) 0); [lia|].
  destruct (Z.eqb_spec (sval b) 1) as [E1|N1].
  { simpl. rewrite S0, E1, Z.div_1_r, Z.mod_1_r. repeat split; try apply Ha; apply Wn. }
  destruct (Z.eqb_spec (sval a) (sval b)) as [E2|N2].
  { cbn [wp fst snd]. rewrite S0, S1, E2, Z.div_same, Z.mod_same by lia. repeat split; apply Wn. }
  rewrite ne256_spec, lt256_spec, Sm by auto.
  destruct (Z.eqb_spec (sval a) (- 2 ^ 255)) as [E3|N3]; [lia|]. simpl negb. rewrite andb_true_l.
  destruct (Z.eqb_spec (sval a) 0) as [E4|N4].
  { simpl orb. cbv iota. cbn [wp fst snd]. rewrite S0, E4, Z.div_0_l, Z.mod_0_l by lia. repeat split; try apply Ha; try apply Wn. }
  destruct (Z.ltb_spec (sval a) (sval b)) as [L5|G5].
  { simpl orb. cbv iota. cbn [wp fst snd]. rewrite S0, Z.div_small, Z.mod_small by lia. repeat split; try apply Ha; try apply Wn. }
  simpl orb. cbv iota.
  destruct ((high a =? 0) && (high b =? 0)) eqn:E6.
  { apply andb_true_iff in E6. rewrite !Z.eqb_eq in E6. destruct E6 as [E6 E7].
    assert (La : uval a = low a) by (unfold uval; rewrite E6; ring).
    assert (Lb : uval b = low b) by (unfold uval; rewrite E7; ring).
    rewrite Ua, Ub, La, Lb in *. destruct Ha as [Ha _].
    assert (Q : 0 <= low a / low b < 2 ^ 128).
    { split; [apply Z.div_pos; lia|]. apply Z.div_lt_upper_bound; [lia|]. nia. }
    pose proof (Z.mod_pos_bound (low a) (low b) ltac:(lia)) as M.
    assert (M2 : low a mod low b < 2 ^ 128) by (destruct Hb as [Hb _]; lia).
    assert (W : forall z, 0 <= z < 2 ^ 128 -> wf256 (mk256 z 0) /\ sval (mk256 z 0) = z).
    { intros z Hz. assert (Wz : wf256 (mk256 z 0)) by (unfold wf256; cbn [low high]; pow_norm; lia).
      split; auto. rewrite uval_small_sval; auto; unfold uval; cbn [low high]; pow_norm; lia. }
    cbn [wp fst snd].
    destruct (W _ Q). destruct (W (low a mod low b) ltac:(lia)). auto. }
  apply wp_bind. eapply wp_mono; [apply find_msb_ok; auto|]. cbv beta.
  intros m (Hm0 & Hm1 & Hm2).
  set (A := uval a) in *. set (D := uval b) in *.
  assert (Hm : m <= 255).
  { destruct Hm2 as [->|Hm2]; [lia|]. destruct (Z.le_gt_cases m 255); auto. exfalso.
    assert (2 ^ 255 <= 2 ^ (m - 1)) by (apply Z.pow_le_mono_r; lia). lia. }
  apply (loop_rule _ (fun st => -1 <= fst st <= m /\ wf256 (fst (snd st)) /\ wf256 (snd (snd st)) /\
            uval (fst (snd st)) = (A / 2 ^ (fst st + 1)) / D * 2 ^ (fst st + 1) /\
            uval (snd (snd st)) = (A / 2 ^ (fst st + 1)) mod D)
          (fun st => fst st + 1)).
  - intros [i [q r]] (Hi & Wq & Wr & Uq & Ur). cbn [fst snd] in *.
    destruct (Z.geb_spec i 0) as [Hi0|Hi0]; simpl andb.
    2:{ cbv iota. cbn [wp fst snd]. assert (i = -1) by lia. subst i.
        change (-1 + 1) with 0 in *. change (2 ^ 0) with 1 in *. rewrite Z.div_1_r in *.
        rewrite Z.mul_1_r in Uq. rewrite Ua, Ub.
        assert (Q : 0 <= A / D <= A). { split; [apply Z.div_pos; lia|]. apply Z.div_le_upper_bound; nia. }
        pose proof (Z.mod_pos_bound A D ltac:(lia)).
        repeat split; try apply Wq; try apply Wr; rewrite uval_small_sval; auto; lia. }
    destruct (Z.leb_spec i 256); [|lia]. cbv iota.
    apply wp_bind. unfold udiv_step.
    set (P := A / 2 ^ (i + 1)) in *.
    assert (HPi : 0 < 2 ^ i) by (apply Z.pow_pos_nonneg; lia).
    assert (HPi1 : 0 < 2 ^ (i + 1)) by (apply Z.pow_pos_nonneg; lia).
    assert (HP : 0 <= P) by (apply Z.div_pos; lia).
    pose proof (bit_of_div A i Hi0) as HB. fold P in HB.
    assert (HAi : 0 <= A / 2 ^ i <= A).
    { split; [apply Z.div_pos; lia|]. apply Z.div_le_upper_bound; nia. }
    set (bit := Z.testbit A i) in *.
    pose proof (Z.mod_pos_bound P D ltac:(lia)) as MP.
    pose proof (Z.div_mod P D ltac:(lia)) as DP.
    assert (QP : 0 <= P / D) by (apply Z.div_pos; lia).
    assert (Hbit : 0 <= Z.b2z bit <= 1) by (destruct bit; simpl; lia).
    assert (R2 : 2 * (P mod D) + Z.b2z bit <= A) by nia.
    destruct (shl256_ok r 1 Wr ltac:(lia)) as (r1 & Er1 & Wr1 & Ur1). rewrite Er1. cbn [bind].
    change (2 ^ 1) with 2 in Ur1. rewrite Ur in Ur1.
    rewrite Z.mod_small in Ur1 by (pow_norm; lia).
    rewrite get_bit_ok by (auto; lia). cbn [bind]. fold A. fold bit.
    destruct (set_bit0_ok r1 bit Wr1) as (r2 & Er2 & Wr2 & Ur2).
    { rewrite Ur1. rewrite Z.mul_comm. apply Z.even_mul. }
    rewrite Er2. cbn [bind]. rewrite Ur1 in Ur2.
    assert (Sr2 : sval r2 = uval r2) by (apply uval_small_sval; auto; lia).
    rewrite ge256_spec, Sr2, Ub by auto.
    assert (Tq : Z.testbit (uval q) i = false) by (rewrite Uq; apply testbit_mul_pow2_low; auto).
    replace (i - 1 + 1) with i by ring.
    assert (E2i : 2 ^ (i + 1) = 2 * 2 ^ i) by (rewrite Z.pow_add_r by lia; change (2 ^ 1) with 2; ring).
    destruct (Z.geb_spec (uval r2) D) as [Hge|Hlt].
    + destruct (set_bit_true_ok q i Wq ltac:(lia) Tq) as (q' & Eq' & Wq' & Uq').
      rewrite Eq'. cbn [bind wp fst snd].
      replace (i - 1 + 1) with i by ring.
      split; [|lia]. split; [lia|]. split; auto. split; [apply sub256_wf|].
      assert (DM : A / 2 ^ i / D = 2 * (P / D) + 1 /\ (A / 2 ^ i) mod D = uval r2 - D).
      { split; symmetry.
        - apply Z.div_unique_pos with (r := uval r2 - D); nia.
        - apply Z.mod_unique_pos with (q := 2 * (P / D) + 1); nia. }
      destruct DM as [-> ->]. split.
      * rewrite Uq', Uq, E2i. ring.
      * rewrite sub256_uval by auto. apply Z.mod_small. fold D. pow_norm; lia.
    + cbn [wp fst snd bind].
      replace (i - 1 + 1) with i by ring.
      split; [|lia]. split; [lia|]. split; auto. split; auto.
      assert (DM : A / 2 ^ i / D = 2 * (P / D) /\ (A / 2 ^ i) mod D = uval r2).
      { split; symmetry.
        - apply Z.div_unique_pos with (r := uval r2); nia.
        - apply Z.mod_unique_pos with (q := 2 * (P / D)); nia. }
      destruct DM as [-> ->]. split; [rewrite Uq, E2i; ring|auto].
  - cbn [fst snd].
    assert (Z0 : A / 2 ^ (m + 1) = 0).
    { apply Z.div_small. split; [lia|]. assert (2 ^ m <= 2 ^ (m + 1)) by (apply Z.pow_le_mono_r; lia). lia. }
    rewrite Z0. rewrite Z.div_0_l, Z.mod_0_l by lia. split; [lia|]. split; [apply Wn|]. split; [apply Wn|].
    split; reflexivity.
  - cbn [fst snd]. assert (256 < 2 ^ 400) by (pow_norm; lia). lia.
Qed.

(** Signed division truncates toward zero. *)
Lemma div256_ok a b : wf256 a -> wf256 b -> sval b <> 0 ->
  sval a <> - 2 ^ 255 -> sval b <> - 2 ^ 255 ->
  wp (div256 a b) (fun qr => wf256 (fst qr) /\ wf256 (snd qr) /\
     sval (fst qr) = Z.quot (sval a) (sval b) /\ sval (snd qr) = Z.rem (sval a) (sval b)).
Proof.
  intros Ha Hb Nb Ma Mb.
  pose proof (sval_range a) as Ra. pose proof (sval_range b) as Rb.
  unfold in_s, smin, smax in Ra, Rb. change (256 - 1) with 255 in Ra, Rb.
  assert (NEG : forall x, wf256 x -> - 2 ^ 255 < sval x -> wf256 (neg256 x) /\ sval (neg256 x) = - sval x).
  { intros x Wx Sx. pose proof (sval_range x) as Rx. unfold in_s, smin, smax in Rx. change (256 - 1) with 255 in Rx.
    split; [now apply neg256_wf|]. rewrite neg256_sval by auto. apply swrap_id; [lia|].
    unfold in_s, smin, smax. change (256 - 1) with 255. lia. }
  destruct (NEG a Ha ltac:(lia)) as [Wna Sna]. destruct (NEG b Hb ltac:(lia)) as [Wnb Snb].
  assert (S0 : sval (of_native 0) = 0) by reflexivity.
  unfold div256. rewrite !lt256_spec by (auto using of_native_wf). rewrite S0.
  destruct (Z.ltb_spec (sval a) 0) as [La|La]; destruct (Z.ltb_spec (sval b) 0) as [Lb|Lb].
  - apply wp_bind. eapply wp_mono; [apply udiv256_ok; auto; lia|].
    intros [q r] (Wq & Wr & Sq & Sr). cbn [fst snd wp] in *.
    rewrite Sna, Snb in *.
    pose proof (Z.mod_pos_bound (- sval a) (- sval b) ltac:(lia)).
    destruct (NEG r Wr ltac:(lia)) as [Wnr Snr].
    repeat split; try apply Wq; try apply Wnr.
    + rewrite Sq. rewrite <- Z.quot_div_nonneg by lia. now rewrite Z.quot_opp_opp by lia.
    + rewrite Snr, Sr. rewrite <- Z.rem_mod_nonneg by lia. rewrite Z.rem_opp_opp by lia. ring.
  - apply wp_bind. eapply wp_mono; [apply udiv256_ok; auto; lia|].
    intros [q r] (Wq & Wr & Sq & Sr). cbn [fst snd wp] in *.
    rewrite Sna in *.
    pose proof (Z.mod_pos_bound (- sval a) (sval b) ltac:(lia)).
    assert (0 <= - sval a / sval b) by (apply Z.div_pos; lia).
    destruct (NEG r Wr ltac:(lia)) as [Wnr Snr]. destruct (NEG q Wq ltac:(lia)) as [Wnq Snq].
    repeat split; try apply Wnq; try apply Wnr.
    + rewrite Snq, Sq. rewrite <- Z.quot_div_nonneg by lia. rewrite Z.quot_opp_l by lia. ring.
    + rewrite Snr, Sr. rewrite <- Z.rem_mod_nonneg by lia. rewrite Z.rem_opp_l by lia. ring.
  - apply wp_bind. eapply wp_mono; [apply udiv256_ok; auto; lia|].
    intros [q r] (Wq & Wr & Sq & Sr). cbn [fst snd wp] in *.
    rewrite Snb in *.
    assert (0 <= sval a / - sval b) by (apply Z.div_pos; lia).
    destruct (NEG q Wq ltac:(lia)) as [Wnq Snq].
    repeat split; try apply Wnq; try apply Wr.
    + rewrite Snq, Sq. rewrite <- Z.quot_div_nonneg by lia. rewrite Z.quot_opp_r by lia. ring.
    + rewrite Sr. rewrite <- Z.rem_mod_nonneg by lia. rewrite Z.rem_opp_r by lia. ring.
  - eapply wp_mono; [apply udiv256_ok; auto; lia|].
    intros [q r] (Wq & Wr & Sq & Sr). cbn [fst snd wp] in *.
    repeat split; try apply Wq; try apply Wr.
    + rewrite Sq. now rewrite Z.quot_div_nonneg by lia.
    + rewrite Sr. now rewrite Z.rem_mod_nonneg by lia.
Qed.

Lemma quot256_ok a b : wf256 a -> wf256 b -> sval b <> 0 ->
  sval a <> - 2 ^ 255 -> sval b <> - 2 ^ 255 ->
  exists q, quot256 a b = Ok q /\ wf256 q /\ sval q = Z.quot (sval a) (sval b).
Proof.
  intros. destruct (wp_inv _ _ (div256_ok a b ltac:(auto) ltac:(auto) ltac:(auto) ltac:(auto) ltac:(auto)))
    as ([q r] & E & H'). unfold quot256. rewrite E. simpl in *. exists q. tauto.
Qed.
Lemma rem256_ok a b : wf256 a -> wf256 b -> sval b <> 0 ->
  sval a <> - 2 ^ 255 -> sval b <> - 2 ^ 255 ->
  exists r, rem256 a b = Ok r /\ wf256 r /\ sval r = Z.rem (sval a) (sval b).
Proof.
  intros. destruct (wp_inv _ _ (div256_ok a b ltac:(auto) ltac:(auto) ltac:(auto) ltac:(auto) ltac:(auto)))
    as ([q r] & E & H'). unfold rem256. rewrite E. simpl in *. exists r. tauto.
Qed.

Lemma div256_zero a b : wf256 a -> wf256 b -> sval b = 0 -> div256 a b = Fail Abort.
Proof.
  intros Ha Hb E0. assert (b = of_native 0) as ->.
  { apply sval_inj; auto using of_native_wf. }
  unfold div256. change (lt256 (of_native 0) (of_native 0)) with false. cbv iota.
  destruct (lt256 a (of_native 0)); reflexivity.
Qed.

(** Dividing the minimum reaches an out-of-range shift. *)
Lemma find_msb_min : find_msb min_value = Ok 256.
Proof. vm_compute. reflexivity. Qed.

Lemma udiv256_min b : wf256 b -> sval b <> 0 -> sval b <> 1 -> sval b <> - 2 ^ 255 ->
  udiv256 min_value b = Fail UB.
Proof.
  intros Hb N0 N1 Nm. unfold udiv256. rewrite !eq256_spec by (auto using of_native_wf; unfold wf256, min_value; cbn [low high]; pow_norm; lia).
  change (sval (of_native 0)) with 0. change (sval (of_native 1)) with 1. change (sval min_value) with (- 2 ^ 255).
  destruct (Z.eqb_spec (sval b) 0); [lia|]. destruct (Z.eqb_spec (sval b) 1); [lia|].
  destruct (Z.eqb_spec (- 2 ^ 255) (sval b)); [lia|].
  change (- 2 ^ 255 =? 0) with false. change (ne256 min_value min_value) with false. simpl orb. cbv iota.
  change (high min_value =? 0) with false. simpl andb. cbv iota.
  rewrite find_msb_min. cbn [bind]. apply loop_fail. simpl. reflexivity.
Qed.

(** ** Conversions *)
Lemma lxor_ones x n : 0 <= n -> 0 <= x < 2 ^ n -> Z.lxor x (2 ^ n - 1) = 2 ^ n - 1 - x.
Proof.
  intros Hn Hx. replace (2 ^ n - 1) with (Z.ones n) by (rewrite Z.ones_equiv; lia).
  rewrite Z.sub_nocarry_ldiff.
  - apply Z.bits_inj'. intros i Hi. rewrite Z.lxor_spec, Z.ldiff_spec.
    destruct (Z.lt_ge_cases i n).
    + rewrite Z.ones_spec_low by lia. destruct (Z.testbit x i); reflexivity.
    + rewrite Z.ones_spec_high by lia. rewrite (bits_high x n) by lia. reflexivity.
  - rewrite Z.ldiff_ones_r by lia. rewrite Z.shiftr_div_pow2 by lia. rewrite Z.div_small by lia. apply Z.shiftl_0_l.
Qed.

Lemma to_signed_ok n a : wf256 a -> 0 < n <= 128 -> in_s n (sval a) ->
  (32 <= n -> sval a <> smin n) -> to_signed n a = Ok (sval a).
Proof.
  intros Ha Hn Hs Hmin.
  assert (E2 : 2 ^ n = 2 * 2 ^ (n - 1)).
  { replace n with (Z.succ (n - 1)) at 1 by lia. rewrite Z.pow_succ_r by lia. reflexivity. }
  assert (HB : 2 ^ n <= 2 ^ 128) by (apply Z.pow_le_mono_r; lia).
  assert (HP : 0 < 2 ^ (n - 1)) by (apply Z.pow_pos_nonneg; lia).
  unfold to_signed. rewrite lt256_spec by (auto using of_native_wf). change (sval (of_native 0)) with 0.
  pose proof Ha as [H1 H2].
  pose proof Hs as Hs'. unfold in_s, smin, smax in Hs'.
  destruct (Z.ltb_spec (sval a) 0) as [L|G].
  - assert (El : sval a = low a - 2 ^ 128).
    { destruct (sval_cases a Ha) as [[? E]|[? E]]; rewrite E in *; unfold uval in *; pow_norm; lia. }
    assert (Em : Z.lxor (uwrap 128 (low a - 1)) (2 ^ 128 - 1) = - sval a).
    { unfold uwrap. rewrite Z.mod_small by lia. rewrite lxor_ones by lia. lia. }
    rewrite Em.
    destruct (Z.eq_dec (sval a) (smin n)) as [Emin|Nmin].
    + assert (n < 32) by (destruct (Z.lt_ge_cases n 32); auto; exfalso; apply Hmin; auto).
      assert (Esw : swrap n (- sval a) = sval a).
      { rewrite (swrap_congr n (- sval a) (sval a)).
        - apply swrap_id; auto. lia.
        - rewrite Emin. unfold smin. rewrite Z.opp_involutive.
          rewrite <- (Z.mod_add (- 2 ^ (n - 1)) 1) by lia. f_equal. lia. }
      rewrite Esw. rewrite schk_ok.
      * cbn [bind]. f_equal. rewrite (swrap_congr n (- sval a) (sval a)).
        -- apply swrap_id; auto. lia.
        -- rewrite Emin. unfold smin. rewrite Z.opp_involutive.
          rewrite <- (Z.mod_add (- 2 ^ (n - 1)) 1) by lia. f_equal. lia.
      * rewrite Z.max_r by lia. unfold in_s, smin, smax. change (32 - 1) with 31.
        assert (2 ^ (n - 1) < 2 ^ 31) by (apply Z.pow_lt_mono_r; lia). lia.
    + unfold smin in Nmin.
      rewrite (swrap_id n (- sval a)) by (try lia; unfold in_s, smin, smax; lia).
      rewrite Z.opp_involutive. rewrite schk_ok.
      * cbn [bind]. f_equal. apply swrap_id; auto. lia.
      * unfold in_s, smin, smax. assert (2 ^ (n - 1) <= 2 ^ (Z.max n 32 - 1)) by (apply Z.pow_le_mono_r; lia). lia.
  - f_equal. replace (low a) with (sval a); [apply swrap_id; auto; lia|].
    destruct (sval_cases a Ha) as [[? E]|[? E]]; rewrite E in *; unfold uval in *; pow_norm; lia.
Qed.

Lemma to_signed_min_ub n : n = 32 \/ n = 64 \/ n = 128 -> to_signed n (of_native (smin n)) = Fail UB.
Proof. intros [-> | [-> | ->]]; vm_compute; reflexivity. Qed.

Lemma to_unsigned_ok n a : wf256 a -> 0 < n <= 128 -> in_u n (sval a) -> to_unsigned n a = sval a.
Proof.
  intros Ha Hn Hu. unfold in_u, umax in Hu.
  assert (HB : 2 ^ n <= 2 ^ 128) by (apply Z.pow_le_mono_r; lia).
  assert (E : sval a = low a).
  { pose proof Ha as [H1 H2]. destruct (sval_cases a Ha) as [[? E]|[? E]]; rewrite E in *; unfold uval in *; pow_norm; lia. }
  unfold to_unsigned, uwrap. rewrite <- E. apply Z.mod_small. lia.
Qed.

(** ** Printing *)
Lemma digit_char_val d : 0 <= d <= 9 -> digit_val (digit_char d) = Some d.
Proof.
  intros H. assert (Hd : d = 0 \/ d = 1 \/ d = 2 \/ d = 3 \/ d = 4 \/ d = 5 \/ d = 6 \/ d = 7 \/ d = 8 \/ d = 9) by lia.
  repeat (destruct Hd as [->|Hd]; [reflexivity|]). subst; reflexivity.
Qed.
Lemma digit_char_nz d : 1 <= d <= 9 -> digit_char d <> "0"%char.
Proof.
  intros H. assert (Hd : d = 1 \/ d = 2 \/ d = 3 \/ d = 4 \/ d = 5 \/ d = 6 \/ d = 7 \/ d = 8 \/ d = 9) by lia.
  repeat (destruct Hd as [->|Hd]; [discriminate|]). subst; discriminate.
Qed.
Lemma digit_val_not_minus c : digit_val c <> None -> c <> "-"%char.
Proof. intros H ->. apply H. reflexivity. Qed.

(** Digit-loop invariant: [n] left, [str] digits of N produced. *)
Definition dig_inv (N n : Z) (str : list ascii) : Prop :=
  0 <= n /\
  (forall acc, read_digits acc (rev str) = Some (acc * 10 ^ Z.of_nat (length str) + (N - n * 10 ^ Z.of_nat (length str)))) /\
  (forall c, In c str -> digit_val c <> None) /\
  (n = 0 -> str <> [] -> exists c t, rev str = c :: t /\ c <> "0"%char) /\
  (str = [] -> n = N).

Lemma dig_inv_init N : 0 <= N -> dig_inv N N [].
Proof.
  intros H. unfold dig_inv. split; [lia|]. split.
  { intros acc. simpl. f_equal. ring. }
  split; [intros c []|]. split; [intros _ X; now elim X|auto].
Qed.

Lemma dig_inv_step N n str : 0 < n -> dig_inv N n str ->
  dig_inv N (n / 10) (str ++ [digit_char (n mod 10)]).
Proof.
  intros Hn (H1 & H2 & H3 & H4 & H5).
  pose proof (Z.mod_pos_bound n 10 ltac:(lia)) as M. pose proof (Z.div_mod n 10 ltac:(lia)) as D.
  unfold dig_inv. rewrite app_length, rev_app_distr. simpl length.
  replace (Z.of_nat (length str + 1)) with (Z.of_nat (length str) + 1) by lia.
  rewrite Z.pow_add_r by lia. change (10 ^ 1) with 10.
  split; [apply Z.div_pos; lia|]. split.
  { intros acc. cbn [rev app read_digits]. rewrite digit_char_val by lia. rewrite H2. f_equal.
    revert D. generalize (n / 10) (n mod 10) (10 ^ Z.of_nat (length str)). intros; subst n; ring. }
  split.
  { intros c Hc. apply in_app_iff in Hc. destruct Hc as [Hc|[<-|[]]]; auto.
    rewrite digit_char_val by lia. discriminate. }
  split.
  { intros E _. exists (digit_char (n mod 10)), (rev str). split; auto.
    apply digit_char_nz. lia. }
  intros E. destruct str; discriminate.
Qed.

Lemma dig_inv_final N str : dig_inv N 0 str ->
  decimal_of N (rev (match str with [] => ["0"%char] | _ => str end)).
Proof.
  intros (H1 & H2 & H3 & H4 & H5). destruct str as [|c0 t0].
  - simpl. rewrite <- (H5 eq_refl). split; [reflexivity|]. left; reflexivity.
  - destruct (H4 eq_refl ltac:(discriminate)) as (c & t & E & Hc).
    specialize (H2 0). rewrite E in *.
    assert (Hin : forall d, In d (c :: t) -> digit_val d <> None).
    { intros d Hd. apply H3. rewrite <- E in Hd. now apply in_rev in Hd. }
    split.
    + unfold read_dec. destruct (Ascii.eqb_spec c "-") as [->|Hne].
      * exfalso. exact (digit_val_not_minus "-" (Hin _ (or_introl eq_refl)) eq_refl).
      * rewrite H2. f_equal. lia.
    + right. exists c, t. repeat split; auto.
Qed.

Lemma decimal_neg N s : 0 < N -> decimal_of N s -> decimal_of (- N) ("-"%char :: s).
Proof.
  intros HN [H1 H2]. destruct H2 as [->|(c & t & Hs & Hd & Hc)].
  - simpl in H1. inversion H1. lia.
  - assert (Hcm : c <> "-"%char) by (apply digit_val_not_minus, Hd; left; auto).
    destruct Hs as [->| ->].
    + split.
      * unfold read_dec in *. destruct (Ascii.eqb_spec c "-"); [contradiction|].
        rewrite Ascii.eqb_refl. rewrite H1. reflexivity.
      * right. exists c, t. repeat split; auto.
    + exfalso. unfold read_dec in H1. rewrite Ascii.eqb_refl in H1.
      assert (P : forall s acc v, 0 <= acc -> read_digits acc s = Some v -> 0 <= v).
      { induction s; cbn [read_digits]; intros acc v Ha; [intros E; inversion E; lia|].
        destruct (digit_val a) eqn:Ed; [|discriminate]. apply IHs.
        unfold digit_val in Ed. destruct (Z.leb_spec 48 (Z.of_N (N_of_ascii a))); simpl in Ed; [|discriminate].
        destruct (Z.of_N (N_of_ascii a) <=? 57); inversion Ed. lia. }
      destruct (read_digits 0 (c :: t)) eqn:Ev; [|discriminate]. apply P in Ev; [|lia].
      simpl in H1. inversion H1. lia.
Qed.

Lemma digits256_ok n : wf256 n -> 0 <= sval n ->
  wp (digits256 n) (fun str => dig_inv (sval n) 0 str).
Proof.
  intros Hn Sn. unfold digits256.
  pose proof (sval_range n) as Rn. unfold in_s, smax in Rn. change (256 - 1) with 255 in Rn.
  apply (loop_rule _ (fun st => wf256 (fst st) /\ sval (fst st) <= sval n /\ dig_inv (sval n) (sval (fst st)) (snd st))
                     (fun st => sval (fst st))).
  - intros [x str] (Hx & Hle & Hd). cbn [fst snd] in *.
    rewrite gt256_spec by (auto using of_native_wf). change (sval (of_native 0)) with 0.
    assert (Hx0 : 0 <= sval x) by apply Hd.
    destruct (Z.gtb_spec (sval x) 0) as [G|L].
    + assert (S10 : sval (of_native 10) = 10) by reflexivity.
      assert (M10 : 10 <> - 2 ^ 255) by (pow_norm; lia).
      assert (Mx : sval x <> - 2 ^ 255) by (pow_norm; lia).
      destruct (rem256_ok x (of_native 10) Hx (of_native_wf 10) ltac:(rewrite S10; lia) Mx ltac:(rewrite S10; auto)) as (r & Er & Wr & Sr).
      destruct (quot256_ok x (of_native 10) Hx (of_native_wf 10) ltac:(rewrite S10; lia) Mx ltac:(rewrite S10; auto)) as (q & Eq & Wq & Sq).
      rewrite S10 in Sr, Sq. rewrite Z.rem_mod_nonneg in Sr by lia. rewrite Z.quot_div_nonneg in Sq by lia.
      pose proof (Z.mod_pos_bound (sval x) 10 ltac:(lia)) as M.
      rewrite Er. cbn [bind].
      rewrite (to_signed_ok 8 r Wr ltac:(lia)).
      * cbn [bind]. rewrite Eq. cbn [bind wp fst snd].
        assert (0 <= sval q) by (rewrite Sq; apply Z.div_pos; lia).
        assert (sval q < sval x) by (rewrite Sq; apply Z.div_lt; lia).
        split; [|lia]. split; auto. split; [lia|]. rewrite Sq, Sr. now apply dig_inv_step.
      * unfold in_s, smin, smax. change (8 - 1) with 7. pow_norm. lia.
      * lia.
    + cbn [wp]. assert (E : sval x = 0) by lia. now rewrite E in Hd.
  - cbn [fst snd]. split; auto. split; [lia|]. now apply dig_inv_init.
  - cbn [fst snd]. assert (2 ^ 255 < 2 ^ 400) by (pow_norm; lia). lia.
Qed.

Lemma print256_ok n : wf256 n -> sval n <> - 2 ^ 255 ->
  exists s, print256 n = Ok s /\ decimal_of (sval n) s.
Proof.
  intros Hn Nm. pose proof (sval_range n) as Rn. unfold in_s, smin, smax in Rn. change (256 - 1) with 255 in Rn.
  unfold print256. rewrite lt256_spec by (auto using of_native_wf). change (sval (of_native 0)) with 0.
  destruct (Z.ltb_spec (sval n) 0) as [L|G].
  - assert (Sn : sval (neg256 n) = - sval n).
    { rewrite neg256_sval by auto. apply swrap_id; [lia|]. unfold in_s, smin, smax. change (256 - 1) with 255. lia. }
    destruct (wp_inv _ _ (digits256_ok (neg256 n) (neg256_wf n Hn) ltac:(lia))) as (str & E & Hd).
    rewrite E. cbn [bind]. eexists; split; [reflexivity|]. simpl app.
    replace (sval n) with (- (- sval n)) by ring. apply decimal_neg; [lia|].
    rewrite Sn in Hd. now apply dig_inv_final.
  - destruct (wp_inv _ _ (digits256_ok n Hn ltac:(lia))) as (str & E & Hd).
    rewrite E. cbn [bind]. eexists; split; [reflexivity|]. simpl app. now apply dig_inv_final.
Qed.

Lemma print_u128_ok n : 0 <= n < 2 ^ 128 -> exists s, print_u128 n = Ok s /\ decimal_of n s.
Proof.
  intros Hn. unfold print_u128.
  match goal with |- context [loop ?f ?s] => assert (W : wp (loop f s) (fun str => dig_inv n 0 str)) end.
  { apply (loop_rule _ (fun st => fst st <= n /\ dig_inv n (fst st) (snd st)) (fun st => fst st)).
    - intros [x str] [Hle Hd]. cbn [fst snd] in *. assert (0 <= x) by apply Hd.
      destruct (Z.gtb_spec x 0) as [G|L].
      + cbn [wp fst snd]. assert (x / 10 < x) by (apply Z.div_lt; lia).
        assert (0 <= x / 10) by (apply Z.div_pos; lia).
        split; [|lia]. split; [lia|]. now apply dig_inv_step.
      + cbn [wp]. assert (E : x = 0) by lia. now rewrite E in Hd.
    - cbn [fst snd]. split; [lia|]. apply dig_inv_init. lia.
    - cbn [fst]. assert (2 ^ 128 < 2 ^ 400) by (pow_norm; lia). lia. }
  apply wp_inv in W. destruct W as (str & E & Hd). rewrite E. cbn [bind].
  eexists; split; [reflexivity|]. now apply dig_inv_final.
Qed.

Lemma print_s128_ok n : - 2 ^ 127 < n < 2 ^ 127 -> exists s, print_s128 n = Ok s /\ decimal_of n s.
Proof.
  intros Hn. unfold print_s128. destruct (Z.ltb_spec n 0).
  - rewrite schk_ok by (unfold in_s, smin, smax; change (128 - 1) with 127; lia). cbn [bind].
    unfold uwrap. rewrite Z.mod_small by (pow_norm; lia).
    destruct (print_u128_ok (- n)) as (s & E & D); [pow_norm; lia|]. rewrite E. cbn [bind].
    eexists; split; [reflexivity|]. replace n with (- - n) by ring. apply decimal_neg; auto. lia.
  - unfold uwrap. rewrite Z.mod_small by (pow_norm; lia). apply print_u128_ok. pow_norm; lia.
Qed.

(** ** Packaged statements used by Properties/Int256Props.v *)
Lemma of_Z256_wf z : wf256 (of_Z256 z).
Proof. unfold wf256, of_Z256; cbn [low high]. pow_norm. lia. Qed.
Lemma of_Z256_uval z : uval (of_Z256 z) = z mod 2 ^ 256.
Proof. unfold uval, of_Z256; cbn [low high]. pow_norm. lia. Qed.
Lemma of_Z256_sval z : sval (of_Z256 z) = swrap 256 z.
Proof.
  unfold sval. rewrite of_Z256_uval. apply swrap_congr. apply Z.mod_mod. pow_norm; lia.
Qed.

Lemma sval_repr_unique z : in_s 256 z ->
  exists a, (wf256 a /\ sval a = z) /\ forall b, wf256 b /\ sval b = z -> b = a.
Proof.
  intros H. exists (of_Z256 z). assert (sval (of_Z256 z) = z) by (rewrite of_Z256_sval; apply swrap_id; auto; lia).
  split; [split; auto using of_Z256_wf|]. intros b [Hb E]. apply sval_inj; auto using of_Z256_wf. congruence.
Qed.

Lemma mul256_wrong_family a b : wf256 a -> wf256 b ->
  - 2 ^ 128 <= sval a < - 2 ^ 128 + 2 ^ 64 -> 0 <= sval b < 2 ^ 64 -> sval b <> 1 ->
  sval (mul256 a b) <> sval a * sval b /\ in_s 256 (sval a * sval b).
Proof.
  intros Ha Hb Ba Sb N1. rewrite mul256_bad_value by auto. split.
  - intros E. assert (2 ^ 128 * (sval b - 1) = 0) by lia. pow_norm; nia.
  - unfold in_s, smin, smax. change (256 - 1) with 255. pow_norm. nia.
Qed.

Lemma mul256_wrong : exists a b, wf256 a /\ wf256 b /\ sval (mul256 a b) <> swrap 256 (sval a * sval b).
Proof.
  exists (of_Z256 (- 2 ^ 128 + 5)), (of_native 3).
  split; [apply of_Z256_wf|]. split; [apply of_native_wf|]. vm_compute. discriminate.
Qed.

Lemma mul256_partial a b : wf256 a -> wf256 b ->
  ~ (- 2 ^ 128 <= sval a < - 2 ^ 128 + 2 ^ 64) ->
  ~ (- 2 ^ 128 <= sval b < - 2 ^ 128 + 2 ^ 64) ->
  wf256 (mul256 a b) /\ sval (mul256 a b) = swrap 256 (sval a * sval b).
Proof.
  intros Ha Hb Na Nb. split; [now apply mul256_wf|]. apply mul256_sval; auto.
  intros [_ [?|?]]; [apply Na|apply Nb]; assumption.
Qed.

Lemma quot256_wrong : exists a b q, wf256 a /\ wf256 b /\ sval b <> 0 /\
  quot256 a b = Ok q /\ sval q <> Z.quot (sval a) (sval b).
Proof.
  exists (of_native 1), min_value.
  remember (quot256 (of_native 1) min_value) as r eqn:E. vm_compute in E. subst r.
  eexists. split; [apply of_native_wf|]. split; [unfold wf256, min_value; cbn [low high]; pow_norm; lia|].
  split; [vm_compute; discriminate|]. split; [reflexivity|]. vm_compute. discriminate.
Qed.

Lemma quot256_min_ub : exists a, wf256 a /\ sval a = - 2 ^ 255 /\
  forall b, wf256 b -> 1 < sval b -> quot256 a b = Fail UB.
Proof.
  exists min_value. split; [unfold wf256, min_value; cbn [low high]; pow_norm; lia|]. split; [reflexivity|].
  intros b Hb H1. unfold quot256, div256. change (lt256 min_value (of_native 0)) with true. cbv iota.
  rewrite lt256_spec by (auto using of_native_wf). change (sval (of_native 0)) with 0.
  destruct (Z.ltb_spec (sval b) 0); [lia|]. change (neg256 min_value) with min_value.
  rewrite udiv256_min by (auto; pow_norm; lia). reflexivity.
Qed.

Lemma div256_partial a b : wf256 a -> wf256 b ->
  sval a <> - 2 ^ 255 -> sval b <> - 2 ^ 255 -> sval b <> 0 ->
  exists q r, quot256 a b = Ok q /\ rem256 a b = Ok r /\ wf256 q /\ wf256 r /\
    trunc_div (sval a) (sval b) (sval q) (sval r).
Proof.
  intros Ha Hb Ma Mb Nb.
  destruct (quot256_ok a b Ha Hb Nb Ma Mb) as (q & Eq & Wq & Sq).
  destruct (rem256_ok a b Ha Hb Nb Ma Mb) as (r & Er & Wr & Sr).
  exists q, r. do 4 (split; auto). rewrite Sq, Sr. split; [apply Z.quot_rem; auto|]. split.
  - apply Z.rem_bound_abs. auto.
  - destruct (Z.eq_dec (Z.rem (sval a) (sval b)) 0); auto. right. apply Z.rem_sign_nz; auto.
Qed.

Lemma div256_by_zero a b : wf256 a -> wf256 b -> sval b = 0 ->
  quot256 a b = Fail Abort /\ rem256 a b = Fail Abort.
Proof. intros. unfold quot256, rem256. rewrite div256_zero by auto. split; reflexivity. Qed.

Lemma cmp256_spec a b : wf256 a -> wf256 b ->
  (eq256 a b = true <-> sval a = sval b) /\ (ne256 a b = true <-> sval a <> sval b) /\
  (lt256 a b = true <-> sval a < sval b) /\ (le256 a b = true <-> sval a <= sval b) /\
  (gt256 a b = true <-> sval a > sval b) /\ (ge256 a b = true <-> sval a >= sval b).
Proof.
  intros. rewrite eq256_spec, ne256_spec, lt256_spec, le256_spec, gt256_spec, ge256_spec by auto.
  rewrite negb_true_iff, Z.eqb_eq, Z.eqb_neq, Z.ltb_lt, Z.leb_le, Z.gtb_lt, Z.geb_le.
  repeat split; auto; lia.
Qed.

Lemma shr256_negative_wrong a k : wf256 a -> sval a < 0 -> 1 <= k < 256 ->
  exists r, shr256 a k = Ok r /\ 0 <= sval r /\ sval r <> sval a / 2 ^ k.
Proof.
  intros Ha Sa Hk. destruct (shr256_ok a k Ha Hk) as (r & E & W & U). exists r. split; auto.
  pose proof (uval_range a Ha).
  assert (2 ^ k >= 2) by (replace k with (1 + (k - 1)) by lia; rewrite Z.pow_add_r by lia;
     assert (0 < 2 ^ (k - 1)) by (apply Z.pow_pos_nonneg; lia); change (2 ^ 1) with 2; lia).
  assert (uval r < 2 ^ 255).
  { rewrite U. apply Z.div_lt_upper_bound; [lia|]. pow_norm. nia. }
  rewrite uval_small_sval by auto. pose proof (uval_range r W).
  assert (sval a / 2 ^ k < 0) by (apply Z.div_lt_upper_bound; lia). lia.
Qed.

Lemma shift256_zero_ub a : shl256 a 0 = Fail UB /\ shr256 a 0 = Fail UB.
Proof.
  split.
  - unfold shl256. change (0 >=? 128) with false. cbv iota.
    unfold ushl, ushr. simpl. reflexivity.
  - unfold shr256. change (0 >=? 128) with false. cbv iota.
    unfold ushl, ushr. simpl. reflexivity.
Qed.

Lemma bitwise256_sval a b : wf256 a -> wf256 b ->
  sval (and256 a b) = Z.land (sval a) (sval b) /\
  sval (or256 a b) = Z.lor (sval a) (sval b) /\
  sval (xor256 a b) = Z.lxor (sval a) (sval b) /\
  sval (not256 a) = Z.lnot (sval a).
Proof.
  intros. rewrite and256_sval, or256_sval, xor256_sval, not256_sval by auto.
  repeat split; try (unfold Z.lnot; lia).
Qed.

Lemma print256_min_wrong : exists n s, wf256 n /\ sval n = - 2 ^ 255 /\
  print256 n = Ok s /\ ~ decimal_of (sval n) s.
Proof.
  exists min_value, ["-"%char; "0"%char].
  split; [unfold wf256, min_value; cbn [low high]; pow_norm; lia|]. split; [reflexivity|].
  split; [vm_compute; reflexivity|]. intros [H _]. vm_compute in H. discriminate.
Qed.

Lemma print_u128_all n : in_u 128 n -> exists s, print_u128 n = Ok s /\ decimal_of n s.
Proof. intros [H1 H2]. apply print_u128_ok. unfold umax in H2. lia. Qed.

Lemma print_s128_all n : in_s 128 n -> n <> smin 128 -> exists s, print_s128 n = Ok s /\ decimal_of n s.
Proof.
  intros H N. unfold in_s, smin, smax in *. change (128 - 1) with 127 in *. apply print_s128_ok. lia.
Qed.
Lemma print_s128_min_ub : print_s128 (smin 128) = Fail UB.
Proof. vm_compute. reflexivity. Qed.

Lemma to_unsigned_all n a : In n [8; 16; 32; 64; 128] -> wf256 a -> in_u n (sval a) -> to_unsigned n a = sval a.
Proof. intros H Ha. apply to_unsigned_ok; auto. simpl in H. lia. Qed.
Lemma to_signed_all n a : In n [8; 16; 32; 64; 128] -> wf256 a -> in_s n (sval a) ->
  (32 <= n -> sval a <> smin n) -> to_signed n a = Ok (sval a).
Proof. intros H Ha. apply to_signed_ok; auto. simpl in H. lia. Qed.
Lemma to_signed_min_all n : In n [32; 64; 128] -> to_signed n (of_native (smin n)) = Fail UB.
Proof. intros H. apply to_signed_min_ub. simpl in H. lia. Qed.
