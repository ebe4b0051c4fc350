From Coq Require Import ZArith List Bool Ascii Lia.
From Verif.Base Require Import Res Word.
From Verif.Model Require Import Int256.
From Verif.Spec Require Import IntSpec.
Import ListNotations.
Open Scope Z_scope.

Ltac Zify.zify_post_hook ::= Z.to_euclidean_division_equations.

Ltac pow_norm :=
  repeat match goal with
  | |- context [2 ^ ?n] => let v := eval vm_compute in (2 ^ n) in change (2 ^ n) with v
  | H : context [2 ^ ?n] |- _ => let v := eval vm_compute in (2 ^ n) in change (2 ^ n) with v in H
  end.

Ltac bdestr :=
  repeat match goal with
  | |- context [?a <? ?b] => destruct (Z.ltb_spec a b)
  | |- context [?a >? ?b] => destruct (Z.gtb_spec a b)
  | |- context [?a =? ?b] => destruct (Z.eqb_spec a b)
  | |- context [?a <=? ?b] => destruct (Z.leb_spec a b)
  end.

Lemma uval_range a : wf256 a -> 0 <= uval a < 2 ^ 256.
Proof. intros [H1 H2]. unfold uval. pow_norm. lia. Qed.

Lemma uval_inj a b : wf256 a -> wf256 b -> uval a = uval b -> a = b.
Proof.
  destruct a as [la ha], b as [lb hb]. intros [H1 H2] [H3 H4]. unfold uval. cbn [low high] in *. pow_norm.
  intros E. assert (ha = hb) by (destruct (Z.lt_trichotomy ha hb) as [?|[?|?]]; lia).
  f_equal; lia.
Qed.

Lemma sval_range a : in_s 256 (sval a).
Proof. apply swrap_range. lia. Qed.

Lemma sval_cases a : wf256 a ->
  (high a < 2 ^ 127 /\ sval a = uval a) \/ (2 ^ 127 <= high a /\ sval a = uval a - 2 ^ 256).
Proof.
  intros Hw. pose proof (uval_range a Hw). destruct Hw as [H1 H2].
  unfold sval, swrap. rewrite Z.mod_small by lia. unfold uval in *. change (256 - 1) with 255. pow_norm.
  bdestr; lia.
Qed.

Lemma sval_inj a b : wf256 a -> wf256 b -> sval a = sval b -> a = b.
Proof.
  intros Ha Hb E. apply uval_inj; auto.
  pose proof (uval_range a Ha). pose proof (uval_range b Hb).
  destruct (sval_cases a Ha) as [[? Ea]|[? Ea]], (sval_cases b Hb) as [[? Eb]|[? Eb]]; lia.
Qed.

Lemma sval_uval_mod a : sval a mod 2 ^ 256 = uval a mod 2 ^ 256.
Proof. unfold sval. apply swrap_mod. lia. Qed.

Lemma of_native_wf x : wf256 (of_native x).
Proof. unfold of_native, wf256, uwrap; cbn [low high]. pow_norm. bdestr; lia. Qed.

Lemma of_native_sval x : - 2 ^ 127 <= x < 2 ^ 128 -> sval (of_native x) = x.
Proof.
  intros H. pose proof (of_native_wf x) as Hw.
  destruct (sval_cases _ Hw) as [[H1 ->]|[H1 ->]]; revert H1;
  unfold uval, of_native, uwrap; cbn [low high]; pow_norm; bdestr; lia.
Qed.

(** Everything below is derived from congruence of the unsigned reading. *)
Lemma sval_of_uval a z : uval a mod 2 ^ 256 = z mod 2 ^ 256 -> sval a = swrap 256 z.
Proof. unfold sval. apply swrap_congr. Qed.

Lemma add256_wf a b : wf256 (add256 a b).
Proof. unfold add256, wf256, uwrap; cbn [low high]. pow_norm. bdestr; lia. Qed.

Lemma add256_uval a b : wf256 a -> wf256 b -> uval (add256 a b) = (uval a + uval b) mod 2 ^ 256.
Proof.
  intros [Ha1 Ha2] [Hb1 Hb2]. unfold uval, add256, uwrap; cbn [low high]. pow_norm. bdestr; lia.
Qed.

Lemma sub256_wf a b : wf256 (sub256 a b).
Proof. unfold sub256, wf256, uwrap; cbn [low high]. pow_norm. bdestr; lia. Qed.

Lemma sub256_uval a b : wf256 a -> wf256 b -> uval (sub256 a b) = (uval a - uval b) mod 2 ^ 256.
Proof.
  intros [Ha1 Ha2] [Hb1 Hb2]. unfold uval, sub256, uwrap; cbn [low high]. pow_norm. bdestr; lia.
Qed.

Lemma not256_wf a : wf256 a -> wf256 (not256 a).
Proof. unfold wf256, not256; cbn [low high]. pow_norm. lia. Qed.
Lemma not256_uval a : wf256 a -> uval (not256 a) = (- uval a - 1) mod 2 ^ 256.
Proof. intros [H1 H2]. unfold uval, not256; cbn [low high]. pow_norm. lia. Qed.

Lemma inc256_wf a : wf256 a -> wf256 (inc256 a).
Proof. unfold wf256, inc256, uwrap; cbn [low high]. pow_norm. bdestr; lia. Qed.
Lemma inc256_uval a : wf256 a -> uval (inc256 a) = (uval a + 1) mod 2 ^ 256.
Proof. intros [H1 H2]. unfold uval, inc256, uwrap; cbn [low high]. pow_norm. bdestr; lia. Qed.

Lemma dec256_wf a : wf256 a -> wf256 (dec256 a).
Proof. unfold wf256, dec256, uwrap; cbn [low high]. pow_norm. bdestr; lia. Qed.
Lemma dec256_uval a : wf256 a -> uval (dec256 a) = (uval a - 1) mod 2 ^ 256.
Proof. intros [H1 H2]. unfold uval, dec256, uwrap; cbn [low high]. pow_norm. bdestr; lia. Qed.

Lemma neg256_wf a : wf256 a -> wf256 (neg256 a).
Proof. intros. unfold neg256. now apply inc256_wf, not256_wf. Qed.
Lemma neg256_uval a : wf256 a -> uval (neg256 a) = (- uval a) mod 2 ^ 256.
Proof.
  intros H. unfold neg256. rewrite inc256_uval by now apply not256_wf.
  rewrite not256_uval by auto. pow_norm. lia.
Qed.

Lemma sval_congr_uval a : exists k, sval a = uval a + k * 2 ^ 256.
Proof.
  pose proof (sval_uval_mod a) as H.
  exists (sval a / 2^256 - uval a / 2^256).
  pow_norm. lia.
Qed.

Lemma add256_sval a b : wf256 a -> wf256 b -> sval (add256 a b) = swrap 256 (sval a + sval b).
Proof.
  intros. apply sval_of_uval. rewrite add256_uval by auto.
  destruct (sval_congr_uval a) as [k ->], (sval_congr_uval b) as [k' ->]. pow_norm. lia.
Qed.
Lemma sub256_sval a b : wf256 a -> wf256 b -> sval (sub256 a b) = swrap 256 (sval a - sval b).
Proof.
  intros. apply sval_of_uval. rewrite sub256_uval by auto.
  destruct (sval_congr_uval a) as [k ->], (sval_congr_uval b) as [k' ->]. pow_norm. lia.
Qed.
Lemma neg256_sval a : wf256 a -> sval (neg256 a) = swrap 256 (- sval a).
Proof.
  intros. apply sval_of_uval. rewrite neg256_uval by auto.
  destruct (sval_congr_uval a) as [k ->]. pow_norm. lia.
Qed.
Lemma not256_sval a : wf256 a -> sval (not256 a) = - sval a - 1.
Proof.
  intros H. rewrite <- (swrap_id 256 (- sval a - 1)); [|lia|].
  - apply sval_of_uval. rewrite not256_uval by auto.
    destruct (sval_congr_uval a) as [k ->]. pow_norm. lia.
  - pose proof (sval_range a). unfold in_s, smin, smax in *. lia.
Qed.
Lemma inc256_sval a : wf256 a -> sval (inc256 a) = swrap 256 (sval a + 1).
Proof.
  intros. apply sval_of_uval. rewrite inc256_uval by auto.
  destruct (sval_congr_uval a) as [k ->]. pow_norm. lia.
Qed.
Lemma dec256_sval a : wf256 a -> sval (dec256 a) = swrap 256 (sval a - 1).
Proof.
  intros. apply sval_of_uval. rewrite dec256_uval by auto.
  destruct (sval_congr_uval a) as [k ->]. pow_norm. lia.
Qed.

(** ** Comparisons *)
Lemma eq256_spec a b : wf256 a -> wf256 b -> eq256 a b = (sval a =? sval b).
Proof.
  intros Ha Hb. apply eq_true_iff_eq. unfold eq256. rewrite andb_true_iff, !Z.eqb_eq. split.
  - destruct a, b; simpl; intros [-> ->]; reflexivity.
  - intros E. apply sval_inj in E; auto. now subst.
Qed.

Lemma lt256_spec a b : wf256 a -> wf256 b -> lt256 a b = (sval a <? sval b).
Proof.
  intros Ha Hb. destruct Ha as [Ha1 Ha2], Hb as [Hb1 Hb2].
  destruct (sval_cases a (conj Ha1 Ha2)) as [[HA ->]|[HA ->]];
  destruct (sval_cases b (conj Hb1 Hb2)) as [[HB ->]|[HB ->]];
  unfold lt256, swrap, uval; change (128 - 1) with 127; pow_norm;
  rewrite !Z.mod_small by lia; bdestr; simpl; try reflexivity; lia.
Qed.

Lemma ne256_spec a b : wf256 a -> wf256 b -> ne256 a b = negb (sval a =? sval b).
Proof. intros; unfold ne256; now rewrite eq256_spec. Qed.
Lemma le256_spec a b : wf256 a -> wf256 b -> le256 a b = (sval a <=? sval b).
Proof. intros; unfold le256. rewrite lt256_spec by auto. bdestr; simpl; auto; lia. Qed.
Lemma gt256_spec a b : wf256 a -> wf256 b -> gt256 a b = (sval a >? sval b).
Proof. intros; unfold gt256. rewrite lt256_spec by auto. bdestr; simpl; auto; lia. Qed.
Lemma ge256_spec a b : wf256 a -> wf256 b -> ge256 a b = (sval a >=? sval b).
Proof. intros; unfold ge256. rewrite lt256_spec by auto. rewrite Z.geb_leb. bdestr; simpl; auto; lia. Qed.

(** ** Multiplication *)
Lemma land_max64 x : Z.land x max64 = x mod 2 ^ 64.
Proof. unfold max64. change (2 ^ 64 - 1) with (Z.ones 64). apply Z.land_ones. lia. Qed.

Lemma mul_slow_wf a b : wf256 (mul_slow a b).
Proof. unfold mul_slow. apply add256_wf. Qed.

Lemma mod_small' a b : 0 <= a < b -> a mod b = a.
Proof. apply Z.mod_small. Qed.

Lemma split64 n : 0 <= n < 2 ^ 128 ->
  0 <= n mod 2^64 < 2^64 /\ 0 <= Z.shiftr n 64 < 2^64 /\ n = n mod 2^64 + 2^64 * Z.shiftr n 64.
Proof. intros H. rewrite Z.shiftr_div_pow2 by lia. pow_norm. lia. Qed.

Lemma shift_parts y : 0 <= y < 2 ^ 128 ->
  wf256 (mk256 (uwrap 128 (Z.shiftl y 64)) (Z.shiftr y 64)) /\
  uval (mk256 (uwrap 128 (Z.shiftl y 64)) (Z.shiftr y 64)) = y * 2 ^ 64.
Proof.
  intros H. unfold wf256, uval, uwrap. cbn [low high].
  rewrite Z.shiftl_mul_pow2, Z.shiftr_div_pow2 by lia. pow_norm. lia.
Qed.

Lemma prod64_range a b : 0 <= a < 2 ^ 64 -> 0 <= b < 2 ^ 64 -> 0 <= a * b < 2 ^ 128.
Proof.
  intros Ha Hb. replace (2 ^ 128) with (2 ^ 64 * 2 ^ 64) by reflexivity. nia.
Qed.

Lemma mul_slow_uval a b : wf256 a -> wf256 b ->
  uval (mul_slow a b) = (uval a * uval b) mod 2 ^ 256.
Proof.
  intros [Ha1 Ha2] [Hb1 Hb2]. unfold mul_slow. rewrite !land_max64.
  destruct (split64 _ Ha1) as (HA1 & HA2 & HA3).
  destruct (split64 _ Hb1) as (HB1 & HB2 & HB3).
  set (al := low a mod 2 ^ 64) in *. set (ah := Z.shiftr (low a) 64) in *.
  set (bl := low b mod 2 ^ 64) in *. set (bh := Z.shiftr (low b) 64) in *.
  pose proof (prod64_range al bl HA1 HB1) as P1.
  pose proof (prod64_range al bh HA1 HB2) as P2.
  pose proof (prod64_range ah bl HA2 HB1) as P3.
  pose proof (prod64_range ah bh HA2 HB2) as P4.
  assert (E1 : uwrap 128 (al * bl) = al * bl) by (apply mod_small'; auto).
  assert (E2 : uwrap 128 (al * bh) = al * bh) by (apply mod_small'; auto).
  assert (E3 : uwrap 128 (ah * bl) = ah * bl) by (apply mod_small'; auto).
  assert (E4 : uwrap 128 (ah * bh) = ah * bh) by (apply mod_small'; auto).
  rewrite E1, E2, E3, E4.
  destruct (shift_parts _ P2) as [W2 U2]. destruct (shift_parts _ P3) as [W3 U3].
  rewrite add256_uval; [|apply add256_wf|].
  2:{ unfold wf256, uwrap; cbn [low high]; pow_norm. lia. }
  rewrite add256_uval by auto. rewrite U2, U3.
  unfold uval. cbn [low high]. unfold uwrap.
  set (ha := high a) in *. set (hb := high b) in *.
  replace ((low a + 2 ^ 128 * ha) * (low b + 2 ^ 128 * hb)) with
    (al * bl + 2 ^ 64 * (al * bh) + 2^64 * (ah * bl) + 2^128 * (ah * bh)
      + 2^128 * (low a * hb) + 2^128 * (ha * low b) + (ha * hb) * 2 ^ 256).
  2:{ rewrite HA3, HB3. change (2^256) with (2^128*2^128). change (2^128) with (2^64*2^64). ring. }
  generalize (low a * hb) as t1, (ha * low b) as t2, (ha * hb) as t3.
  revert P1 P2 P3 P4.
  generalize (al * bl) as p1, (al * bh) as p2, (ah * bl) as p3, (ah * bh) as p4.
  clear. intros p1 p2 p3 p4 P1 P2 P3 P4 t1 t2 t3. rewrite Z.mod_add by discriminate.
  pow_norm. lia.
Qed.

(** The window of values on which the fast path misbehaves: negative numbers
    whose low word fits 64 bits. *)
Definition mul_bad (a : i256) : Prop := - 2 ^ 128 <= sval a < - 2 ^ 128 + 2 ^ 64.

Lemma mul_bad_iff a : wf256 a -> mul_bad a <-> (low a <= max64 /\ high a = 2 ^ 128 - 1).
Proof.
  intros Hw. pose proof Hw as [H1 H2]. unfold mul_bad, max64.
  destruct (sval_cases a Hw) as [[HA ->]|[HA ->]]; unfold uval; pow_norm; lia.
Qed.

Lemma all_ones_spec h : all_ones h = (h =? 2 ^ 128 - 1).
Proof. unfold all_ones. pow_norm. bdestr; auto; lia. Qed.

Lemma mul256_wf a b : wf256 a -> wf256 b -> wf256 (mul256 a b).
Proof.
  intros. unfold mul256. destruct (mul_fast_cond a b).
  - unfold mul_fast, wf256, uwrap; cbn [low high]. pow_norm. bdestr; lia.
  - apply mul_slow_wf.
Qed.

(** Unless both operands take the fast path and one of them is in the bad window,
    the product is right. *)
Lemma mul256_uval a b : wf256 a -> wf256 b ->
  ~ (mul_fast_cond a b = true /\ (mul_bad a \/ mul_bad b)) ->
  uval (mul256 a b) = (uval a * uval b) mod 2 ^ 256.
Proof.
  intros Ha Hb H. unfold mul256. destruct (mul_fast_cond a b) eqn:E; [|now apply mul_slow_uval].
  assert (Hna : ~ mul_bad a) by tauto. assert (Hnb : ~ mul_bad b) by tauto.
  rewrite mul_bad_iff in Hna, Hnb by auto.
  unfold mul_fast_cond in E. rewrite !all_ones_spec in E.
  rewrite !andb_true_iff, !orb_true_iff, !Z.leb_le, !Z.eqb_eq in E.
  destruct E as [[E1 E2] [E3 E4]].
  assert (Hha : high a = 0) by tauto. assert (Hhb : high b = 0) by tauto.
  unfold mul_fast, uval, uwrap. rewrite Hha, Hhb. cbn [low high].
  rewrite Z.eqb_refl, !Z.mul_0_r, !Z.add_0_r. destruct Ha as [Ha _], Hb as [Hb _].
  assert (0 <= low a * low b < 2 ^ 128) by (apply prod64_range; unfold max64 in *; lia).
  rewrite Z.mod_small by auto. rewrite Z.mod_small; auto. pow_norm. lia.
Qed.

Lemma mul256_sval a b : wf256 a -> wf256 b ->
  ~ (mul_fast_cond a b = true /\ (mul_bad a \/ mul_bad b)) ->
  sval (mul256 a b) = swrap 256 (sval a * sval b).
Proof.
  intros Ha Hb H. apply sval_of_uval. rewrite mul256_uval by auto.
  rewrite Z.mod_mod by (pow_norm; lia).
  rewrite (Z.mul_mod (sval a)), (Z.mul_mod (uval a)) by (pow_norm; lia).
  now rewrite !sval_uval_mod.
Qed.

Lemma mul_fast_cond_bad_l a b : wf256 a -> wf256 b -> mul_fast_cond a b = true ->
  (mul_bad a \/ 0 <= sval a < 2 ^ 64) /\ (mul_bad b \/ 0 <= sval b < 2 ^ 64).
Proof.
  intros Ha Hb E. rewrite !mul_bad_iff by auto.
  unfold mul_fast_cond in E. rewrite !all_ones_spec in E.
  rewrite !andb_true_iff, !orb_true_iff, !Z.leb_le, !Z.eqb_eq in E.
  destruct E as [[E1 E2] [E3 E4]]. unfold max64 in *. 
  pose proof Ha as [? ?]. pose proof Hb as [? ?].
  destruct (sval_cases a Ha) as [[HA ->]|[HA ->]]; destruct (sval_cases b Hb) as [[HB ->]|[HB ->]];
  unfold uval; pow_norm; lia.
Qed.

(** Exact description of the error: on the fast path the high word is
    0 or -1 instead of the true one. *)
Lemma mul256_bad_value a b : wf256 a -> wf256 b -> mul_bad a -> 0 <= sval b < 2 ^ 64 ->
  sval (mul256 a b) = - 2 ^ 128 + (sval a + 2 ^ 128) * sval b.
Proof.
  intros Ha Hb Hba Hsb.
  pose proof (proj1 (mul_bad_iff a Ha) Hba) as [H1 H2].
  pose proof Ha as [Ha1 Ha2]. pose proof Hb as [Hb1 Hb2].
  assert (Hhb : high b = 0 /\ low b = sval b).
  { destruct (sval_cases b Hb) as [[HB Eb]|[HB Eb]]; revert Hsb; rewrite Eb; unfold uval; pow_norm; lia. }
  destruct Hhb as [Hhb Elb].
  assert (Ea : sval a = low a - 2 ^ 128).
  { destruct (sval_cases a Ha) as [[HA Ea]|[HA Ea]]; rewrite Ea; unfold uval; rewrite H2 in *; pow_norm; lia. }
  assert (P : 0 <= low a * low b < 2 ^ 128).
  { apply prod64_range; unfold max64 in *; lia. }
  unfold mul256. replace (mul_fast_cond a b) with true.
  2:{ symmetry. unfold mul_fast_cond. rewrite !all_ones_spec.
      rewrite !andb_true_iff, !orb_true_iff, !Z.leb_le, !Z.eqb_eq. unfold max64 in *. lia. }
  unfold mul_fast. rewrite H2, Hhb.
  replace (2 ^ 128 - 1 =? 0) with false by reflexivity.
  rewrite Ea, <- Elb. replace (low a - 2 ^ 128 + 2 ^ 128) with (low a) by ring.
  set (r := mk256 (uwrap 128 (low a * low b)) (uwrap 128 (-1))).
  assert (Wr : wf256 r) by (unfold wf256, r, uwrap; cbn [low high]; pow_norm; lia).
  assert (Er : low r = low a * low b /\ high r = 2^128 - 1).
  { unfold r, uwrap; cbn [low high]. split; [apply Z.mod_small; auto | reflexivity]. }
  destruct Er as [Er1 Er2].
  destruct (sval_cases r Wr) as [[HA Er]|[HA Er]]; rewrite Er; unfold uval; rewrite Er1, Er2 in *; pow_norm; lia.
Qed.
