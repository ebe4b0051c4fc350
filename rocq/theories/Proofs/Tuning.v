(** y, the load balancer and smallest_hard_leaf_ computed from doubles. *)
From Coq Require Import ZArith List Bool Lia Reals Psatz.
From Flocq Require Import Core.Core IEEE754.BinarySingleNaN.
From Verif.Base Require Import Res Word Zl IType Par.
From Verif.Spec Require Import Primes TilingSpec.
From Verif.Model Require Import Double Imath S2LoadBalancer S2Hard Oracles LMO LMOParallel DelegliseRivat Tuning.
From Verif.Proofs Require Import S2LoadBalancer Double.
Import ListNotations.
Open Scope Z_scope.

Lemma rep_scaled n k : Z.abs n <= 2 ^ 53 -> 0 <= k <= 900 -> rep (IZR (n * 2 ^ k)).
Proof.
  intros H Hk. assert (E : IZR (n * 2 ^ k) = (IZR n * bpow radix2 k)%R) by (rewrite mult_IZR; f_equal; apply (IZR_Zpower radix2); lia).
  split.
  - pose proof (rep_IZR n H) as [G' _]. apply FLT_format_generic in G'; [|reflexivity]. destruct G' as [f E1 F1 F2]. apply generic_format_FLT.
    exists (Float radix2 (Fnum f) (Fexp f + k)); cbn [Fnum Fexp]; [|exact F1|lia].
    rewrite E, E1. unfold F2R. cbn [Fnum Fexp]. rewrite bpow_plus. ring.
  - rewrite E, Rabs_mult, (Rabs_pos_eq (bpow radix2 k)) by apply bpow_ge_0.
    apply Rle_lt_trans with (bpow radix2 53 * bpow radix2 900)%R; [|rewrite <- bpow_plus; apply bpow_lt; lia].
    apply Rmult_le_compat; [apply Rabs_pos|apply bpow_ge_0| |apply bpow_le; lia].
    rewrite <- abs_IZR, <- (IZR_Zpower radix2) by lia. apply IZR_le. exact H.
Qed.

(** ** Small doubles *)
Definition small (k : Z) (a : double) : Prop := is_finite a = true /\ (Rabs (B2R a) <= IZR (2 ^ k))%R.
Lemma pow2_pos k : 0 <= k -> (0 < IZR (2 ^ k))%R.
Proof. intros. apply IZR_lt. now apply Z.pow_pos_nonneg. Qed.
Lemma small_btw k a : btw (- IZR (2 ^ k)) (IZR (2 ^ k)) a -> small k a.
Proof. intros [F B]. split; [exact F|]. now apply Rabs_le. Qed.
Lemma small_mono j k a : 0 <= j <= k -> small j a -> small k a.
Proof. intros H [F B]. split; [exact F|]. apply Rle_trans with (1 := B). apply IZR_le. apply Z.pow_le_mono_r; lia. Qed.
Lemma small_mul j k a b : 0 <= j -> 0 <= k -> j + k < 1024 -> small j a -> small k b -> small (j + k) (d_mul a b).
Proof.
  intros Hj Hk H [Fa Ba] [Fb Bb]. apply small_btw. apply mul_btw; [exact Fa|exact Fb|apply rep_opp, rep_pow2; lia|apply rep_pow2; lia|].
  apply Rabs_le_inv. rewrite Rabs_mult, Z.pow_add_r, mult_IZR by lia. apply Rmult_le_compat; auto using Rabs_pos.
Qed.
Lemma small_add k a b : 0 <= k < 1023 -> small k a -> small k b -> small (k + 1) (d_add a b).
Proof.
  intros Hk [Fa Ba] [Fb Bb]. apply small_btw. apply add_btw; [exact Fa|exact Fb|apply rep_opp, rep_pow2; lia|apply rep_pow2; lia|].
  apply Rabs_le_inv. rewrite Z.pow_add_r, mult_IZR by lia. change (IZR (2 ^ 1)) with 2%R. pose proof (Rabs_triang (B2R a) (B2R b)). lra.
Qed.
Lemma small_lit num k : Z.abs num <= 2 ^ 20 -> 0 <= k <= 15 -> small 20 (d_lit num k).
Proof.
  intros Hn Hk. assert (P : 1 <= 10 ^ k <= 10 ^ 15). { split; [|apply Z.pow_le_mono_r; lia]. change 1 with (10 ^ 0). apply Z.pow_le_mono_r; lia. }
  assert (10 ^ 15 < 2 ^ 53) by reflexivity. assert (2 ^ 20 < 2 ^ 53) by reflexivity.
  destruct (of_Z_exact num) as [F1 E1]; [lia|]. destruct (of_Z_exact (10 ^ k)) as [F2 E2]; [lia|].
  assert (1 <= IZR (10 ^ k))%R by (apply IZR_le; lia).
  apply small_btw, div_btw; [exact F1|rewrite E2; lra|apply rep_opp, rep_pow2; lia|apply rep_pow2; lia|]. rewrite E1, E2.
  apply Rabs_le_inv. unfold Rdiv. rewrite Rabs_mult, Rabs_inv. rewrite (Rabs_pos_eq (IZR (10 ^ k))) by lra. rewrite <- abs_IZR.
  apply Rmult_le_reg_r with (IZR (10 ^ k)); [lra|]. rewrite Rmult_assoc, Rinv_l, Rmult_1_r by lra.
  assert (IZR (Z.abs num) <= IZR (2 ^ 20))%R by (apply IZR_le; lia). pose proof (pow2_pos 20 ltac:(lia)).
  assert (IZR (2 ^ 20) * 1 <= IZR (2 ^ 20) * IZR (10 ^ k))%R by (apply Rmult_le_compat_l; lra). lra.
Qed.

(** ** The tuning factor *)
(** what is assumed of the C library: log(x) and its powers are finite, and not huge *)
Definition libm_ok (m : libm) (x : Z) : Prop :=
  let l := m_log m (d_of_Z x) in small 100 l /\ small 100 (m_pow m l (d_of_Z 2)) /\ small 100 (m_pow m l (d_of_Z 3)).

Lemma small_nan k a : small k a -> is_nan a = false.
Proof. intros [F _]. now destruct a. Qed.

Lemma lt_inf_l a : is_nan a = false -> d_lt (d_inf false) a = false.
Proof. destruct a as [s|s| |s m e H]; try destruct s; try reflexivity; discriminate. Qed.
Lemma lt_inf_r a : is_finite a = true -> d_lt a (d_inf false) = true.
Proof. destruct a as [s|s| |s m e H]; try destruct s; try reflexivity; discriminate. Qed.
Lemma lt_ninf_l a : is_finite a = true -> d_lt (d_inf true) a = true.
Proof. destruct a as [s|s| |s m e H]; try destruct s; try reflexivity; discriminate. Qed.
Lemma lt_nan_l a : d_lt d_nan a = false.
Proof. now destruct a as [[]|[]| |[]]. Qed.
Lemma lt_nan_r a : d_lt a d_nan = false.
Proof. now destruct a as [[]|[]| |[]]. Qed.

Lemma class (a : double) : a = d_nan \/ a = d_inf false \/ a = d_inf true \/ is_finite a = true.
Proof. destruct a as [s|s| |s m e H]; auto. destruct s; auto. Qed.

Lemma between_ok a max : 1 <= max <= 2 ^ 53 -> is_nan a = false -> btw 1 (IZR max) (d_between 1 a max).
Proof.
  intros H N. destruct (of_Z_exact 1) as [F1 E1]; [cbn; lia|]. destruct (of_Z_exact max) as [F2 E2]; [lia|].
  assert (P : (1 <= IZR max)%R) by (apply IZR_le; lia). unfold d_between.
  destruct (class a) as [->|[->|[->|F]]]; [discriminate| | |].
  - rewrite lt_inf_l by (now destruct (d_of_Z 1)). rewrite lt_inf_r by exact F2. split; [exact F2|lra].
  - rewrite lt_ninf_l by exact F1. split; [exact F1|lra].
  - rewrite !lt_finite by assumption. rewrite E1, E2. destruct (Rlt_bool_spec (B2R a) 1); [split; [exact F1|lra]|].
    destruct (Rlt_bool_spec (IZR max) (B2R a)); [split; [exact F2|lra]|]. split; [exact F|lra].
Qed.

Lemma alpha_lmo_ok m user x r6 : libm_ok m x -> is_nan user = false -> 1 <= r6 <= 2 ^ 53 -> btw 1 (IZR r6) (get_alpha_lmo m user x r6).
Proof.
  intros (L1 & L2 & _) N H. unfold get_alpha_lmo. apply between_ok; [exact H|]. destruct (d_lt user (d_of_Z 1)); [|exact N].
  apply (small_nan 122). apply (small_add 121); [lia| |].
  - apply (small_add 120); [lia| |].
    + apply (small_mul 20 100); try lia; [apply small_lit; cbn; lia|exact L2].
    + apply (small_mul 20 100); try lia; [apply small_lit; cbn; lia|exact L1].
  - apply (small_mono 20); [lia|]. apply small_lit; cbn; lia.
Qed.
Lemma alpha_dr_ok m user x r6 : libm_ok m x -> is_nan user = false -> 1 <= r6 <= 2 ^ 53 -> btw 1 (IZR r6) (get_alpha_deleglise_rivat m user x r6).
Proof.
  intros (L1 & L2 & L3) N H. unfold get_alpha_deleglise_rivat. apply between_ok; [exact H|]. destruct (d_lt user (d_of_Z 1)); [|exact N].
  apply (small_nan 123). apply (small_add 122); [lia| |].
  - apply (small_add 121); [lia| |].
    + apply (small_add 120); [lia| |].
      * apply (small_mul 20 100); try lia; [apply small_lit; cbn; lia|exact L3].
      * apply (small_mul 20 100); try lia; [apply small_lit; cbn; lia|exact L2].
    + apply (small_mono 120); [lia|]. apply (small_mul 20 100); try lia; [apply small_lit; cbn; lia|exact L1].
  - apply (small_mono 20); [lia|]. apply small_lit; cbn; lia.
Qed.

Lemma tuned_y_ok r3 r6 a : 0 <= r3 -> 1 <= r6 -> r3 * r6 <= 2 ^ 53 -> btw 1 (IZR r6) a -> exists y, tuned_y r3 a = Ok y /\ r3 <= y <= r3 * r6.
Proof.
  intros H3 H6 H [F B]. assert (r3 <= r3 * r6) by nia. destruct (of_Z_exact r3) as [F3 E3]; [lia|].
  assert (2 ^ 53 <= smax 64) by (vm_compute; discriminate). assert (smin 64 <= 0) by (vm_compute; discriminate).
  apply to_Z_ok; [|lia|lia]. apply mul_btw; [exact F3|exact F|apply rep_IZR; lia|apply rep_IZR; lia|]. rewrite E3, mult_IZR.
  assert (0 <= IZR r3)%R by (apply IZR_le; lia). split; nra.
Qed.
(** with the value NaN the conversion is undefined *)
Lemma tuned_y_nan m x r3 r6 : tuned_y r3 (get_alpha_deleglise_rivat m d_nan x r6) = Fail UB /\ tuned_y r3 (get_alpha_lmo m d_nan x r6) = Fail UB.
Proof.
  unfold get_alpha_deleglise_rivat, get_alpha_lmo. rewrite lt_nan_l. unfold d_between. rewrite lt_nan_l, lt_nan_r. unfold tuned_y.
  assert (E : d_mul (d_of_Z r3) d_nan = d_nan) by (now destruct (d_of_Z r3)). now rewrite E.
Qed.

(** ** The load balancer *)
(** std::max(1.0, a): at least 1, whatever a is; NaN gives 1.0 *)
Lemma max1 a : d_max (d_of_Z 1) a = d_inf false \/ is_finite (d_max (d_of_Z 1) a) = true /\ (1 <= B2R (d_max (d_of_Z 1) a))%R.
Proof.
  destruct (of_Z_exact 1) as [F1 E1]; [cbn; lia|]. unfold d_max. destruct (class a) as [->|[->|[->|F]]].
  - rewrite lt_nan_r. right. rewrite E1. split; [exact F1|lra].
  - rewrite lt_inf_r by exact F1. now left.
  - right. replace (d_lt (d_of_Z 1) (d_inf true)) with false by (destruct (d_of_Z 1) as [[]|[]| |[]]; try reflexivity; discriminate). rewrite E1. split; [exact F1|lra].
  - right. rewrite lt_finite by assumption. rewrite E1. destruct (Rlt_bool_spec 1 (B2R a)); [split; [exact F|lra]|]. rewrite E1. split; [exact F1|lra].
Qed.

Lemma lbf_size_ok sqrtz divisor : 0 <= sqrtz <= 2 ^ 53 -> exists v, lbf_size sqrtz divisor = Ok v /\ 0 <= v <= sqrtz.
Proof.
  intros H. unfold lbf_size. destruct (of_Z_exact sqrtz) as [F E]; [lia|].
  assert (2 ^ 53 <= smax 64) by (vm_compute; discriminate). assert (smin 64 <= 0) by (vm_compute; discriminate).
  destruct (max1 divisor) as [->|[F1 B1]].
  - apply (to_Z_ok 64 _ 0 sqrtz); [|lia|lia]. assert (Z0 : is_finite (d_div (d_of_Z sqrtz) (d_inf false)) = true /\ B2R (d_div (d_of_Z sqrtz) (d_inf false)) = 0%R).
    { destruct (d_of_Z sqrtz) as [s|s| |s m e He]; try discriminate; split; reflexivity. }
    destruct Z0 as [Z1 Z2]. split; [exact Z1|]. rewrite Z2. split; [lra|]. apply IZR_le. lia.
  - apply to_Z_ok; [|lia|lia]. assert (P : (0 <= IZR sqrtz)%R) by (apply IZR_le; lia).
    apply div_btw; [exact F|lra|apply rep_IZR; cbn; lia|apply rep_IZR; lia|]. rewrite E. split.
    + apply Rmult_le_pos; [exact P|]. apply Rlt_le, Rinv_0_lt_compat. lra.
    + apply Rmult_le_reg_r with (B2R (d_max (d_of_Z 1) divisor)); [lra|]. unfold Rdiv. rewrite Rmult_assoc, Rinv_l, Rmult_1_r by lra.
      assert (IZR sqrtz * 1 <= IZR sqrtz * B2R (d_max (d_of_Z 1) divisor))%R by (apply Rmult_le_compat_l; lra). lra.
Qed.

Lemma half_ok : btw 0 2 (d_lit 5 1).
Proof.
  destruct (of_Z_exact 5) as [F1 E1]; [cbn; lia|]. destruct (of_Z_exact (10 ^ 1)) as [F2 E2]; [cbn; lia|].
  apply div_btw; [exact F1|rewrite E2; apply IZR_neq; discriminate|apply (rep_IZR 0); cbn; lia|apply (rep_IZR 2); cbn; lia|]. rewrite E1, E2. change (10 ^ 1) with 10. lra.
Qed.
Lemma between_lb_ok a : d_between_lb (d_lit 5 1) a 2 = d_nan \/ btw 0 2 (d_between_lb (d_lit 5 1) a 2).
Proof.
  destruct half_ok as [FH BH]. destruct (of_Z_exact 2) as [F2 E2]; [cbn; lia|]. unfold d_between_lb. destruct (class a) as [->|[->|[->|F]]].
  - left. now rewrite lt_nan_l, lt_nan_r.
  - right. rewrite lt_inf_l by (now destruct (d_lit 5 1)). rewrite lt_inf_r by exact F2. split; [exact F2|lra].
  - right. rewrite lt_ninf_l by exact FH. split; [exact FH|lra].
  - right. rewrite !lt_finite by assumption. rewrite E2. destruct (Rlt_bool_spec (B2R a) (B2R (d_lit 5 1))); [split; [exact FH|lra]|].
    destruct (Rlt_bool_spec 2 (B2R a)); [split; [exact F2|lra]|]. split; [exact F|lra].
Qed.
Lemma lbf_segments_ok pivot rsd s : 1 <= s <= 2 ^ 53 -> exists v, lbf_segments pivot rsd s = Ok v /\ 1 <= v <= 2 * s.
Proof.
  intros H. unfold lbf_segments. destruct (of_Z_exact s) as [F E]; [lia|]. destruct (of_Z_exact 1) as [F1 E1]; [cbn; lia|].
  assert (2 ^ 54 <= smax 64) by (vm_compute; discriminate). assert (smin 64 <= 1) by (vm_compute; discriminate).
  assert (P : (1 <= IZR s)%R) by (apply IZR_le; lia). apply to_Z_ok; [|lia|lia]. rewrite mult_IZR.
  destruct (between_lb_ok (d_div pivot rsd)) as [->|[FF FB]].
  - assert (E0 : d_mul (d_of_Z s) d_nan = d_nan) by (now destruct (d_of_Z s)). rewrite E0. unfold d_max. rewrite lt_nan_r. split; [exact F1|rewrite E1; lra].
  - set (f := d_between_lb (d_lit 5 1) (d_div pivot rsd) 2) in *.
    assert (M : btw 0 (IZR (s * 2 ^ 1)) (d_mul (d_of_Z s) f)).
    { apply mul_btw; [exact F|exact FF|apply (rep_IZR 0); cbn; lia|apply rep_scaled; lia|]. rewrite E, mult_IZR. change (IZR (2 ^ 1)) with 2%R. split; nra. }
    destruct M as [MF MB]. rewrite mult_IZR in MB. change (IZR (2 ^ 1)) with 2%R in MB. unfold d_max. rewrite lt_finite by assumption. rewrite E1.
    destruct (Rlt_bool_spec 1 (B2R (d_mul (d_of_Z s) f))); [split; [exact MF|lra]|]. split; [exact F1|rewrite E1; lra].
Qed.

(** whatever the C library answers and whatever was measured *)
Lemma lbf_obs_ok m y sqrtz threads timings r : 0 <= sqrtz <= 2 ^ 53 -> S2LoadBalancer.obs_ok sqrtz (lbf_obs m y sqrtz threads timings r).
Proof.
  intros H. unfold lbf_obs, lbf_step, S2LoadBalancer.obs_ok. cbn [snd ob_size ob_segments]. split.
  - destruct (lbf_size_ok sqrtz (m_log m (d_of_Z y)) H) as (v & -> & V). exact V.
  - intros s Hs. set (p := get_pivot _ _ _). set (rs := f_rsd _). destruct (lbf_segments_ok p rs s Hs) as (v & -> & V). exact V.
Qed.

(** ** smallest_hard_leaf_ *)
Lemma lbf_leaf_ok x y r3 r6 : 1 <= r3 -> 1 <= r6 -> r3 <= y <= r3 * r6 -> r3 * r6 <= 2 ^ 53 -> 0 <= x <= r3 * r6 * 2 ^ 60 ->
  exists v, lbf_leaf x y r3 r6 = Ok v /\ 0 <= v <= 2 ^ 60.
Proof.
  intros H3 H6 Hy H Hx. unfold lbf_leaf. assert (r6 <= r3 * r6) by nia.
  destruct (of_Z_exact y) as [Fy Ey]; [lia|]. destruct (of_Z_exact r3) as [F3 E3]; [lia|]. destruct (of_Z_exact r6) as [F6 E6]; [lia|].
  assert (P3 : (1 <= IZR r3)%R) by (apply IZR_le; lia). assert (P6 : (1 <= IZR r6)%R) by (apply IZR_le; lia).
  assert (Py : (IZR r3 <= IZR y <= IZR r3 * IZR r6)%R) by (rewrite <- mult_IZR; split; apply IZR_le; lia).
  assert (PB : (IZR r3 * IZR r6 <= IZR (2 ^ 53))%R) by (rewrite <- mult_IZR; apply IZR_le; lia).
  assert (PB6 : (IZR r6 <= IZR (2 ^ 53))%R) by (apply IZR_le; lia).
  assert (A : btw 1 (IZR r6) (get_alpha_xy y r3)).
  { unfold get_alpha_xy. apply div_btw; [exact Fy|rewrite E3; lra|apply (rep_IZR 1); cbn; lia|apply rep_IZR; lia|]. rewrite Ey, E3. split.
    - apply Rmult_le_reg_r with (IZR r3); [lra|]. unfold Rdiv. rewrite Rmult_assoc, Rinv_l by lra. lra.
    - apply Rmult_le_reg_r with (IZR r3); [lra|]. unfold Rdiv. rewrite Rmult_assoc, Rinv_l by lra. lra. }
  destruct A as [FA BA].
  assert (S : btw 1 (IZR r6) (d_sqrt (get_alpha_xy y r3))).
  { apply sqrt_btw; [exact FA|lra|apply (rep_IZR 1); cbn; lia|apply rep_IZR; lia|]. split.
    - rewrite <- sqrt_1. apply sqrt_le_1_alt. lra.
    - apply Rle_trans with (sqrt (IZR r6 * IZR r6)); [|rewrite sqrt_square; lra]. apply sqrt_le_1_alt. nra. }
  destruct S as [FS BS].
  assert (M : btw (IZR r3) (IZR (1 * 2 ^ 200)) (d_mul (d_of_Z y) (d_sqrt (get_alpha_xy y r3)))).
  { apply mul_btw; [exact Fy|exact FS|apply rep_IZR; lia|apply rep_scaled; cbn; lia|]. rewrite Ey. split; [nra|].
    apply Rle_trans with (IZR (2 ^ 53) * IZR (2 ^ 53))%R; [apply Rmult_le_compat; lra|]. rewrite <- mult_IZR. apply IZR_le. vm_compute; discriminate. }
  destruct M as [FM BM].
  assert (D : btw (IZR (r3 * r6)) (IZR (1 * 2 ^ 300)) (d_mul (d_mul (d_of_Z y) (d_sqrt (get_alpha_xy y r3))) (d_of_Z r6))).
  { apply mul_btw; [exact FM|exact F6|apply rep_IZR; lia|apply rep_scaled; cbn; lia|]. rewrite E6, mult_IZR. split; [nra|].
    apply Rle_trans with (IZR (1 * 2 ^ 200) * IZR (2 ^ 53))%R; [apply Rmult_le_compat; lra|]. rewrite <- mult_IZR. apply IZR_le. vm_compute; discriminate. }
  destruct D as [FD BD]. set (d := d_mul (d_mul (d_of_Z y) _) _) in *. rewrite mult_IZR in BD.
  assert (X : btw 0 (IZR (r3 * r6 * 2 ^ 60)) (d_of_Z x)).
  { apply of_Z_btw; [apply (rep_IZR 0); cbn; lia|apply rep_scaled; lia|]. split; apply IZR_le; lia. }
  destruct X as [FX BX]. rewrite !mult_IZR in BX.
  assert (2 ^ 60 <= smax 64) by (vm_compute; discriminate). assert (smin 64 <= 0) by (vm_compute; discriminate).
  apply to_Z_ok; [|lia|lia]. apply div_btw; [exact FX|nra|apply (rep_IZR 0); cbn; lia|apply rep_pow2; lia|]. split.
  - apply Rmult_le_pos; [lra|]. apply Rlt_le, Rinv_0_lt_compat. nra.
  - apply Rmult_le_reg_r with (B2R d); [nra|]. unfold Rdiv. rewrite Rmult_assoc, Rinv_l, Rmult_1_r by nra.
    apply Rle_trans with (1 := proj2 BX). rewrite (Rmult_comm (IZR (2 ^ 60))). apply Rmult_le_compat_r; [|lra]. apply (IZR_le 0). vm_compute; discriminate.
Qed.

Theorem lbf_plan_ok m x y z leaf threads timings limit : 0 <= z < 2 ^ 64 -> 1 <= limit <= 2 ^ 60 -> exists plan,
  (size <- lbf_first_size m x (Z.sqrt z) ;; min_size <- lb_min_size size ;;
   lb_plan (Z.sqrt z) leaf (lbf_obs m y (Z.sqrt z) threads timings) limit threads min_size) = Ok plan /\
  tiles 1 limit (concat (map snd plan)) /\ Forall (round_ok limit) plan.
Proof.
  intros Hz Hl. pose proof (Z.sqrt_nonneg z). assert (Z.sqrt z < 2 ^ 32) by (apply Z.sqrt_lt_square; lia). assert (2 ^ 32 < 2 ^ 53) by reflexivity.
  unfold lbf_first_size. cbv zeta. destruct (lbf_size_ok (Z.sqrt z) (d_mul (m_log m (m_log m (d_of_Z x))) (m_log m (d_of_Z x)))) as (v & -> & V); [lia|]. cbn [bind].
  pose proof (lb_plan_ok (Z.sqrt z) leaf (lbf_obs m y (Z.sqrt z) threads timings) limit threads v ltac:(lia) ltac:(intros r; apply lbf_obs_ok; lia) Hl V) as P.
  apply wp_inv in P. exact P.
Qed.
