(** Bounds for the operations on doubles. *)
From Coq Require Import ZArith List Bool Lia Reals Psatz.
From Flocq Require Import Core.Core IEEE754.BinarySingleNaN.
From Verif.Base Require Import Res Word.
From Verif.Model Require Import Double.
Import ListNotations.
Open Scope Z_scope.

Definition dexp := SpecFloat.fexp 53 1024.
Definition rnd (r : R) : R := round radix2 dexp ZnearestE r.
(** a double that is not an infinity has this value *)
Definition rep (r : R) : Prop := generic_format radix2 dexp r /\ (Rabs r < bpow radix2 1024)%R.

Lemma dexp_FLT : dexp = FLT_exp (-1074) 53.
Proof. reflexivity. Qed.
#[global] Instance dexp_valid : Valid_exp dexp.
Proof. rewrite dexp_FLT. apply FLT_exp_valid. reflexivity. Qed.

Lemma rnd_between l u r : rep l -> rep u -> (l <= r <= u)%R -> (l <= rnd r <= u)%R /\ (Rabs (rnd r) < bpow radix2 1024)%R.
Proof.
  intros [L1 L2] [U1 U2] [H1 H2]. assert (A : (l <= rnd r)%R) by (apply round_ge_generic; [apply dexp_valid|apply valid_rnd_N|exact L1|exact H1]).
  assert (B : (rnd r <= u)%R) by (apply round_le_generic; [apply dexp_valid|apply valid_rnd_N|exact U1|exact H2]).
  split; [split; assumption|]. apply Rabs_lt. apply Rabs_lt_inv in L2. apply Rabs_lt_inv in U2. split; lra.
Qed.

Lemma rep_IZR n : Z.abs n <= 2 ^ 53 -> rep (IZR n).
Proof.
  intros H. split.
  - apply generic_format_FLT. destruct (Z.eq_dec (Z.abs n) (2 ^ 53)) as [E|E].
    + exists (Float radix2 (Z.sgn n) 53).
      * unfold F2R. cbn [Fnum Fexp]. rewrite <- (IZR_Zpower radix2) by lia. rewrite <- mult_IZR. f_equal. change (radix2 ^ 53)%Z with (2 ^ 53). rewrite <- E. symmetry. rewrite Z.mul_comm. apply Z.abs_sgn.
      * cbn [Fnum]. change (radix2 ^ 53)%Z with (2 ^ 53). lia.
      * cbn [Fexp]. discriminate.
    + exists (Float radix2 n 0).
      * unfold F2R. cbn [Fnum Fexp bpow]. now rewrite Rmult_1_r.
      * cbn [Fnum]. change (radix2 ^ 53)%Z with (2 ^ 53). lia.
      * cbn [Fexp]. discriminate.
  - rewrite <- abs_IZR, <- (IZR_Zpower radix2) by lia. apply IZR_lt. apply Z.le_lt_trans with (2 ^ 53); [exact H|]. now apply Z.pow_lt_mono_r.
Qed.
Lemma rep_pow2 k : 0 <= k < 1024 -> rep (IZR (2 ^ k)).
Proof.
  intros H. change 2 with (radix_val radix2) at 1. rewrite IZR_Zpower by lia. split.
  - apply generic_format_FLT_bpow; [reflexivity|unfold SpecFloat.emin; lia].
  - rewrite Rabs_pos_eq by apply bpow_ge_0. now apply bpow_lt.
Qed.
Lemma rep_opp r : rep r -> rep (- r).
Proof. intros [A B]. split; [now apply generic_format_opp|]. now rewrite Rabs_Ropp. Qed.
Lemma rep_B2R (a : double) : rep (B2R a).
Proof. split; [apply generic_format_B2R|apply abs_B2R_lt_emax]. Qed.

(** [a] is finite and between l and u *)
Definition btw (l u : R) (a : double) : Prop := is_finite a = true /\ (l <= B2R a <= u)%R.

Lemma btw_rep l u a : btw l u a -> exists r, rep r /\ btw r r a /\ (l <= r <= u)%R.
Proof. intros [F B]. exists (B2R a). split; [apply rep_B2R|]. split; [split; [exact F|lra]|exact B]. Qed.

Lemma of_Z_btw n l u : rep l -> rep u -> (l <= IZR n <= u)%R -> btw l u (d_of_Z n).
Proof.
  intros L U H. pose proof (rnd_between l u (IZR n) L U H) as [B1 B2].
  pose proof (binary_normalize_correct 53 1024 d_prec d_emax mode_NE n 0 false) as C. cbv zeta in C.
  replace (F2R (Float radix2 n 0)) with (IZR n) in C by (unfold F2R; cbn [Fnum Fexp bpow]; lra).
  change (round radix2 (SpecFloat.fexp 53 1024) (round_mode mode_NE) (IZR n)) with (rnd (IZR n)) in C.
  rewrite Rlt_bool_true in C by exact B2. destruct C as (C1 & C2 & _). unfold d_of_Z. split; [exact C2|]. rewrite C1. exact B1.
Qed.
Lemma of_Z_exact n : Z.abs n <= 2 ^ 53 -> is_finite (d_of_Z n) = true /\ B2R (d_of_Z n) = IZR n.
Proof.
  intros H. pose proof (rep_IZR n H) as R. destruct (of_Z_btw n (IZR n) (IZR n) R R) as [A B]; [lra|]. split; [exact A|lra].
Qed.

Lemma mul_btw a b l u : is_finite a = true -> is_finite b = true -> rep l -> rep u -> (l <= B2R a * B2R b <= u)%R -> btw l u (d_mul a b).
Proof.
  intros Fa Fb L U H. pose proof (rnd_between _ _ _ L U H) as [B1 B2].
  pose proof (Bmult_correct 53 1024 d_prec d_emax mode_NE a b) as C.
  change (round radix2 (SpecFloat.fexp 53 1024) (round_mode mode_NE) (B2R a * B2R b)) with (rnd (B2R a * B2R b)) in C.
  rewrite Rlt_bool_true in C by exact B2. destruct C as (C1 & C2 & _). split; [unfold d_mul; rewrite C2, Fa, Fb; reflexivity|]. unfold d_mul. rewrite C1. exact B1.
Qed.
Lemma div_btw a b l u : is_finite a = true -> B2R b <> 0%R -> rep l -> rep u -> (l <= B2R a / B2R b <= u)%R -> btw l u (d_div a b).
Proof.
  intros Fa Zb L U H. pose proof (rnd_between _ _ _ L U H) as [B1 B2].
  pose proof (Bdiv_correct 53 1024 d_prec d_emax mode_NE a b Zb) as C.
  change (round radix2 (SpecFloat.fexp 53 1024) (round_mode mode_NE) (B2R a / B2R b)) with (rnd (B2R a / B2R b)) in C.
  rewrite Rlt_bool_true in C by exact B2. destruct C as (C1 & C2 & _). split; [unfold d_div; rewrite C2; exact Fa|]. unfold d_div. rewrite C1. exact B1.
Qed.
Lemma add_btw a b l u : is_finite a = true -> is_finite b = true -> rep l -> rep u -> (l <= B2R a + B2R b <= u)%R -> btw l u (d_add a b).
Proof.
  intros Fa Fb L U H. pose proof (rnd_between _ _ _ L U H) as [B1 B2].
  pose proof (Bplus_correct 53 1024 d_prec d_emax mode_NE a b Fa Fb) as C.
  change (round radix2 (SpecFloat.fexp 53 1024) (round_mode mode_NE) (B2R a + B2R b)) with (rnd (B2R a + B2R b)) in C.
  rewrite Rlt_bool_true in C by exact B2. destruct C as (C1 & C2 & _). split; [exact C2|]. unfold d_add. rewrite C1. exact B1.
Qed.
Lemma sqrt_btw a l u : is_finite a = true -> (0 < B2R a)%R -> rep l -> rep u -> (l <= sqrt (B2R a) <= u)%R -> btw l u (d_sqrt a).
Proof.
  intros Fa Pa L U H. pose proof (rnd_between _ _ _ L U H) as [B1 B2].
  pose proof (Bsqrt_correct 53 1024 d_prec d_emax mode_NE a) as (C1 & C2 & _). split.
  - unfold d_sqrt. rewrite C2. destruct a as [s|s| |s m e He]; try reflexivity; try discriminate. destruct s; [|reflexivity].
    exfalso. cbn [B2R cond_Zopp] in Pa. pose proof (F2R_lt_0 radix2 (Float radix2 (Z.neg m) e) ltac:(reflexivity)). cbn in Pa, H0. lra.
  - unfold d_sqrt. rewrite C1. exact B1.
Qed.

Lemma lt_finite a b : is_finite a = true -> is_finite b = true -> d_lt a b = Rlt_bool (B2R a) (B2R b).
Proof. apply Bltb_correct. Qed.

(** conversion to an integer *)
Lemma trunc_ge r l : (IZR l <= r)%R -> l <= Ztrunc r.
Proof. intros H. rewrite <- (Ztrunc_IZR l). now apply Ztrunc_le. Qed.
Lemma trunc_le r u : (r <= IZR u)%R -> Ztrunc r <= u.
Proof. intros H. rewrite <- (Ztrunc_IZR u). now apply Ztrunc_le. Qed.
Lemma Btrunc_Ztrunc (a : double) : Btrunc a = Ztrunc (B2R a).
Proof.
  apply eq_IZR. rewrite (Btrunc_correct 53 1024 d_emax a). unfold round, F2R, scaled_mantissa, cexp, FIX_exp. cbn [Fnum Fexp bpow Z.opp]. now rewrite !Rmult_1_r.
Qed.
Lemma to_Z_ok n a l u : btw (IZR l) (IZR u) a -> smin n <= l -> u <= smax n -> exists v, d_to_Z n a = Ok v /\ l <= v <= u.
Proof.
  intros [F [B1 B2]] L U. unfold d_to_Z. rewrite F, Btrunc_Ztrunc. cbn [andb]. pose proof (trunc_ge _ _ B1). pose proof (trunc_le _ _ B2).
  exists (Ztrunc (B2R a)). split; [|lia]. unfold in_sb. destruct (Z.leb_spec (smin n) (Ztrunc (B2R a))), (Z.leb_spec (Ztrunc (B2R a)) (smax n)); try lia. reflexivity.
Qed.
