From Coq Require Import ZArith List Bool Ascii Lia.
From Verif.Base Require Import Res Word.
From Verif.Model Require Import Int256.
From Verif.Spec Require Import IntSpec.
From Verif.Proofs Require Import Int256.
Import ListNotations.
Open Scope Z_scope.

Lemma land_low_zero a b k : 0 <= k -> 0 <= b < 2 ^ k -> Z.land (a * 2 ^ k) b = 0.
Proof.
  intros Hk Hb. apply Z.bits_inj'. intros n Hn. rewrite Z.land_spec, Z.bits_0.
  destruct (Z.lt_ge_cases n k) as [H|H].
  - rewrite Z.mul_pow2_bits_low by lia. reflexivity.
  - rewrite <- (Z.mod_small b (2 ^ k)) by lia. rewrite Z.mod_pow2_bits_high by lia.
    apply andb_false_r.
Qed.

Lemma lor_add a b k : 0 <= k -> 0 <= b < 2 ^ k -> Z.lor (a * 2 ^ k) b = a * 2 ^ k + b.
Proof.
  intros Hk Hb. pose proof (land_low_zero a b k Hk Hb) as E.
  rewrite Z.add_nocarry_lxor by auto. symmetry. now apply Z.lxor_lor.
Qed.

Lemma lor_add' a b k : 0 <= k -> 0 <= b < 2 ^ k -> Z.lor b (a * 2 ^ k) = a * 2 ^ k + b.
Proof. intros. rewrite Z.lor_comm. now apply lor_add. Qed.

Lemma pow_split k : 0 <= k <= 128 -> 2 ^ 128 = 2 ^ k * 2 ^ (128 - k) /\ 0 < 2 ^ k /\ 0 < 2 ^ (128 - k).
Proof.
  intros H. rewrite <- Z.pow_add_r by lia. repeat split; try (apply Z.pow_pos_nonneg; lia).
  f_equal; lia.
Qed.

Lemma ushl_ok x k : 0 <= k < 128 -> ushl 128 x k = Ok ((x * 2 ^ k) mod 2 ^ 128).
Proof.
  intros H. unfold ushl. destruct (Z.leb_spec 0 k), (Z.ltb_spec k 128); try lia.
  simpl. unfold uwrap. now rewrite Z.shiftl_mul_pow2 by lia.
Qed.
Lemma ushr_ok x k : 0 <= k < 128 -> ushr 128 x k = Ok (x / 2 ^ k).
Proof.
  intros H. unfold ushr. destruct (Z.leb_spec 0 k), (Z.ltb_spec k 128); try lia.
  simpl. now rewrite Z.shiftr_div_pow2 by lia.
Qed.

Lemma shl_arith lo hi P R B : B = P * R -> 0 < P -> 0 < R -> 0 <= lo < B -> 0 <= hi < B ->
  0 <= (lo mod R) * P < B /\ 0 <= (hi mod R) * P + lo / R < B /\
  (lo mod R) * P + B * ((hi mod R) * P + lo / R) = ((lo + B * hi) * P) mod (B * B).
Proof.
  intros E HP HR Hl Hh.
  pose proof (Z.mod_pos_bound lo R HR) as M1. pose proof (Z.mod_pos_bound hi R HR) as M2.
  pose proof (Z.div_mod lo R ltac:(lia)) as D1. pose proof (Z.div_mod hi R ltac:(lia)) as D2.
  assert (Q : 0 <= lo / R < P).
  { split; [apply Z.div_pos; lia|]. apply Z.div_lt_upper_bound; [lia|]. nia. }
  remember (lo mod R) as rl. remember (hi mod R) as rh. remember (lo / R) as ql. remember (hi / R) as qh.
  assert (A1 : 0 <= rl * P < B) by (subst B; nia).
  assert (A2 : 0 <= rh * P + ql < B).
  { subst B. assert (rh * P <= (R - 1) * P) by nia. nia. }
  repeat split; try lia.
  apply Z.mod_unique_pos with (q := qh).
  - nia.
  - rewrite D1, D2, E. ring.
Qed.

Lemma shr_arith lo hi P R B : B = P * R -> 0 < P -> 0 < R -> 0 <= lo < B -> 0 <= hi < B ->
  0 <= (hi mod P) * R + lo / P < B /\ 0 <= hi / P < B /\
  (hi mod P) * R + lo / P + B * (hi / P) = (lo + B * hi) / P.
Proof.
  intros E HP HR Hl Hh.
  pose proof (Z.mod_pos_bound hi P HP) as M2.
  pose proof (Z.mod_pos_bound lo P HP) as M1.
  pose proof (Z.div_mod lo P ltac:(lia)) as D1. pose proof (Z.div_mod hi P ltac:(lia)) as D2.
  assert (Q : 0 <= lo / P < R).
  { split; [apply Z.div_pos; lia|]. apply Z.div_lt_upper_bound; [lia|]. nia. }
  assert (Qh : 0 <= hi / P < R).
  { split; [apply Z.div_pos; lia|]. apply Z.div_lt_upper_bound; [lia|]. nia. }
  remember (lo mod P) as rl. remember (hi mod P) as rh. remember (lo / P) as ql. remember (hi / P) as qh.
  assert (rh * R <= (P - 1) * R) by nia.
  repeat split; try nia.
Qed.

(** a << k, 1 <= k < 256 *)
Lemma shl256_ok a k : wf256 a -> 1 <= k < 256 ->
  exists r, shl256 a k = Ok r /\ wf256 r /\ uval r = (uval a * 2 ^ k) mod 2 ^ 256.
Proof.
  intros [H1 H2] Hk. unfold shl256. destruct (Z.geb_spec k 128).
  - rewrite ushl_ok by lia. cbn [bind]. eexists; split; [reflexivity|].
    split; [unfold wf256; cbn [low high]; pow_norm; lia|].
    unfold uval; cbn [low high].
    replace (2 ^ k) with (2 ^ 128 * 2 ^ (k - 128)) by (rewrite <- Z.pow_add_r by lia; f_equal; lia).
    change (2 ^ 256) with (2 ^ 128 * 2 ^ 128).
    generalize (2 ^ (k - 128)). intros P.
    replace ((low a + 2 ^ 128 * high a) * (2 ^ 128 * P)) with
      (2 ^ 128 * (low a * P) + high a * P * (2 ^ 128 * 2 ^ 128)) by ring.
    rewrite Z.mod_add by (pow_norm; lia). rewrite Z.mul_mod_distr_l by (pow_norm; lia). lia.
  - rewrite !ushl_ok, ushr_ok by lia. cbn [bind]. eexists; split; [reflexivity|].
    destruct (pow_split k ltac:(lia)) as (E & HP & HR).
    assert (Em : forall x, (x * 2 ^ k) mod 2 ^ 128 = (x mod 2 ^ (128 - k)) * 2 ^ k).
    { intros x. rewrite E. rewrite (Z.mul_comm (2 ^ k)). apply Z.mul_mod_distr_r; lia. }
    assert (Hd : 0 <= low a / 2 ^ (128 - k) < 2 ^ k).
    { split; [apply Z.div_pos; lia|]. apply Z.div_lt_upper_bound; lia. }
    unfold wf256, uval; cbn [low high]. rewrite !Em, lor_add by lia.
    destruct (shl_arith (low a) (high a) _ _ _ E HP HR H1 H2) as (A1 & A2 & A3).
    change (2 ^ 256) with (2 ^ 128 * 2 ^ 128). auto.
Qed.

(** a >> k, 1 <= k < 256 (logical shift) *)
Lemma shr256_ok a k : wf256 a -> 1 <= k < 256 ->
  exists r, shr256 a k = Ok r /\ wf256 r /\ uval r = uval a / 2 ^ k.
Proof.
  intros [H1 H2] Hk. unfold shr256. destruct (Z.geb_spec k 128).
  - rewrite ushr_ok by lia. cbn [bind]. eexists; split; [reflexivity|].
    assert (HP : 0 < 2 ^ (k - 128)) by (apply Z.pow_pos_nonneg; lia).
    assert (Hd : 0 <= high a / 2 ^ (k - 128) < 2 ^ 128).
    { split; [apply Z.div_pos; lia|]. apply Z.div_lt_upper_bound; nia. }
    split; [unfold wf256; cbn [low high]; split; [exact Hd|pow_norm; lia]|].
    unfold uval; cbn [low high].
    replace (2 ^ k) with (2 ^ 128 * 2 ^ (k - 128)) by (rewrite <- Z.pow_add_r by lia; f_equal; lia).
    rewrite <- Z.div_div by (pow_norm; lia).
    rewrite (Z.mul_comm (2 ^ 128) (high a)), Z.div_add by (pow_norm; lia).
    rewrite (Z.div_small (low a)) by lia. rewrite Z.mul_0_r. now rewrite Z.add_0_l, Z.add_0_r.
  - rewrite !ushl_ok, !ushr_ok by lia. cbn [bind]. eexists; split; [reflexivity|].
    destruct (pow_split k ltac:(lia)) as (E & HP & HR).
    assert (Em : forall x, (x * 2 ^ (128 - k)) mod 2 ^ 128 = (x mod 2 ^ k) * 2 ^ (128 - k)).
    { intros x. rewrite E. apply Z.mul_mod_distr_r; lia. }
    assert (Hd : 0 <= low a / 2 ^ k < 2 ^ (128 - k)).
    { split; [apply Z.div_pos; lia|]. apply Z.div_lt_upper_bound; lia. }
    unfold wf256, uval; cbn [low high]. rewrite !Em, lor_add' by lia.
    destruct (shr_arith (low a) (high a) _ _ _ E HP HR H1 H2) as (A1 & A2 & A3). auto.
Qed.

Lemma shl256_sval a k : wf256 a -> 1 <= k < 256 ->
  exists r, shl256 a k = Ok r /\ wf256 r /\ sval r = swrap 256 (sval a * 2 ^ k).
Proof.
  intros Ha Hk. destruct (shl256_ok a k Ha Hk) as (r & E & W & U).
  exists r; repeat split; auto; try apply W. apply sval_of_uval. rewrite U.
  rewrite Z.mod_mod by (pow_norm; lia).
  rewrite (Z.mul_mod (sval a)), (Z.mul_mod (uval a)) by (pow_norm; lia). now rewrite sval_uval_mod.
Qed.

Lemma sval_nonneg_uval a : wf256 a -> 0 <= sval a -> sval a = uval a.
Proof.
  intros Ha H. pose proof (uval_range a Ha). destruct (sval_cases a Ha) as [[? E]|[? E]]; lia.
Qed.
Lemma uval_small_sval a : wf256 a -> uval a < 2 ^ 255 -> sval a = uval a.
Proof.
  intros Ha H. pose proof (uval_range a Ha). destruct (sval_cases a Ha) as [[? E]|[H1 E]]; auto.
  exfalso. unfold uval in *. pow_norm. destruct Ha. lia.
Qed.

Lemma shr256_sval_nonneg a k : wf256 a -> 0 <= sval a -> 1 <= k < 256 ->
  exists r, shr256 a k = Ok r /\ wf256 r /\ sval r = sval a / 2 ^ k.
Proof.
  intros Ha H0 Hk. destruct (shr256_ok a k Ha Hk) as (r & E & W & U).
  exists r; repeat split; auto; try apply W.
  pose proof (sval_range a) as R. unfold in_s, smax in R. change (256 - 1) with 255 in R.
  rewrite (sval_nonneg_uval a Ha H0) in *. rewrite <- U.
  apply uval_small_sval; auto. rewrite U.
  assert (0 < 2 ^ k) by (apply Z.pow_pos_nonneg; lia).
  apply Z.div_lt_upper_bound; [lia|]. nia.
Qed.

(** ** Bitwise operations *)
Lemma uval_lor a : wf256 a -> uval a = Z.lor (high a * 2 ^ 128) (low a).
Proof. intros [H1 H2]. rewrite lor_add by lia. unfold uval. ring. Qed.

Lemma bits_bound x n : 0 <= n -> 0 <= x -> (forall i, n <= i -> Z.testbit x i = false) -> x < 2 ^ n.
Proof.
  intros Hn Hx H. replace x with (x mod 2 ^ n).
  - apply Z.mod_pos_bound. apply Z.pow_pos_nonneg; lia.
  - apply Z.bits_inj'. intros i Hi. destruct (Z.lt_ge_cases i n).
    + now rewrite Z.mod_pow2_bits_low.
    + rewrite Z.mod_pow2_bits_high by lia. now rewrite H.
Qed.
Lemma bits_high x n i : 0 <= n <= i -> 0 <= x < 2 ^ n -> Z.testbit x i = false.
Proof. intros Hn Hx. rewrite <- (Z.mod_small x (2 ^ n)) by lia. apply Z.mod_pow2_bits_high. lia. Qed.

Lemma lor_bound x y n : 0 <= n -> 0 <= x < 2 ^ n -> 0 <= y < 2 ^ n -> 0 <= Z.lor x y < 2 ^ n.
Proof.
  intros Hn Hx Hy. assert (0 <= Z.lor x y) by (apply Z.lor_nonneg; lia). split; auto.
  apply bits_bound; auto. intros i Hi. rewrite Z.lor_spec.
  now rewrite !(bits_high _ n) by lia.
Qed.
Lemma land_bound x y n : 0 <= n -> 0 <= x < 2 ^ n -> 0 <= y < 2 ^ n -> 0 <= Z.land x y < 2 ^ n.
Proof.
  intros Hn Hx Hy. assert (0 <= Z.land x y) by (apply Z.land_nonneg; lia). split; auto.
  apply bits_bound; auto. intros i Hi. rewrite Z.land_spec.
  now rewrite !(bits_high _ n) by lia.
Qed.
Lemma lxor_bound x y n : 0 <= n -> 0 <= x < 2 ^ n -> 0 <= y < 2 ^ n -> 0 <= Z.lxor x y < 2 ^ n.
Proof.
  intros Hn Hx Hy. assert (0 <= Z.lxor x y) by (apply Z.lxor_nonneg; lia). split; auto.
  apply bits_bound; auto. intros i Hi. rewrite Z.lxor_spec.
  now rewrite !(bits_high _ n) by lia.
Qed.

Lemma and256_wf a b : wf256 a -> wf256 b -> wf256 (and256 a b).
Proof. intros [? ?] [? ?]. unfold wf256, and256; cbn [low high]. split; apply land_bound; lia. Qed.
Lemma or256_wf a b : wf256 a -> wf256 b -> wf256 (or256 a b).
Proof. intros [? ?] [? ?]. unfold wf256, or256; cbn [low high]. split; apply lor_bound; lia. Qed.
Lemma xor256_wf a b : wf256 a -> wf256 b -> wf256 (xor256 a b).
Proof. intros [? ?] [? ?]. unfold wf256, xor256; cbn [low high]. split; apply lxor_bound; lia. Qed.

Lemma uval_testbit a i : wf256 a -> 0 <= i ->
  Z.testbit (uval a) i = if i <? 128 then Z.testbit (low a) i else Z.testbit (high a) (i - 128).
Proof.
  intros Hw Hi. rewrite uval_lor by auto. destruct Hw as [H1 H2]. rewrite Z.lor_spec.
  destruct (Z.ltb_spec i 128).
  - now rewrite Z.mul_pow2_bits_low by lia.
  - rewrite Z.mul_pow2_bits by lia. rewrite (bits_high (low a) 128) by lia. apply orb_false_r.
Qed.

Lemma uval_testbit_high a i : wf256 a -> 256 <= i -> Z.testbit (uval a) i = false.
Proof. intros Hw Hi. apply (bits_high _ 256); [lia|]. now apply uval_range. Qed.

Lemma swrap_testbit n z i : 0 < n -> 0 <= i ->
  Z.testbit (swrap n z) i = if i <? n then Z.testbit z i else Z.testbit z (n - 1).
Proof.
  intros Hn Hi. unfold swrap.
  assert (HP : 0 < 2 ^ n) by (apply Z.pow_pos_nonneg; lia).
  assert (E2 : 2 ^ n = 2 * 2 ^ (n - 1)).
  { replace n with (Z.succ (n - 1)) at 1 by lia. rewrite Z.pow_succ_r by lia. reflexivity. }
  pose proof (Z.mod_pos_bound z (2 ^ n) HP) as Hm.
  assert (Hb : Z.testbit z (n - 1) = negb (z mod 2 ^ n <? 2 ^ (n - 1))).
  { rewrite <- (Z.mod_pow2_bits_low z n (n - 1)) by lia.
    destruct (Z.ltb_spec (z mod 2 ^ n) (2 ^ (n - 1))) as [H|H]; simpl.
    - apply (bits_high _ (n - 1)); lia.
    - rewrite Z.testbit_true by lia.
      replace (z mod 2 ^ n / 2 ^ (n - 1)) with 1; [reflexivity|].
      apply Z.div_unique_pos with (r := z mod 2 ^ n - 2 ^ (n - 1)); lia. }
  rewrite Hb. destruct (Z.ltb_spec (z mod 2 ^ n) (2 ^ (n - 1))) as [H|H]; simpl.
  - destruct (Z.ltb_spec i n).
    + now rewrite Z.mod_pow2_bits_low by lia.
    + now rewrite Z.mod_pow2_bits_high by lia.
  - replace (z mod 2 ^ n - 2 ^ n) with (Z.lor ((-1) * 2 ^ n) (z mod 2 ^ n)) by (rewrite lor_add by lia; ring).
    rewrite Z.lor_spec. destruct (Z.ltb_spec i n).
    + rewrite Z.mul_pow2_bits_low by lia. simpl. now rewrite Z.mod_pow2_bits_low by lia.
    + rewrite Z.mul_pow2_bits by lia. rewrite Z.bits_m1 by lia. reflexivity.
Qed.

Lemma sval_bitop a b c (op : bool -> bool -> bool) (zop : Z -> Z -> Z) :
  wf256 a -> wf256 b -> wf256 c ->
  (forall x y i, Z.testbit (zop x y) i = op (Z.testbit x i) (Z.testbit y i)) ->
  (forall i, Z.testbit (low c) i = op (Z.testbit (low a) i) (Z.testbit (low b) i)) ->
  (forall i, Z.testbit (high c) i = op (Z.testbit (high a) i) (Z.testbit (high b) i)) ->
  sval c = zop (sval a) (sval b).
Proof.
  intros Ha Hb Hc Hop Hl Hh. apply Z.bits_inj'. intros i Hi. rewrite Hop. unfold sval.
  rewrite !swrap_testbit by lia. destruct (Z.ltb_spec i 256).
  - rewrite !uval_testbit by auto. destruct (i <? 128); auto.
  - rewrite !uval_testbit by (auto; lia). change (256 - 1 <? 128) with false. cbv iota. apply Hh.
Qed.

Lemma and256_sval a b : wf256 a -> wf256 b -> sval (and256 a b) = Z.land (sval a) (sval b).
Proof.
  intros. apply (sval_bitop a b _ andb); auto using and256_wf, Z.land_spec; intros; apply Z.land_spec.
Qed.
Lemma or256_sval a b : wf256 a -> wf256 b -> sval (or256 a b) = Z.lor (sval a) (sval b).
Proof.
  intros. apply (sval_bitop a b _ orb); auto using or256_wf, Z.lor_spec; intros; apply Z.lor_spec.
Qed.
Lemma xor256_sval a b : wf256 a -> wf256 b -> sval (xor256 a b) = Z.lxor (sval a) (sval b).
Proof.
  intros. apply (sval_bitop a b _ xorb); auto using xor256_wf, Z.lxor_spec; intros; apply Z.lxor_spec.
Qed.
