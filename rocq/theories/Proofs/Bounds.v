(** Bounds for the sums of the absolute values of all leaves. *)
From Coq Require Import ZArith List Bool Lia Znumtheory.
From Verif.Base Require Import Res Word Zl.
From Verif.Spec Require Import Primes LMOSpec S2Spec.
From Verif.Proofs Require Import Primes NT LMO Tables Leaf S2Leaf.
Import ListNotations.
Open Scope Z_scope.
Local Ltac Zify.zify_post_hook ::= idtac.

(** ** Numbers coprime to 6 *)
Definition c6 (n : Z) : bool := negb (n mod 2 =? 0) && negb (n mod 3 =? 0).
Lemma c6_period q r : c6 (6 * q + r) = c6 r.
Proof.
  unfold c6. replace (6 * q + r) with (r + 3 * q * 2) by ring. rewrite Z.mod_add by lia.
  replace (r + 3 * q * 2) with (r + 2 * q * 3) by ring. rewrite Z.mod_add by lia. reflexivity.
Qed.
Definition S6 (t : Z) : Z := sumr 1 (t + 1) (fun n => if c6 n then n else 0).
Lemma S6_snoc t : 0 <= t -> S6 (t + 1) = S6 t + (if c6 (t + 1) then t + 1 else 0).
Proof. intros H. unfold S6. now rewrite sumr_snoc by lia. Qed.
Ltac c6_step q r := replace (6 * q + r + 1) with (6 * q + (r + 1)) by ring; rewrite c6_period.
Lemma S6_parts q : 0 <= q -> S6 (6 * q) = 6 * (q * q) /\ S6 (6 * q + 1) = 6 * (q * q) + 6 * q + 1 /\ S6 (6 * q + 2) = 6 * (q * q) + 6 * q + 1 /\
  S6 (6 * q + 3) = 6 * (q * q) + 6 * q + 1 /\ S6 (6 * q + 4) = 6 * (q * q) + 6 * q + 1 /\ S6 (6 * q + 5) = 6 * (q * q) + 12 * q + 6.
Proof.
  assert (N : forall q, 0 <= q -> S6 (6 * q) = 6 * (q * q) -> S6 (6 * q + 1) = 6 * (q * q) + 6 * q + 1 /\ S6 (6 * q + 2) = 6 * (q * q) + 6 * q + 1 /\
    S6 (6 * q + 3) = 6 * (q * q) + 6 * q + 1 /\ S6 (6 * q + 4) = 6 * (q * q) + 6 * q + 1 /\ S6 (6 * q + 5) = 6 * (q * q) + 12 * q + 6).
  { clear q. intros q Hq E0.
    assert (E1 : S6 (6 * q + 1) = 6 * (q * q) + 6 * q + 1).
    { rewrite S6_snoc, E0 by lia. rewrite c6_period. change (c6 1) with true. cbv iota. ring. }
    assert (E2 : S6 (6 * q + 2) = 6 * (q * q) + 6 * q + 1).
    { replace (6 * q + 2) with (6 * q + 1 + 1) by ring. rewrite S6_snoc, E1 by lia. c6_step q 1. change (c6 (1 + 1)) with false. cbv iota. ring. }
    assert (E3 : S6 (6 * q + 3) = 6 * (q * q) + 6 * q + 1).
    { replace (6 * q + 3) with (6 * q + 2 + 1) by ring. rewrite S6_snoc, E2 by lia. c6_step q 2. change (c6 (2 + 1)) with false. cbv iota. ring. }
    assert (E4 : S6 (6 * q + 4) = 6 * (q * q) + 6 * q + 1).
    { replace (6 * q + 4) with (6 * q + 3 + 1) by ring. rewrite S6_snoc, E3 by lia. c6_step q 3. change (c6 (3 + 1)) with false. cbv iota. ring. }
    do 4 (split; [assumption|]).
    replace (6 * q + 5) with (6 * q + 4 + 1) by ring. rewrite S6_snoc, E4 by lia. c6_step q 4. change (c6 (4 + 1)) with true. cbv iota. ring. }
  intros Hq. split; [|apply N; auto].
  - pattern q. apply natlike_ind; [reflexivity| |exact Hq]. intros k Hk E. destruct (N k Hk E) as (_ & _ & _ & _ & E5).
    unfold Z.succ. replace (6 * (k + 1)) with (6 * k + 5 + 1) by ring. rewrite S6_snoc, E5 by lia. c6_step k 5.
    change (c6 (5 + 1)) with false. cbv iota. ring.
  - pattern q. apply natlike_ind; [reflexivity| |exact Hq]. intros k Hk E. destruct (N k Hk E) as (_ & _ & _ & _ & E5).
    unfold Z.succ. replace (6 * (k + 1)) with (6 * k + 5 + 1) by ring. rewrite S6_snoc, E5 by lia. c6_step k 5.
    change (c6 (5 + 1)) with false. cbv iota. ring.
Qed.
Lemma S6_bound t : 0 <= t -> 6 * S6 t <= t * t + 4 * t + 1.
Proof.
  intros Ht. pose proof (Z.div_mod t 6 ltac:(lia)) as E. pose proof (Z.mod_pos_bound t 6 ltac:(lia)) as R.
  assert (Q : 0 <= t / 6) by (apply Z.div_pos; lia). destruct (S6_parts _ Q) as (E0 & E1 & E2 & E3 & E4 & E5).
  set (q := t / 6) in *. assert (C : t mod 6 = 0 \/ t mod 6 = 1 \/ t mod 6 = 2 \/ t mod 6 = 3 \/ t mod 6 = 4 \/ t mod 6 = 5) by lia.
  destruct C as [C|[C|[C|[C|[C|C]]]]]; rewrite C in E; rewrite E, ?Z.add_0_r, ?E0, ?E1, ?E2, ?E3, ?E4, ?E5; ring_simplify; nia.
Qed.
Lemma S6_nonneg t : 0 <= S6 t.
Proof. apply sumr_nonneg. intros n Hn. destruct (c6 n); lia. Qed.

Lemma rough_c6 a n : 2 <= a -> 1 <= n -> roughb a n = true -> c6 n = true.
Proof.
  intros Ha Hn R. apply roughb_spec in R; auto. unfold c6.
  rewrite andb_true_iff, !negb_true_iff, !Z.eqb_neq. split; intros E; apply Z.mod_divide in E; try lia.
  - apply (R 2 prime_2); auto. change (pi 2) with 1. lia.
  - apply (R 3 prime_3); auto.
Qed.
Lemma phi_sum_S6 t a : 2 <= a -> phi_sum t a <= S6 t.
Proof.
  intros Ha. apply sumr_le. intros n Hn. destruct (roughb a n) eqn:R.
  - now rewrite (rough_c6 a n Ha ltac:(lia) R).
  - destruct (c6 n); lia.
Qed.
Lemma phi_sum_nonneg t a : 0 <= phi_sum t a.
Proof. apply sumr_nonneg. intros n Hn. destruct (roughb a n); lia. Qed.

(** ** Harmonic sums over the numbers coprime to 6 *)
Lemma c6_sum K g : 0 <= K -> sumr 1 (6 * K + 2) (fun n => if c6 n then g n else 0) = g 1 + sumr 1 (K + 1) (fun k => g (6 * k - 1) + g (6 * k + 1)).
Proof.
  intros HK. pattern K. apply natlike_ind; [| |exact HK].
  - replace (6 * 0 + 2) with (1 + 1) by ring. rewrite sumr_snoc, sumr_empty by lia. rewrite sumr_empty by lia. change (c6 1) with true. cbv iota. ring.
  - intros k Hk E. unfold Z.succ. rewrite (sumr_snoc 1 (k + 1)) by lia.
    replace (6 * (k + 1) + 2) with (6 * k + 2 + 1 + 1 + 1 + 1 + 1 + 1) by ring.
    rewrite !sumr_snoc, E by lia. c6_step k 2. replace (6 * k + (2 + 1) + 1) with (6 * k + 4) by ring.
    replace (6 * k + 4 + 1) with (6 * k + 5) by ring. replace (6 * k + 5 + 1) with (6 * k + 6) by ring. replace (6 * k + 6 + 1) with (6 * k + 7) by ring.
    rewrite !c6_period. change (c6 2) with false. change (c6 (2 + 1)) with false. change (c6 4) with false. change (c6 5) with true.
    change (c6 6) with false. change (c6 7) with true. cbv iota.
    replace (6 * (k + 1) - 1) with (6 * k + 5) by ring. replace (6 * (k + 1) + 1) with (6 * k + 7) by ring. ring.
Qed.
Definition pair6 (A k : Z) : Z := A / (6 * k - 1) + A / (6 * k + 1).
Lemma pair6_block A j M : 0 <= A -> 1 <= M -> 1 <= j -> 3 * j * sumr (j * M + 1) ((j + 1) * M + 1) (pair6 A) <= A.
Proof.
  intros HA HM Hj. assert (P : 0 < 6 * (j * M)) by nia.
  apply Z.le_trans with (3 * j * (2 * (A / (6 * (j * M))) * M)).
  - apply Z.mul_le_mono_nonneg_l; [lia|]. replace M with ((j + 1) * M + 1 - (j * M + 1)) at 4 by ring.
    rewrite <- sumr_const by nia. apply sumr_le. intros k Hk. unfold pair6.
    assert (A / (6 * k - 1) <= A / (6 * (j * M))) by (apply Z.div_le_compat_l; lia).
    assert (A / (6 * k + 1) <= A / (6 * (j * M))) by (apply Z.div_le_compat_l; lia). lia.
  - pose proof (Z.mul_div_le A (6 * (j * M)) P). set (q := A / (6 * (j * M))) in *. clearbody q. nia.
Qed.
Lemma pair6_octave A M : 0 <= A -> 1 <= M -> 1260 * sumr (4 * M + 1) (8 * M + 1) (pair6 A) <= 319 * A.
Proof.
  intros HA HM. rewrite (sumr_split _ (5 * M + 1)) by lia. rewrite (sumr_split (5 * M + 1) (6 * M + 1)) by lia.
  rewrite (sumr_split (6 * M + 1) (7 * M + 1)) by lia.
  pose proof (pair6_block A 4 M HA HM ltac:(lia)) as B4. pose proof (pair6_block A 5 M HA HM ltac:(lia)) as B5.
  pose proof (pair6_block A 6 M HA HM ltac:(lia)) as B6. pose proof (pair6_block A 7 M HA HM ltac:(lia)) as B7.
  change (4 + 1) with 5 in B4. change (5 + 1) with 6 in B5. change (6 + 1) with 7 in B6. change (7 + 1) with 8 in B7. lia.
Qed.
Lemma pair6_octaves A J1 J2 : 0 <= A -> 2 <= J1 <= J2 -> 1260 * sumr (2 ^ J1 + 1) (2 ^ J2 + 1) (pair6 A) <= 319 * A * (J2 - J1).
Proof.
  intros HA [H1 H2]. replace J2 with (J1 + (J2 - J1)) by ring. assert (D : 0 <= J2 - J1) by lia. revert D. generalize (J2 - J1). intros d Hd.
  pattern d. apply natlike_ind; [| |exact Hd].
  - rewrite Z.add_0_r, sumr_empty by lia. lia.
  - intros k Hk E. unfold Z.succ. rewrite (sumr_split _ (2 ^ (J1 + k) + 1)).
    2:{ split; [assert (2 ^ J1 <= 2 ^ (J1 + k)) by (apply Z.pow_le_mono_r; lia); lia|]. assert (2 ^ (J1 + k) <= 2 ^ (J1 + (k + 1))) by (apply Z.pow_le_mono_r; lia). lia. }
    assert (EP : 2 ^ (J1 + k) = 4 * 2 ^ (J1 + k - 2)) by (change 4 with (2 ^ 2); rewrite <- Z.pow_add_r by lia; f_equal; lia).
    assert (EQ : 2 ^ (J1 + (k + 1)) = 8 * 2 ^ (J1 + k - 2)) by (change 8 with (2 ^ 3); rewrite <- Z.pow_add_r by lia; f_equal; lia).
    assert (PP : 0 < 2 ^ (J1 + k - 2)) by (apply Z.pow_pos_nonneg; lia).
    pose proof (pair6_octave A (2 ^ (J1 + k - 2)) HA ltac:(lia)) as O.
    rewrite EQ. rewrite EP at 2. lia.
Qed.
Lemma pair6_nonneg A k : 0 <= A -> 1 <= k -> 0 <= pair6 A k.
Proof. intros HA Hk. unfold pair6. assert (0 <= A / (6 * k - 1)) by (apply Z.div_pos; lia). assert (0 <= A / (6 * k + 1)) by (apply Z.div_pos; lia). lia. Qed.
Lemma pair6_start A : 0 <= A -> 1260 * sumr 1 5 (pair6 A) <= 895 * A.
Proof.
  intros HA. change 5 with (1 + 1 + 1 + 1 + 1). rewrite !sumr_snoc, sumr_empty by lia. unfold pair6.
  pose proof (Z.mul_div_le A 5 ltac:(lia)). pose proof (Z.mul_div_le A 7 ltac:(lia)). pose proof (Z.mul_div_le A 11 ltac:(lia)). pose proof (Z.mul_div_le A 13 ltac:(lia)).
  pose proof (Z.mul_div_le A 17 ltac:(lia)). pose proof (Z.mul_div_le A 19 ltac:(lia)). pose proof (Z.mul_div_le A 23 ltac:(lia)). pose proof (Z.mul_div_le A 25 ltac:(lia)).
  change (6 * 1 - 1) with 5. change (6 * 1 + 1) with 7. change (6 * (1 + 1) - 1) with 11. change (6 * (1 + 1) + 1) with 13.
  change (6 * (1 + 1 + 1) - 1) with 17. change (6 * (1 + 1 + 1) + 1) with 19. change (6 * (1 + 1 + 1 + 1) - 1) with 23. change (6 * (1 + 1 + 1 + 1) + 1) with 25. lia.
Qed.
(** sum of A / n over lo < n <= hi coprime to 6 *)
Definition harm6 (A lo hi : Z) : Z := sumr (lo + 1) (hi + 1) (fun n => if c6 n then A / n else 0).
Lemma harm6_full A hi J : 0 <= A -> 2 <= J -> hi <= 6 * 2 ^ J -> 1260 * harm6 A 0 hi <= (2155 + 319 * (J - 2)) * A.
Proof.
  intros HA HJ HH. assert (PJ : 4 <= 2 ^ J) by (change 4 with (2 ^ 2); apply Z.pow_le_mono_r; lia).
  assert (N : forall n, 1 <= n -> 0 <= (if c6 n then A / n else 0)) by (intros n Hn; destruct (c6 n); [apply Z.div_pos|]; lia).
  apply Z.le_trans with (1260 * sumr 1 (6 * 2 ^ J + 2) (fun n => if c6 n then A / n else 0)).
  - apply Z.mul_le_mono_nonneg_l; [lia|]. unfold harm6. change (0 + 1) with 1. destruct (Z.le_gt_cases 1 (hi + 1)).
    + rewrite (sumr_split 1 (hi + 1) (6 * 2 ^ J + 2)) by lia. assert (0 <= sumr (hi + 1) (6 * 2 ^ J + 2) (fun n => if c6 n then A / n else 0)); [|lia].
      apply sumr_nonneg. intros; apply N; lia.
    + rewrite sumr_empty by lia. apply sumr_nonneg. intros; apply N; lia.
  - rewrite c6_sum by lia. rewrite Z.div_1_r. change (fun k => A / (6 * k - 1) + A / (6 * k + 1)) with (pair6 A).
    rewrite (sumr_split 1 5) by lia. pose proof (pair6_start A HA). pose proof (pair6_octaves A 2 J HA ltac:(lia)) as O. change (2 ^ 2 + 1) with 5 in O. lia.
Qed.
Lemma harm6_range A lo hi J1 J2 : 0 <= A -> 2 <= J1 <= J2 -> 6 * 2 ^ J1 + 1 <= lo -> hi <= 6 * 2 ^ J2 -> 1260 * harm6 A lo hi <= 319 * A * (J2 - J1).
Proof.
  intros HA HJ HL HH. assert (PJ : 4 <= 2 ^ J1) by (change 4 with (2 ^ 2); apply Z.pow_le_mono_r; lia).
  assert (PJ2 : 2 ^ J1 <= 2 ^ J2) by (apply Z.pow_le_mono_r; lia).
  set (g := fun n => if n <=? lo then 0 else A / n).
  assert (N : forall n, 1 <= n -> 0 <= g n) by (intros n Hn; unfold g; destruct (n <=? lo); [|apply Z.div_pos]; lia).
  apply Z.le_trans with (1260 * sumr 1 (6 * 2 ^ J2 + 2) (fun n => if c6 n then g n else 0)).
  - apply Z.mul_le_mono_nonneg_l; [lia|]. unfold harm6. destruct (Z.le_gt_cases (lo + 1) (hi + 1)).
    + rewrite (sumr_split 1 (lo + 1) (6 * 2 ^ J2 + 2)) by lia. rewrite (sumr_split (lo + 1) (hi + 1) (6 * 2 ^ J2 + 2)) by lia.
      assert (0 <= sumr 1 (lo + 1) (fun n => if c6 n then g n else 0)) by (apply sumr_nonneg; intros n Hn; pose proof (N n); destruct (c6 n); lia).
      assert (0 <= sumr (hi + 1) (6 * 2 ^ J2 + 2) (fun n => if c6 n then g n else 0)) by (apply sumr_nonneg; intros n Hn; pose proof (N n); destruct (c6 n); lia).
      rewrite (sumr_ext (lo + 1) (hi + 1) _ (fun n => if c6 n then g n else 0)); [lia|]. intros n Hn. unfold g. destruct (Z.leb_spec n lo); [lia|reflexivity].
    + rewrite sumr_empty by lia. apply sumr_nonneg. intros n Hn; pose proof (N n); destruct (c6 n); lia.
  - rewrite c6_sum by lia. assert (G1 : g 1 = 0) by (unfold g; destruct (Z.leb_spec 1 lo); [reflexivity|lia]). rewrite G1.
    rewrite (sumr_split 1 (2 ^ J1 + 1)) by lia. pose proof (pair6_octaves A J1 J2 HA HJ) as O.
    rewrite sumr_zero.
    2:{ intros k Hk. unfold g. destruct (Z.leb_spec (6 * k - 1) lo); [|lia]. destruct (Z.leb_spec (6 * k + 1) lo); lia. }
    assert (sumr (2 ^ J1 + 1) (2 ^ J2 + 1) (fun k => g (6 * k - 1) + g (6 * k + 1)) <= sumr (2 ^ J1 + 1) (2 ^ J2 + 1) (pair6 A)); [|lia].
    apply sumr_le. intros k Hk. unfold g, pair6. assert (0 <= A / (6 * k - 1)) by (apply Z.div_pos; lia). assert (0 <= A / (6 * k + 1)) by (apply Z.div_pos; lia).
    destruct (6 * k - 1 <=? lo), (6 * k + 1 <=? lo); lia.
Qed.

(** ** Sums of n * S6 (x / n) *)
Definition G6 (x lo hi : Z) : Z := sumr (lo + 1) (hi + 1) (fun n => if c6 n then n * S6 (x / n) else 0).
Lemma c6_count lo hi : 0 <= lo <= hi -> 3 * sumr (lo + 1) (hi + 1) (fun n => if c6 n then 1 else 0) <= hi + 7.
Proof.
  intros H. assert (N : forall n, 0 <= (if c6 n then 1 else 0)) by (intros n; destruct (c6 n); lia).
  set (K := (hi + 4) / 6). pose proof (Z.div_mod (hi + 4) 6 ltac:(lia)). pose proof (Z.mod_pos_bound (hi + 4) 6 ltac:(lia)).
  assert (K0 : 0 <= K) by (apply Z.div_pos; lia). fold K in H0.
  assert (E : sumr (lo + 1) (hi + 1) (fun n => if c6 n then 1 else 0) <= sumr 1 (6 * K + 2) (fun n => if c6 n then 1 else 0)).
  { rewrite (sumr_split 1 (lo + 1) (6 * K + 2)) by lia. rewrite (sumr_split (lo + 1) (hi + 1) (6 * K + 2)) by lia.
    assert (0 <= sumr 1 (lo + 1) (fun n => if c6 n then 1 else 0)) by (apply sumr_nonneg; auto).
    assert (0 <= sumr (hi + 1) (6 * K + 2) (fun n => if c6 n then 1 else 0)) by (apply sumr_nonneg; auto). lia. }
  rewrite (c6_sum K (fun _ => 1)) in E by auto. rewrite sumr_const in E by lia. lia.
Qed.
Lemma G6_term x n : 0 <= x -> 1 <= n -> 6 * (n * S6 (x / n)) <= x * x / n + 4 * x + n.
Proof.
  intros Hx Hn. assert (T : 0 <= x / n) by (apply Z.div_pos; lia). pose proof (S6_bound _ T) as B. pose proof (Z.mul_div_le x n ltac:(lia)) as M.
  assert (D : n * (x / n * (x / n)) <= x * x / n) by (apply Z.div_le_lower_bound; [lia|]; nia).
  set (t := x / n) in *. clearbody t. nia.
Qed.
Lemma G6_harm x lo hi : 0 <= x -> 0 <= lo <= hi -> hi <= x -> 18 * G6 x lo hi <= 3 * harm6 (x * x) lo hi + 5 * x * (hi + 7).
Proof.
  intros Hx HL HH. pose proof (c6_count lo hi HL) as C. unfold G6, harm6.
  assert (E : 6 * sumr (lo + 1) (hi + 1) (fun n => if c6 n then n * S6 (x / n) else 0) <=
    sumr (lo + 1) (hi + 1) (fun n => if c6 n then x * x / n else 0) + 5 * x * sumr (lo + 1) (hi + 1) (fun n => if c6 n then 1 else 0)).
  { rewrite <- !sumr_scal, <- sumr_add. apply sumr_le. intros n Hn. pose proof (G6_term x n Hx ltac:(lia)). destruct (c6 n); lia. }
  assert (5 * x * (3 * sumr (lo + 1) (hi + 1) (fun n => if c6 n then 1 else 0)) <= 5 * x * (hi + 7)) by (apply Z.mul_le_mono_nonneg_l; lia).
  lia.
Qed.
(** n <= hi *)
Lemma G6_full x hi J : 0 <= x -> 0 <= hi <= x -> 2 <= J -> hi <= 6 * 2 ^ J ->
  7560 * G6 x 0 hi <= (2155 + 319 * (J - 2)) * (x * x) + 2100 * x * (hi + 7).
Proof.
  intros Hx HH HJ Hp. pose proof (G6_harm x 0 hi Hx ltac:(lia) ltac:(lia)). pose proof (harm6_full (x * x) hi J ltac:(nia) HJ Hp). lia.
Qed.
(** y < n <= y^2 *)
Lemma G6_square x y J : 0 <= x -> 0 <= y -> y * y <= x -> 7 <= J -> y <= 6 * 2 ^ J ->
  7560 * G6 x y (y * y) <= 319 * (J + 5) * (x * x) + 2100 * x * (x + 7).
Proof.
  intros Hx Hy HH HJ Hp. assert (Hyy : y <= y * y) by nia.
  pose proof (G6_harm x y (y * y) Hx ltac:(lia) ltac:(lia)) as G. assert (X2 : 0 <= x * x) by nia.
  assert (X3 : x * (y * y) <= x * x) by (apply Z.mul_le_mono_nonneg_l; lia).
  destruct (Z.le_gt_cases 25 y) as [C|C].
  - set (t := (y - 1) / 6). assert (T : 4 <= t) by (apply Z.div_le_lower_bound; lia). pose proof (Z.log2_spec t ltac:(lia)) as [L1 L2]. set (J1 := Z.log2 t) in *.
    unfold Z.succ in L2. rewrite Z.pow_add_r in L2 by (try apply Z.log2_nonneg; lia). change (2 ^ 1) with 2 in L2.
    assert (A1 : 2 <= J1) by (change 2 with (Z.log2 4); apply Z.log2_le_mono; lia).
    pose proof (Z.div_mod (y - 1) 6 ltac:(lia)) as DM. pose proof (Z.mod_pos_bound (y - 1) 6 ltac:(lia)) as MB. fold t in DM.
    assert (A2 : J1 <= J).
    { destruct (Z.le_gt_cases J1 J); auto. assert (2 ^ (J + 1) <= 2 ^ J1) by (apply Z.pow_le_mono_r; lia). rewrite Z.pow_add_r in H0 by lia. change (2 ^ 1) with 2 in H0.
      assert (0 < 2 ^ J) by (apply Z.pow_pos_nonneg; lia). lia. }
    assert (A3 : y * y <= 6 * 2 ^ (2 * J1 + 5)).
    { rewrite Z.pow_add_r by lia. replace (2 * J1) with (J1 + J1) by ring. rewrite Z.pow_add_r by lia. change (2 ^ 5) with 32.
      set (w := 2 ^ J1) in *. clearbody w. assert (y <= 12 * w) by lia. nia. }
    pose proof (harm6_range (x * x) y (y * y) J1 (2 * J1 + 5) X2 ltac:(lia) ltac:(lia) A3) as H.
    assert (319 * (x * x) * (2 * J1 + 5 - J1) <= 319 * (x * x) * (J + 5)) by (apply Z.mul_le_mono_nonneg_l; lia). lia.
  - assert (E : harm6 (x * x) y (y * y) <= harm6 (x * x) 0 (y * y)).
    { unfold harm6. change (0 + 1) with 1. rewrite (sumr_split 1 (y + 1) (y * y + 1)) by lia. assert (0 <= sumr 1 (y + 1) (fun n => if c6 n then x * x / n else 0)); [|lia].
      apply sumr_nonneg. intros n Hn. destruct (c6 n); [apply Z.div_pos|]; lia. }
    assert (y * y <= 24 * 24) by nia.
    pose proof (harm6_full (x * x) (y * y) 7 X2 ltac:(lia) ltac:(change (6 * 2 ^ 7) with 768; lia)) as H2.
    assert (319 * (x * x) * 12 <= 319 * (x * x) * (J + 5)) by (apply Z.mul_le_mono_nonneg_l; lia). lia.
Qed.

(** ** Sums of absolute values of the leaves *)
Lemma lsum_incl {A} (h : A -> Z) l1 l2 : NoDup l1 -> incl l1 l2 -> (forall a, In a l2 -> 0 <= h a) -> lsum h l1 <= lsum h l2.
Proof.
  revert l2. induction l1 as [|a l1 IH]; intros l2 ND I P.
  - now apply lsum_nonneg.
  - inversion ND; subst. destruct (in_split a l2 (I a (or_introl eq_refl))) as (u & v & ->).
    rewrite lsum_app, !lsum_cons. assert (lsum h l1 <= lsum h (u ++ v)).
    { apply IH; auto.
      - intros b Hb. assert (J : In b (u ++ a :: v)) by (apply I; now right). rewrite in_app_iff in *. destruct J as [J|[J|J]]; auto. subst. contradiction.
      - intros b Hb. apply P. rewrite in_app_iff in *. destruct Hb; [now left|right; now right]. }
    rewrite lsum_app in H. lia.
Qed.
Lemma sumr_mul_le a b lo hi p h : 0 < p -> (forall m, a <= m < b -> lo <= p * m < hi) -> (forall n, lo <= n < hi -> 0 <= h n) ->
  sumr a b (fun m => h (p * m)) <= sumr lo hi h.
Proof.
  intros Hp R P. unfold sumr. rewrite <- (lsum_map h (fun m => p * m)). apply lsum_incl.
  - apply FinFun.Injective_map_NoDup; [|apply zrange_NoDup]. intros u v; nia.
  - intros n Hn. apply in_map_iff in Hn. destruct Hn as (m & <- & Hm). apply in_zrange in Hm. apply in_zrange. auto.
  - intros n Hn. apply in_zrange in Hn. auto.
Qed.
Definition aleaf (x p m : Z) : Z := if roughb (pi p) m then p * m * phi_sum (x / (p * m)) (pi p - 1) else 0.
Lemma leaf_abs x p m : 0 <= p -> 0 <= m -> Z.abs (leaf x p m) <= aleaf x p m.
Proof.
  intros Hp Hm. unfold leaf, aleaf. destruct (roughb (pi p) m); [|cbn; lia]. rewrite Z.abs_opp, !Z.abs_mul.
  rewrite (Z.abs_eq (phi_sum _ _)) by apply phi_sum_nonneg. pose proof (phi_sum_nonneg (x / (p * m)) (pi p - 1)).
  apply Z.mul_le_mono_nonneg_r; auto. destruct (mu_values m) as [E|[E|E]]; rewrite E; cbn [Z.abs]; nia.
Qed.
Lemma aleaf_nonneg x p m : 0 <= p -> 0 <= m -> 0 <= aleaf x p m.
Proof. intros Hp Hm. unfold aleaf. destruct (roughb (pi p) m); [|lia]. pose proof (phi_sum_nonneg (x / (p * m)) (pi p - 1)). nia. Qed.
Definition S2_abs (x y c : Z) : Z := psum 2 y (fun p => if c <? pi p then sumr (y / p + 1) (y + 1) (aleaf x p) else 0).
Lemma aleaf_le x p m : prime p -> 3 <= pi p -> 1 <= m ->
  aleaf x p m <= (if least_factor (p * m) =? p then if c6 (p * m) then p * m * S6 (x / (p * m)) else 0 else 0).
Proof.
  intros Pp Hpi Hm. pose proof (prime_ge_2 _ Pp) as P2. pose proof (S6_nonneg (x / (p * m))) as S0. unfold aleaf. destruct (roughb (pi p) m) eqn:R.
  2:{ destruct (least_factor (p * m) =? p), (c6 (p * m)); nia. }
  apply roughb_spec in R; auto.
  assert (L : least_factor (p * m) = p).
  { apply least_factor_unique; [nia|auto|apply Z.divide_factor_l|]. intros q Pq D. apply prime_mult in D; auto. destruct D as [D|D].
    - apply prime_div_prime in D; auto. lia.
    - destruct (Z.le_gt_cases p q); auto. elim (R q Pq); auto. apply pi_mono. lia. }
  rewrite L, Z.eqb_refl.
  assert (C : c6 (p * m) = true).
  { apply (rough_c6 2); [lia|nia|]. apply roughb_spec; [nia|]. intros q Pq Hq D. apply prime_mult in D; auto. destruct D as [D|D].
    - apply prime_div_prime in D; auto. subst. lia.
    - elim (R q Pq); auto. lia. }
  rewrite C. apply Z.mul_le_mono_nonneg_l; [nia|]. apply phi_sum_S6. lia.
Qed.
Lemma S2_abs_le x y c : 2 <= c -> 1 <= y -> S2_abs x y c <= G6 x y (y * y).
Proof.
  intros Hc Hy. unfold G6. set (g := fun n => if c6 n then n * S6 (x / n) else 0).
  assert (G0 : forall n, 0 <= n -> 0 <= g n) by (intros n Hn; unfold g; pose proof (S6_nonneg (x / n)); destruct (c6 n); nia).
  apply Z.le_trans with (sumr 2 (y + 1) (fun p => sumr (y + 1) (y * y + 1) (fun n => if least_factor n =? p then g n else 0))).
  - unfold S2_abs, psum. apply sumr_le. intros p Hp.
    assert (N : 0 <= sumr (y + 1) (y * y + 1) (fun n => if least_factor n =? p then g n else 0)).
    { apply sumr_nonneg. intros n Hn. destruct (least_factor n =? p); [apply G0|]; lia. }
    destruct (primeb p) eqn:E; auto. apply primeb_spec in E. destruct (Z.ltb_spec c (pi p)) as [C|C]; auto.
    apply Z.le_trans with (sumr (y / p + 1) (y + 1) (fun m => (fun n => if least_factor n =? p then g n else 0) (p * m))).
    + apply sumr_le. intros m Hm. cbv beta. unfold g. apply aleaf_le; auto; [lia|]. assert (0 <= y / p) by (apply Z.div_pos; lia). lia.
    + apply (sumr_mul_le _ _ (y + 1) (y * y + 1) p (fun n => if least_factor n =? p then g n else 0)); [lia| |].
      * intros m Hm. pose proof (Z.mul_succ_div_gt y p ltac:(lia)). nia.
      * intros n Hn. destruct (least_factor n =? p); [apply G0|]; lia.
  - unfold sumr at 1 2. rewrite lsum_swap. fold (sumr (y + 1) (y * y + 1) (fun n => lsum (fun p => if least_factor n =? p then g n else 0) (zrange 2 (y + 1)))).
    apply sumr_le. intros n Hn. change (sumr 2 (y + 1) (fun p => if least_factor n =? p then g n else 0) <= g n).
    destruct (Z.le_gt_cases 2 (least_factor n)) as [A|A]; [destruct (Z.le_gt_cases (least_factor n) y) as [B|B]|].
    + rewrite (sumr_single _ _ (least_factor n)); [rewrite Z.eqb_refl; lia|lia|]. intros i Hi Hne. destruct (Z.eqb_spec (least_factor n) i); [congruence|reflexivity].
    + rewrite sumr_zero; [apply G0; nia|]. intros i Hi. destruct (Z.eqb_spec (least_factor n) i); [lia|reflexivity].
    + rewrite sumr_zero; [apply G0; nia|]. intros i Hi. destruct (Z.eqb_spec (least_factor n) i); [lia|reflexivity].
Qed.

(** ** The semiprimes of P2 *)
Lemma prime_c6 p : prime p -> 4 <= p -> c6 p = true.
Proof.
  intros Pp Hp. apply (rough_c6 2); [lia|lia|]. apply roughb_spec; [lia|]. intros q Pq Hq D. apply prime_div_prime in D; auto. subst q.
  pose proof (pi_mono 4 p ltac:(lia)). assert (pi (4 - 1) < pi p) by (apply pi_lt_prime; auto; lia). change (pi (4 - 1)) with 2 in H0. lia.
Qed.
Lemma psum_c6 r f : 2 <= r -> (forall n, 1 <= n -> 0 <= f n) -> psum 2 r f <= f 2 + f 3 + sumr 1 (r + 1) (fun n => if c6 n then f n else 0).
Proof.
  intros Hr P. assert (N : forall n, 1 <= n -> 0 <= (if c6 n then f n else 0)) by (intros n Hn; destruct (c6 n); [now apply P|lia]).
  pose proof (P 2 ltac:(lia)). pose proof (P 3 ltac:(lia)).
  assert (E : forall lo, 4 <= lo -> psum lo r f <= sumr lo (r + 1) (fun n => if c6 n then f n else 0)).
  { intros lo Hlo. apply sumr_le. intros n Hn. destruct (primeb n) eqn:PB; [|apply N; lia]. rewrite prime_c6; [lia|now apply primeb_spec|lia]. }
  assert (D : r = 2 \/ 3 <= r) by lia. destruct D as [->|D].
  - assert (0 <= sumr 1 (2 + 1) (fun n => if c6 n then f n else 0)) by (apply sumr_nonneg; intros; apply N; lia).
    assert (E2 : psum 2 2 f = f 2) by (unfold psum; rewrite sumr_snoc, sumr_empty by lia; change (primeb 2) with true; cbv iota; lia). lia.
  - rewrite (psum_split 2 3 r) by lia. assert (E2 : psum 2 3 f = f 2 + f 3).
    { unfold psum. change (3 + 1) with (2 + 1 + 1). rewrite !sumr_snoc, sumr_empty by lia. change (primeb 2) with true. change (primeb (2 + 1)) with true. cbv iota. change (2 + 1) with 3. lia. }
    rewrite E2. specialize (E (3 + 1) ltac:(lia)). rewrite (sumr_split 1 (3 + 1) (r + 1)) by lia.
    assert (0 <= sumr 1 (3 + 1) (fun n => if c6 n then f n else 0)) by (apply sumr_nonneg; intros; apply N; lia). lia.
Qed.
Lemma prime_sum_S6 t : prime_sum t <= S6 t + 5.
Proof.
  pose proof (S6_nonneg t). destruct (Z.lt_ge_cases t 2); [rewrite prime_sum_small; lia|]. rewrite prime_sum_psum.
  pose proof (psum_c6 t (fun n => n) ltac:(lia) ltac:(intros; lia)) as E. cbv beta in E. fold (S6 t) in E. lia.
Qed.
Lemma psum_le lo hi f g : (forall p, prime p -> lo <= p <= hi -> f p <= g p) -> psum lo hi f <= psum lo hi g.
Proof. intros H. apply sumr_le. intros p Hp. destruct (primeb p) eqn:E; [|lia]. apply H; [now apply primeb_spec|lia]. Qed.
Lemma psum_nonneg lo hi f : (forall p, prime p -> lo <= p <= hi -> 0 <= f p) -> 0 <= psum lo hi f.
Proof. intros H. apply sumr_nonneg. intros p Hp. destruct (primeb p) eqn:E; [|lia]. apply H; [now apply primeb_spec|lia]. Qed.
Lemma P2_quot_le x : 4 <= x -> psum 2 (Z.sqrt x) (fun p => p * prime_sum (x / p)) <= G6 x 0 (Z.sqrt x) + 2 * S6 (x / 2) + 3 * S6 (x / 3) + 5 * S6 (Z.sqrt x) + 25.
Proof.
  intros Hx. assert (R : 2 <= Z.sqrt x) by (change 2 with (Z.sqrt 4); apply Z.sqrt_le_mono; lia).
  eapply Z.le_trans; [apply psum_c6; auto; intros n Hn; pose proof (prime_sum_nonneg (x / n)); nia|].
  pose proof (prime_sum_S6 (x / 2)). pose proof (prime_sum_S6 (x / 3)).
  assert (sumr 1 (Z.sqrt x + 1) (fun n => if c6 n then n * prime_sum (x / n) else 0) <= G6 x 0 (Z.sqrt x) + 5 * S6 (Z.sqrt x)).
  { unfold G6, S6 at 2. change (0 + 1) with 1. rewrite <- sumr_scal, <- sumr_add. apply sumr_le. intros n Hn. pose proof (prime_sum_S6 (x / n)).
    destruct (c6 n); [nia|lia]. }
  cbv beta. lia.
Qed.
Lemma P2_low_le x : 4 <= x -> psum 2 (Z.sqrt x) (fun p => p * prime_sum p) <= (S6 (Z.sqrt x) + 5) * (S6 (Z.sqrt x) + 5).
Proof.
  intros Hx. set (r := Z.sqrt x). pose proof (prime_sum_S6 r). pose proof (prime_sum_nonneg r).
  apply Z.le_trans with (prime_sum r * prime_sum r); [|nia]. rewrite prime_sum_psum at 2. rewrite <- psum_scal. apply psum_le.
  intros p Pp Hp. pose proof (prime_ge_2 _ Pp). pose proof (prime_sum_mono p r ltac:(lia)). nia.
Qed.
Definition P2_abs (x : Z) : Z := psum 2 (Z.sqrt x) (fun p => p * prime_sum (x / p)) + 3 * psum 2 (Z.sqrt x) (fun p => p * prime_sum p).
Lemma sq_div x k : 0 <= x -> 0 < k -> k * k * (x / k * (x / k)) <= x * x.
Proof.
  intros Hx Hk. pose proof (Z.mul_div_le x k Hk). assert (0 <= x / k) by (apply Z.div_pos; lia). set (q := x / k) in *. clearbody q.
  replace (k * k * (q * q)) with ((k * q) * (k * q)) by ring. apply Z.mul_le_mono_nonneg; nia.
Qed.
Lemma sq_lin x r s : 0 <= x -> 0 <= r -> 0 <= s -> r * r <= x -> 6 * s <= x + 4 * r + 1 ->
  36 * ((s + 5) * (s + 5)) <= x * x + 8 * (r * x) + 78 * x + 248 * r + 961.
Proof.
  intros Hx Hr Hs RX Es. replace (36 * ((s + 5) * (s + 5))) with ((6 * s + 30) * (6 * s + 30)) by ring.
  apply Z.le_trans with ((x + 4 * r + 31) * (x + 4 * r + 31)); [apply Z.mul_le_mono_nonneg; lia|]. lia.
Qed.
Lemma P2_abs_le x J : 4 <= x -> 2 <= J -> Z.sqrt x <= 6 * 2 ^ J ->
  7560 * P2_abs x <= (4000 + 319 * J) * (x * x) + 2100 * x * Z.sqrt x + 90000 * x + 90000 * Z.sqrt x * x + 900000.
Proof.
  intros Hx HJ Hr. unfold P2_abs. pose proof (P2_quot_le x Hx) as A. pose proof (P2_low_le x Hx) as B. set (r := Z.sqrt x) in *.
  assert (R2 : 2 <= r) by (unfold r; change 2 with (Z.sqrt 4); apply Z.sqrt_le_mono; lia).
  assert (RX : r * r <= x) by (unfold r; apply Z.sqrt_spec; lia).
  assert (RX2 : r <= x) by nia.
  pose proof (G6_full x r J ltac:(lia) ltac:(lia) HJ Hr) as G.
  assert (D2 : 0 <= x / 2) by (apply Z.div_pos; lia). assert (D3 : 0 <= x / 3) by (apply Z.div_pos; lia).
  pose proof (S6_bound (x / 2) D2) as B2. pose proof (S6_bound (x / 3) D3) as B3. pose proof (S6_bound r ltac:(lia)) as Br.
  pose proof (Z.mul_div_le x 2 ltac:(lia)) as M2. pose proof (Z.mul_div_le x 3 ltac:(lia)) as M3.
  pose proof (S6_nonneg r) as N0. pose proof (S6_nonneg (x / 2)). pose proof (S6_nonneg (x / 3)).
  set (s := S6 r) in *. clearbody s. set (s2 := S6 (x / 2)) in *. set (s3 := S6 (x / 3)) in *. clearbody s2 s3.
  pose proof (sq_div x 2 ltac:(lia) ltac:(lia)) as T2. pose proof (sq_div x 3 ltac:(lia) ltac:(lia)) as T3.
  assert (E2 : 12 * (2 * s2) <= x * x + 8 * x + 8) by lia.
  assert (E3 : 18 * (3 * s3) <= x * x + 12 * x + 20) by lia.
  assert (Es : 6 * s <= x + 4 * r + 1) by lia. pose proof (sq_lin x r s ltac:(lia) ltac:(lia) N0 RX Es) as Ess.
  assert (RR : 4 * r <= r * x) by (rewrite Z.mul_comm; apply Z.mul_le_mono_nonneg_l; lia).
  clear B2 B3 Br M2 M3 T2 T3 D2 D3 HJ Hr. lia.
Qed.
Lemma P2_abs_128 x : 4 <= x < 2 ^ 63 -> P2_abs x <= 2 ^ 127 - 1.
Proof.
  intros Hx. assert (R : Z.sqrt x < 2 ^ 32) by (apply Z.sqrt_lt_square; lia).
  assert (R2 : Z.sqrt x <= 6 * 2 ^ 29).
  { apply Z.lt_succ_r. apply Z.sqrt_lt_square; [lia|lia|]. eapply Z.lt_le_trans; [apply Hx|]. apply Z.leb_le. reflexivity. }
  pose proof (Z.sqrt_nonneg x) as R0. pose proof (P2_abs_le x 29 ltac:(lia) ltac:(lia) R2) as B. set (r := Z.sqrt x) in *. clearbody r.
  assert (x * x <= 2 ^ 63 * 2 ^ 63) by nia. assert (x * r <= 2 ^ 63 * 2 ^ 32) by nia. lia.
Qed.
Lemma P2_abs_256 x : 4 <= x < 2 ^ 122 -> P2_abs x <= 2 ^ 255 - 1.
Proof.
  intros Hx. assert (R : Z.sqrt x < 2 ^ 61) by (apply Z.sqrt_lt_square; lia).
  pose proof (Z.sqrt_nonneg x) as R0. pose proof (P2_abs_le x 61 ltac:(lia) ltac:(lia) ltac:(lia)) as B. set (r := Z.sqrt x) in *. clearbody r.
  assert (x * x <= 2 ^ 122 * 2 ^ 122) by nia. assert (x * r <= 2 ^ 122 * 2 ^ 61) by nia. lia.
Qed.
