(** Number theory behind the method: rough numbers, Moebius, the recurrence of
    Phi, Meissel's formula, the split into ordinary and special leaves. *)
From Coq Require Import ZArith List Bool Lia Znumtheory Permutation.
From Verif.Base Require Import Zl.
From Verif.Spec Require Import Primes LMOSpec.
From Verif.Proofs Require Import Primes.
Import ListNotations.
Open Scope Z_scope.

Definition rough (a n : Z) : Prop := forall p, prime p -> pi p <= a -> ~ (p | n).

Lemma mod0_divide p n : 0 < p -> (n mod p =? 0) = true <-> (p | n).
Proof. intros H. rewrite Z.eqb_eq. apply Z.mod_divide. lia. Qed.
Lemma mod0_false p n : 0 < p -> (n mod p =? 0) = false <-> ~ (p | n).
Proof. intros H. rewrite <- mod0_divide by auto. destruct (n mod p =? 0); split; congruence. Qed.

Lemma roughb_spec a n : 1 <= n -> roughb a n = true <-> rough a n.
Proof.
  intros Hn. unfold roughb, rough. rewrite forallb_forall. split.
  - intros H p Hp Ha Hd. specialize (H p). assert (Hin : In p (primes_upto n)).
    { apply in_primes_upto. split; auto. apply Z.divide_pos_le; auto; lia. }
    specialize (H Hin). apply negb_true_iff in H. apply andb_false_iff in H.
    pose proof (prime_ge_2 p Hp). rewrite Z.leb_gt, mod0_false in H by lia. destruct H; [lia|contradiction].
  - intros H p Hin. apply in_primes_upto in Hin. destruct Hin as [Hp Hle].
    pose proof (prime_ge_2 p Hp). apply negb_true_iff. apply andb_false_iff.
    destruct (Z.le_gt_cases (pi p) a).
    + right. apply mod0_false; [lia|]. apply H; auto.
    + left. apply Z.leb_gt. lia.
Qed.
Lemma roughb_false a n : 1 <= n -> roughb a n = false <-> ~ rough a n.
Proof. intros H. rewrite <- roughb_spec by auto. destruct (roughb a n); split; congruence. Qed.
Lemma rough_dec a n : 1 <= n -> {rough a n} + {~ rough a n}.
Proof. intros H. destruct (roughb a n) eqn:E; [left; now apply roughb_spec|right; now apply roughb_false]. Qed.
Lemma roughb_iff a n b m : 1 <= n -> 1 <= m -> (rough a n <-> rough b m) -> roughb a n = roughb b m.
Proof.
  intros Hn Hm H. apply eq_true_iff_eq. rewrite !roughb_spec by auto. auto.
Qed.
Lemma roughb_le0 a n : a <= 0 -> 1 <= n -> roughb a n = true.
Proof. intros Ha Hn. apply roughb_spec; auto. intros p Hp H. pose proof (pi_pos_prime p Hp). lia. Qed.
Lemma roughb_1 a : roughb a 1 = true.
Proof. reflexivity. Qed.
Lemma rough_1 a : rough a 1. Proof. apply roughb_spec; [lia|apply roughb_1]. Qed.
Lemma rough_mono a b n : a <= b -> rough b n -> rough a n.
Proof. intros H R p Hp Ha. apply R; auto. lia. Qed.

(** adding one prime *)
Lemma rough_step p n : prime p -> (rough (pi p) n <-> rough (pi p - 1) n /\ ~ (p | n)).
Proof.
  intros Hp. split.
  - intros R. split; [apply (rough_mono _ (pi p)); auto; lia|]. apply R; auto. lia.
  - intros [R Hn] q Hq Ha. destruct (Z.eq_dec (pi q) (pi p)) as [e|ne].
    + apply prime_pi_inj in e; auto. now subst q.
    + apply R; auto. lia.
Qed.
Lemma roughb_step p n : prime p -> 1 <= n ->
  roughb (pi p) n = roughb (pi p - 1) n && negb (n mod p =? 0).
Proof.
  intros Hp Hn. pose proof (prime_ge_2 p Hp). apply eq_true_iff_eq.
  rewrite andb_true_iff, negb_true_iff, mod0_false, !roughb_spec by lia. now apply rough_step.
Qed.
(** multiplying by a prime of larger index *)
Lemma rough_mul a p m : prime p -> a < pi p -> (rough a (p * m) <-> rough a m).
Proof.
  intros Hp Ha. split.
  - intros R q Hq Hqa Hd. apply (R q Hq Hqa). now apply Z.divide_mul_r.
  - intros R q Hq Hqa Hd. apply prime_mult in Hd; auto. destruct Hd as [Hd|Hd].
    + apply prime_div_prime in Hd; auto. subst q. lia.
    + now apply (R q).
Qed.
Lemma roughb_mul a p m : prime p -> a < pi p -> 1 <= m -> roughb a (p * m) = roughb a m.
Proof. intros Hp Ha Hm. pose proof (prime_ge_2 p Hp). apply roughb_iff; try nia. now apply rough_mul. Qed.

(** ** The recurrence of Phi, for completely multiplicative weights *)
Definition mult (w : Z -> Z) : Prop := forall a b, 1 <= a -> 1 <= b -> w (a * b) = w a * w b.
Lemma mult_one : mult (fun _ => 1). Proof. intros a b; lia. Qed.
Lemma mult_id : mult (fun n => n). Proof. intros a b; lia. Qed.

Lemma Phi_small w x a : x < 1 -> Phi w x a = 0.
Proof. intros. unfold Phi. apply sumr_empty. lia. Qed.
Lemma Phi_rec w x p : mult w -> prime p ->
  Phi w x (pi p) = Phi w x (pi p - 1) - w p * Phi w (x / p) (pi p - 1).
Proof.
  intros Hw Hp. pose proof (prime_ge_2 p Hp). unfold Phi.
  assert (E : w p * sumr 1 (x / p + 1) (fun n => if roughb (pi p - 1) n then w n else 0) =
              sumr 1 (x + 1) (fun n => if n mod p =? 0 then (if roughb (pi p - 1) n then w n else 0) else 0)).
  { rewrite sumr_multiples by lia. rewrite <- sumr_scal. apply sumr_ext. intros m Hm.
    rewrite roughb_mul by (auto; lia). destruct (roughb _ m); [|lia]. symmetry. apply Hw; lia. }
  rewrite E, <- sumr_sub. apply sumr_ext. intros n Hn. rewrite roughb_step by (auto; lia).
  destruct (roughb (pi p - 1) n), (n mod p =? 0); simpl; lia.
Qed.
Lemma Phi_le0 w x a : a <= 0 -> Phi w x a = sumr 1 (x + 1) w.
Proof. intros Ha. apply sumr_ext. intros n Hn. rewrite roughb_le0 by lia. reflexivity. Qed.
Lemma sumr_id x : 0 <= x -> 2 * sumr 1 (x + 1) (fun n => n) = x * (x + 1).
Proof.
  revert x. apply natlike_ind.
  - reflexivity.
  - intros y Hy IH. unfold Z.succ. rewrite sumr_snoc by lia. lia.
Qed.
Lemma phi_sum_0 x : 0 <= x -> phi_sum x 0 = x * (x + 1) / 2.
Proof.
  intros Hx. unfold phi_sum. rewrite Phi_le0 by lia. pose proof (sumr_id x Hx).
  apply Z.div_unique_exact; lia.
Qed.
Lemma phi_0 x : 0 <= x -> phi x 0 = x.
Proof. intros Hx. unfold phi. rewrite Phi_le0, sumr_const by lia. lia. Qed.

(** ** Factorisation facts *)
Lemma exists_prime_divisor n : 2 <= n -> exists p, prime p /\ (p | n).
Proof.
  intros Hn. assert (H0 : 0 <= n) by lia. revert Hn. pattern n. apply Zlt_0_ind; [|exact H0]. clear n H0.
  intros n IH _ Hn. destruct (prime_dec' n) as [Hp|Hp].
  - exists n. split; auto. apply Z.divide_refl.
  - assert (exists d, 1 < d < n /\ (d | n)) as (d & Hd & Hdn).
    { destruct (primeb n) eqn:E. { now apply primeb_spec in E. }
      unfold primeb in E. apply andb_false_iff in E. destruct E as [E|E]; [apply Z.leb_gt in E; lia|].
      assert (exists d, In d (zrange 2 n) /\ n mod d =? 0 = true) as (d & Hin & Hm).
      { clear -E. induction (zrange 2 n) as [|d l IHl]; [discriminate|]. simpl in E.
        destruct (n mod d =? 0) eqn:Ed; [exists d; split; [now left|auto]|]. simpl in E.
        destruct (IHl E) as (d' & H1 & H2). exists d'. split; [now right|auto]. }
      apply in_zrange in Hin. exists d. split; [lia|]. apply mod0_divide; auto. lia. }
    destruct (IH d) as (p & Hp' & Hpd); try lia. exists p. split; auto. eapply Z.divide_trans; eauto.
Qed.
(** a composite number has a prime divisor p with p*p <= n *)
Lemma composite_divisor n : 2 <= n -> ~ prime n -> exists p, prime p /\ (p | n) /\ p * p <= n.
Proof.
  intros Hn Hnp. destruct (exists_prime_divisor n Hn) as (p & Hp & Hd).
  pose proof (prime_ge_2 p Hp). destruct Hd as [m Hm].
  assert (Hm1 : 1 < m).
  { destruct (Z.le_gt_cases m 1); auto. assert (m = 1) by nia. subst m. rewrite Z.mul_1_l in Hm. subst n. contradiction. }
  destruct (Z.le_gt_cases p m).
  - exists p. split; auto. split; [exists m; auto|nia].
  - destruct (exists_prime_divisor m ltac:(lia)) as (q & Hq & Hqd). exists q. split; auto. split.
    + eapply Z.divide_trans; eauto. exists p. lia.
    + apply Z.divide_pos_le in Hqd; [|lia]. pose proof (prime_ge_2 q Hq). rewrite Hm. apply Z.mul_le_mono_nonneg; lia.
Qed.

(** ** Legendre *)
Lemma psum_empty lo hi f : hi < lo -> psum lo hi f = 0.
Proof. intros. apply sumr_empty. lia. Qed.
Lemma psum_split lo mid hi f : lo <= mid + 1 -> mid <= hi -> psum lo hi f = psum lo mid f + psum (mid + 1) hi f.
Proof. intros. unfold psum. apply sumr_split. lia. Qed.
Lemma psum_succ lo hi f : lo <= hi + 1 -> psum lo (hi + 1) f = psum lo hi f + (if primeb (hi + 1) then f (hi + 1) else 0).
Proof. intros. unfold psum. rewrite sumr_snoc by lia. reflexivity. Qed.
Lemma psum_ext lo hi f g : (forall p, prime p -> lo <= p <= hi -> f p = g p) -> psum lo hi f = psum lo hi g.
Proof.
  intros H. apply sumr_ext. intros p Hp. destruct (primeb p) eqn:E; auto. apply H; [now apply primeb_spec|lia].
Qed.
Lemma psum_lo lo lo' hi f : lo' <= lo -> (forall p, prime p -> lo' <= p < lo -> p <= hi -> f p = 0) -> psum lo' hi f = psum lo hi f.
Proof.
  intros Hl H. destruct (Z.le_gt_cases lo (hi + 1)).
  - unfold psum. rewrite (sumr_split lo' lo (hi + 1)) by lia. rewrite sumr_zero; [lia|].
    intros i Hi. destruct (primeb i) eqn:E; auto. apply H; [now apply primeb_spec|lia|lia].
  - rewrite (psum_empty lo) by lia. apply sumr_zero. intros i Hi. destruct (primeb i) eqn:E; auto.
    apply H; [now apply primeb_spec|lia|lia].
Qed.
Lemma psum_2 lo hi f : lo <= 2 -> psum lo hi f = psum 2 hi f.
Proof. intros H. apply psum_lo; auto. intros p Hp. apply prime_ge_2 in Hp. lia. Qed.
Lemma psum_hi lo hi hi' f : hi <= hi' -> (forall p, prime p -> lo <= p -> hi < p <= hi' -> f p = 0) -> psum lo hi' f = psum lo hi f.
Proof.
  intros Hl H. destruct (Z.le_gt_cases lo (hi + 1)).
  - unfold psum. rewrite (sumr_split lo (hi + 1) (hi' + 1)) by lia. rewrite (sumr_zero (hi + 1)); [lia|].
    intros i Hi. destruct (primeb i) eqn:E; auto. apply H; [now apply primeb_spec|lia|lia].
  - rewrite (psum_empty lo hi) by lia. apply sumr_zero. intros i Hi. destruct (primeb i) eqn:E; auto.
    apply H; [now apply primeb_spec|lia|lia].
Qed.
Lemma psum_add lo hi f g : psum lo hi (fun p => f p + g p) = psum lo hi f + psum lo hi g.
Proof. unfold psum. rewrite <- sumr_add. apply sumr_ext. intros; destruct (primeb i); lia. Qed.
Lemma psum_sub lo hi f g : psum lo hi (fun p => f p - g p) = psum lo hi f - psum lo hi g.
Proof. unfold psum. rewrite <- sumr_sub. apply sumr_ext. intros; destruct (primeb i); lia. Qed.
Lemma psum_scal lo hi c f : psum lo hi (fun p => c * f p) = c * psum lo hi f.
Proof. unfold psum. rewrite <- sumr_scal. apply sumr_ext. intros; destruct (primeb i); lia. Qed.
Lemma psum_zero lo hi f : (forall p, prime p -> lo <= p <= hi -> f p = 0) -> psum lo hi f = 0.
Proof. intros H. rewrite (psum_ext _ _ f (fun _ => 0 * 0)) by auto. rewrite psum_scal. lia. Qed.
Lemma prime_sum_psum n : prime_sum n = psum 2 n (fun p => p).
Proof. unfold prime_sum, primes_upto, psum, sumr. apply lsum_filter. Qed.
Lemma pi_psum n : pi n = psum 2 n (fun _ => 1).
Proof.
  unfold pi, primes_upto, psum, sumr. rewrite <- (lsum_filter (fun _ => 1)), lsum_const. unfold zlen. lia.
Qed.

Lemma prime_rough p a : prime p -> a < pi p -> rough a p.
Proof.
  intros Hp Ha q Hq Hqa Hd. apply prime_div_prime in Hd; auto. subst q. lia.
Qed.

(** Rough numbers below q^2, when all primes below q are sifted out: 1 and primes *)
Lemma Phi_legendre w v q : 1 <= v -> 1 <= q -> v < q * q -> q - 1 <= v ->
  Phi w v (pi (q - 1)) = w 1 + psum q v w.
Proof.
  intros Hv Hq1 Hv2 Hq. unfold Phi. rewrite sumr_cons by lia. rewrite roughb_1. f_equal.
  transitivity (sumr 2 (v + 1) (fun n => if primeb n then (if q <=? n then w n else 0) else 0)).
  - apply sumr_ext. intros n Hn. destruct (primeb n) eqn:E.
    + apply primeb_spec in E. destruct (Z.leb_spec q n).
      * replace (roughb (pi (q - 1)) n) with true; auto. symmetry. apply roughb_spec; [lia|].
        apply prime_rough; auto. apply pi_lt_prime; auto. lia.
      * replace (roughb (pi (q - 1)) n) with false; auto. symmetry. apply roughb_false; [lia|].
        intros R. apply (R n); auto; [apply pi_mono; lia|apply Z.divide_refl].
    + apply primeb_false in E. replace (roughb (pi (q - 1)) n) with false; auto. symmetry. apply roughb_false; [lia|].
      intros R. destruct (composite_divisor n ltac:(lia) E) as (p & Hp & Hd & Hpp).
      apply (R p); auto. apply pi_mono. pose proof (prime_ge_2 p Hp). nia.
  - change (psum 2 v (fun n => if q <=? n then w n else 0) = psum q v w).
    destruct (Z.le_gt_cases q 2).
    + rewrite (psum_2 q v w) by lia. apply psum_ext.
      intros p _ Hp. destruct (Z.leb_spec q p); lia.
    + rewrite (psum_lo q 2); [|lia|].
      * apply psum_ext. intros p _ Hp. destruct (Z.leb_spec q p); lia.
      * intros p _ Hp _. destruct (Z.leb_spec q p); lia.
Qed.

(** telescoping over the primes in (lo, hi] *)
Lemma Phi_telescope w x lo hi : mult w -> lo <= hi ->
  Phi w x (pi lo) = Phi w x (pi hi) + psum (lo + 1) hi (fun p => w p * Phi w (x / p) (pi p - 1)).
Proof.
  intros Hw H. replace hi with (lo + (hi - lo)) by ring. assert (Hd : 0 <= hi - lo) by lia.
  generalize dependent (hi - lo). clear H. intros d Hd. pattern d. apply natlike_ind; [| |exact Hd].
  - rewrite Z.add_0_r, psum_empty by lia. lia.
  - intros k Hk IH. unfold Z.succ. rewrite IH. rewrite Z.add_assoc, psum_succ by lia.
    rewrite pi_succ. destruct (primeb (lo + k + 1)) eqn:E.
    + apply primeb_spec in E. pose proof (Phi_rec w x _ Hw E) as R.
      assert (P : pi (lo + k + 1) = pi (lo + k) + 1).
      { rewrite (pi_prime _ E). f_equal. f_equal. ring. }
      rewrite P in R. replace (pi (lo + k) + 1 - 1) with (pi (lo + k)) in * by ring. lia.
    + rewrite !Z.add_0_r. lia.
Qed.

(** ** Meissel's formula *)
Theorem meissel w x y : mult w -> 1 <= y <= x -> x < (y + 1) ^ 3 ->
  Phi w x (pi y) = w 1 + psum (y + 1) x w + psum (y + 1) x (fun p => psum p (x / p) (fun q => w p * w q)).
Proof.
  intros Hw Hy Hx3. set (r := Z.max y (Z.sqrt x)).
  assert (Hr : x < (r + 1) * (r + 1)).
  { pose proof (Z.sqrt_spec x ltac:(lia)). unfold Z.succ in *. unfold r. nia. }
  assert (Hrx : r <= x).
  { unfold r. pose proof (Z.sqrt_le_lin x ltac:(lia)). lia. }
  assert (Hyr : y <= r) by (unfold r; lia).
  rewrite (Phi_telescope w x y r) by auto.
  replace r with (r + 1 - 1) at 1 by ring. rewrite Phi_legendre by lia.
  rewrite (psum_split (y + 1) r x w) by lia.
  rewrite (psum_hi (y + 1) r x (fun p => psum p (x / p) _)); [|lia|].
  2:{ intros p Hp H1 H2. apply psum_empty. apply Z.div_lt_upper_bound; nia. }
  assert (E : psum (y + 1) r (fun p => w p * Phi w (x / p) (pi p - 1)) =
    psum (y + 1) r w + psum (y + 1) r (fun p => psum p (x / p) (fun q => w p * w q))).
  2:{ lia. }
  rewrite <- psum_add. apply psum_ext. intros p Hp Hpr.
  assert (Hps : p * p <= x).
  { assert (p <= Z.sqrt x) by (unfold r in *; lia). destruct (Z.sqrt_spec x ltac:(lia)) as [Hs _]. pose proof (prime_ge_2 p Hp).
    assert (p * p <= Z.sqrt x * Z.sqrt x) by (apply Z.mul_le_mono_nonneg; lia). lia. }
  assert (Hpd : p <= x / p) by (apply Z.div_le_lower_bound; lia).
  replace (pi p - 1) with (pi (p - 1)) by (rewrite (pi_prime p Hp); lia).
  rewrite Phi_legendre; [|lia|lia| |lia].
  - rewrite psum_scal. assert (w p = w p * w 1) by (rewrite <- Hw by lia; f_equal; lia). lia.
  - apply Z.div_lt_upper_bound; [lia|].
    assert (H3 : (y + 1) ^ 3 <= p ^ 3) by (apply Z.pow_le_mono_l; lia).
    replace (p ^ 3) with (p * (p * p)) in H3 by ring. lia.
Qed.

Corollary meissel_sum x y : 1 <= y <= x -> x < (y + 1) ^ 3 ->
  prime_sum x = phi_sum x (pi y) + prime_sum y - 1 - P2_sum x y.
Proof.
  intros H1 H2. unfold phi_sum. rewrite (meissel (fun n => n)); auto; [|apply mult_id].
  rewrite !prime_sum_psum. unfold P2_sum. destruct (Z.eq_dec y 1).
  - subst y. rewrite (psum_empty 2 1) by lia. replace (1 + 1) with 2 by lia. lia.
  - rewrite (psum_split 2 y x) by lia. lia.
Qed.
Corollary meissel_count x y : 1 <= y <= x -> x < (y + 1) ^ 3 ->
  pi x = phi x (pi y) + pi y - 1 - P2_count x y.
Proof.
  intros H1 H2. unfold phi. rewrite (meissel (fun n => 1)); auto; [|apply mult_one].
  rewrite (pi_psum x), (pi_psum y) at 1. unfold P2_count. change (1 * 1) with 1. destruct (Z.eq_dec y 1).
  - subst y. rewrite (psum_empty 2 1) by lia. replace (1 + 1) with 2 by lia. lia.
  - rewrite (psum_split 2 y x) by lia. lia.
Qed.
