(** The Moebius function and the split of phi_sum into leaves. *)
From Coq Require Import ZArith List Bool Lia Znumtheory Permutation.
From Verif.Base Require Import Zl.
From Verif.Spec Require Import Primes LMOSpec.
From Verif.Proofs Require Import Primes NT.
Import ListNotations.
Open Scope Z_scope.

Lemma primes_upto_NoDup n : NoDup (primes_upto n).
Proof. apply NoDup_filter, zrange_NoDup. Qed.
Lemma in_prime_divisors n p : 1 <= n -> In p (prime_divisors n) <-> prime p /\ (p | n).
Proof.
  intros Hn. unfold prime_divisors. rewrite filter_In, in_primes_upto. split.
  - intros [[Hp _] H]. split; auto. apply mod0_divide in H; auto. apply prime_ge_2 in Hp. lia.
  - intros [Hp Hd]. pose proof (prime_ge_2 p Hp). split; [split; auto; apply Z.divide_pos_le; auto; lia|].
    apply mod0_divide; auto; lia.
Qed.
Lemma prime_divisors_NoDup n : NoDup (prime_divisors n).
Proof. apply NoDup_filter, primes_upto_NoDup. Qed.
Definition squarefree (n : Z) : Prop := forall p, prime p -> ~ (p * p | n).
Lemma squarefreeb_spec n : 1 <= n -> squarefreeb n = true <-> squarefree n.
Proof.
  intros Hn. unfold squarefreeb, squarefree. rewrite forallb_forall. split.
  - intros H p Hp Hd. pose proof (prime_ge_2 p Hp).
    assert (Hin : In p (primes_upto n)).
    { apply in_primes_upto. split; auto. apply Z.divide_pos_le in Hd; nia. }
    apply H in Hin. apply negb_true_iff in Hin. apply mod0_false in Hin; [contradiction|nia].
  - intros H p Hin. apply in_primes_upto in Hin. destruct Hin as [Hp _]. pose proof (prime_ge_2 p Hp).
    apply negb_true_iff. apply mod0_false; [nia|]. auto.
Qed.
Lemma squarefreeb_false n : 1 <= n -> squarefreeb n = false <-> exists p, prime p /\ (p * p | n).
Proof.
  intros Hn. split.
  - unfold squarefreeb. intros H.
    assert (exists p, In p (primes_upto n) /\ n mod (p * p) =? 0 = true) as (p & Hin & Hm).
    { clear -H. induction (primes_upto n) as [|d l IHl]; [discriminate|]. simpl in H.
      destruct (n mod (d * d) =? 0) eqn:Ed; [exists d; split; [now left|auto]|]. simpl in H.
      destruct (IHl H) as (d' & H1 & H2). exists d'. split; [now right|auto]. }
    apply in_primes_upto in Hin. destruct Hin as [Hp _]. pose proof (prime_ge_2 p Hp).
    exists p. split; auto. apply mod0_divide in Hm; auto. nia.
  - intros (p & Hp & Hd). destruct (squarefreeb n) eqn:E; auto. apply squarefreeb_spec in E; auto. now apply E in Hd.
Qed.

Lemma mu_1 : mu 1 = 1. Proof. reflexivity. Qed.
Lemma mu_mul_div p m : prime p -> 1 <= m -> (p | m) -> mu (p * m) = 0.
Proof.
  intros Hp Hm Hd. pose proof (prime_ge_2 p Hp). unfold mu.
  replace (squarefreeb (p * m)) with false; auto. symmetry. apply squarefreeb_false; [nia|].
  exists p. split; auto. apply Z.mul_divide_mono_l. auto.
Qed.
Lemma prime_sq_divide p q m : prime p -> prime q -> ~ (p | m) -> (q * q | p * m) -> (q * q | m).
Proof.
  intros Hp Hq Hn Hd. destruct (Z.eq_dec q p) as [->|Hne].
  - destruct Hd as [k Hk]. elim Hn. exists k. pose proof (prime_ge_2 p Hp). nia.
  - apply Gauss with p; auto. apply rel_prime_sym. apply rel_prime_mult; apply prime_rel_prime; auto;
    intros Hd'; apply Hne; symmetry; apply prime_div_prime; auto.
Qed.
Lemma mu_mul p m : prime p -> 1 <= m -> ~ (p | m) -> mu (p * m) = - mu m.
Proof.
  intros Hp Hm Hn. pose proof (prime_ge_2 p Hp). unfold mu.
  replace (squarefreeb (p * m)) with (squarefreeb m).
  2:{ destruct (squarefreeb m) eqn:E; symmetry.
      - apply squarefreeb_spec; [nia|]. apply squarefreeb_spec in E; auto. intros q Hq Hd.
        apply (E q Hq). apply (prime_sq_divide p); auto.
      - apply squarefreeb_false; [nia|]. apply squarefreeb_false in E; auto. destruct E as (q & Hq & Hd).
        exists q. split; auto. now apply Z.divide_mul_r. }
  destruct (squarefreeb m); auto.
  assert (P : Permutation (prime_divisors (p * m)) (p :: prime_divisors m)).
  { apply NoDup_Permutation.
    - apply prime_divisors_NoDup.
    - constructor; [|apply prime_divisors_NoDup]. rewrite in_prime_divisors by lia. tauto.
    - intros q. simpl. rewrite !in_prime_divisors by nia. split.
      + intros [Hq Hd]. apply prime_mult in Hd; auto. destruct Hd as [Hd|Hd]; auto.
        left. symmetry. apply prime_div_prime; auto.
      + intros [<- | [Hq Hd]]; (split; [auto|]); [apply Z.divide_factor_l|now apply Z.divide_mul_r]. }
  apply Permutation_length in P. unfold zlen. rewrite P. simpl length. rewrite Nat2Z.inj_succ, Z.pow_succ_r by lia. lia.
Qed.
Lemma mu_prime p : prime p -> mu p = -1.
Proof.
  intros Hp. rewrite <- (Z.mul_1_r p), mu_mul, mu_1; auto; [lia|]. intros Hd. apply Z.divide_1_r_nonneg in Hd; [|apply prime_ge_2 in Hp; lia].
  subst p. now apply not_prime_1 in Hp.
Qed.
Lemma mu_values n : mu n = 0 \/ mu n = 1 \/ mu n = -1.
Proof.
  unfold mu. destruct (squarefreeb n); auto. right. unfold zlen.
  induction (length (prime_divisors n)) as [|k IH]; auto. rewrite Nat2Z.inj_succ, Z.pow_succ_r by lia. lia.
Qed.

(** ** Leaves *)
Definition T (w : Z -> Z) (x y b : Z) : Z :=
  sumr 1 (y + 1) (fun n => if roughb b n then mu n * w n * Phi w (x / n) b else 0).

Lemma T_step w x y p : mult w -> prime p -> 0 <= x -> 1 <= y ->
  T w x y (pi p - 1) = T w x y (pi p) +
    sumr (y / p + 1) (y + 1) (fun m => if roughb (pi p) m then mu m * w (p * m) * Phi w (x / (p * m)) (pi p - 1) else 0).
Proof.
  intros Hw Hp Hx Hy. pose proof (prime_ge_2 p Hp) as Hp2. unfold T.
  set (b := pi p - 1).
  set (G := fun m => if roughb (pi p) m then mu m * w (p * m) * Phi w (x / (p * m)) b else 0).
  (* multiples of p *)
  assert (E1 : sumr 1 (y + 1) (fun n => if n mod p =? 0 then (if roughb b n then mu n * w n * Phi w (x / n) b else 0) else 0) =
    - sumr 1 (y / p + 1) G).
  { rewrite sumr_multiples by lia. rewrite <- sumr_opp. apply sumr_ext. intros m Hm.
    unfold G. rewrite (roughb_mul b p m) by (auto; unfold b; lia). rewrite roughb_step by (auto; lia). fold b.
    destruct (roughb b m); simpl; auto. destruct (m mod p =? 0) eqn:E.
    - rewrite mu_mul_div; [reflexivity|auto|lia|]. apply mod0_divide; auto; lia.
    - rewrite mu_mul; auto; [cbn [negb]; ring|lia|]. apply mod0_false; auto; lia. }
  assert (E2 : sumr 1 (y + 1) (fun n => if roughb b n then mu n * w n * Phi w (x / n) b else 0) =
    sumr 1 (y + 1) (fun n => if n mod p =? 0 then (if roughb b n then mu n * w n * Phi w (x / n) b else 0) else 0) +
    sumr 1 (y + 1) (fun n => if roughb (pi p) n then mu n * w n * Phi w (x / n) b else 0)).
  { rewrite <- sumr_add. apply sumr_ext. intros n Hn. rewrite roughb_step by (auto; lia). fold b.
    destruct (n mod p =? 0), (roughb b n); simpl; lia. }
  rewrite E2, E1. clear E1 E2.
  assert (E3 : sumr 1 (y + 1) (fun n => if roughb (pi p) n then mu n * w n * Phi w (x / n) (pi p) else 0) =
    sumr 1 (y + 1) (fun n => if roughb (pi p) n then mu n * w n * Phi w (x / n) b else 0) - sumr 1 (y + 1) G).
  { rewrite <- sumr_sub. apply sumr_ext. intros n Hn. unfold G. destruct (roughb (pi p) n); [|lia].
    rewrite (Phi_rec w (x / n) p) by auto. fold b. rewrite Z.div_div by lia. rewrite (Z.mul_comm n p).
    rewrite Hw by lia. ring. }
  rewrite E3. rewrite (sumr_split 1 (y / p + 1) (y + 1) G); [lia|].
  assert (0 <= y / p) by (apply Z.div_pos; lia). assert (y / p <= y) by (apply Z.div_le_upper_bound; nia). lia.
Qed.

Lemma rough_above y n : 1 <= n <= y -> rough (pi y) n -> n = 1.
Proof.
  intros Hn R. destruct (Z.eq_dec n 1); auto. destruct (exists_prime_divisor n ltac:(lia)) as (p & Hp & Hd).
  elim (R p Hp); auto. apply pi_mono. apply Z.divide_pos_le in Hd; lia.
Qed.
Lemma T_top w x y : mult w -> w 1 = 1 -> 1 <= y -> T w x y (pi y) = Phi w x (pi y).
Proof.
  intros Hw W1 Hy. unfold T. rewrite (sumr_single 1 (y + 1) 1); [|lia|].
  2:{ intros n Hn Hn1. destruct (roughb (pi y) n) eqn:E; auto. apply roughb_spec in E; [|lia]. apply rough_above in E; lia. }
  rewrite roughb_1, mu_1, W1, Z.div_1_r. lia.
Qed.

Definition leafw (w : Z -> Z) (x p m : Z) : Z :=
  if roughb (pi p) m then - (mu m * w (p * m) * Phi w (x / (p * m)) (pi p - 1)) else 0.

Lemma T_leaves w x y lo hi : mult w -> 0 <= x -> 1 <= y -> lo <= hi ->
  T w x y (pi hi) = T w x y (pi lo) +
    psum (lo + 1) hi (fun p => sumr (y / p + 1) (y + 1) (leafw w x p)).
Proof.
  intros Hw Hx Hy H. replace hi with (lo + (hi - lo)) by ring. assert (Hd : 0 <= hi - lo) by lia.
  generalize dependent (hi - lo). clear H. intros d Hd. pattern d. apply natlike_ind; [| |exact Hd].
  - rewrite Z.add_0_r, psum_empty by lia. lia.
  - intros k Hk IH. unfold Z.succ. rewrite Z.add_assoc, psum_succ by lia.
    destruct (primeb (lo + k + 1)) eqn:E.
    + apply primeb_spec in E. pose proof (T_step w x y _ Hw E Hx Hy) as R.
      assert (P : pi (lo + k) = pi (lo + k + 1) - 1).
      { rewrite (pi_prime _ E). replace (lo + k + 1 - 1) with (lo + k) by ring. lia. }
      rewrite P in IH.
      assert (L : sumr (y / (lo + k + 1) + 1) (y + 1) (leafw w x (lo + k + 1)) = -
        sumr (y / (lo + k + 1) + 1) (y + 1) (fun m => if roughb (pi (lo + k + 1)) m then mu m * w ((lo + k + 1) * m) * Phi w (x / ((lo + k + 1) * m)) (pi (lo + k + 1) - 1) else 0)).
      { rewrite <- sumr_opp. apply sumr_ext. intros m Hm. unfold leafw. destruct (roughb _ m); lia. }
      rewrite L. lia.
    + rewrite pi_succ, E, !Z.add_0_r. lia.
Qed.

(** phi_sum = ordinary + special leaves *)
Theorem lmo_split x y c : 0 <= x -> 1 <= y -> 0 <= c <= pi y ->
  phi_sum x (pi y) = S1_sum x y c + S2_sum x y c.
Proof.
  intros Hx Hy Hc. unfold phi_sum.
  rewrite <- (T_top (fun n => n) x y) by (auto using mult_id).
  destruct (Z.eq_dec c 0) as [->|Hc0].
  - rewrite (T_leaves (fun n => n) x y 1 y) by (auto using mult_id; lia).
    change (pi 1) with 0. unfold S1_sum, T. f_equal. unfold S2_sum. apply psum_ext. intros p Hp _.
    pose proof (pi_pos_prime p Hp). destruct (Z.ltb_spec 0 (pi p)); [reflexivity|lia].
  - destruct (nth_prime_exists y c ltac:(lia)) as (q & Hq & Eq & Hqy). pose proof (prime_ge_2 q Hq).
    rewrite (T_leaves (fun n => n) x y q y) by (auto using mult_id; lia). rewrite Eq. unfold S1_sum, T. f_equal.
    unfold S2_sum. rewrite (psum_lo (q + 1) 2); [|lia|].
    + apply psum_ext. intros p Hp Hpr. destruct (Z.ltb_spec c (pi p)) as [L|L]; [reflexivity|].
      rewrite <- Eq in L. apply (prime_pi_le p q Hp) in L. lia.
    + intros p Hp Hpr _. destruct (Z.ltb_spec c (pi p)) as [L|L]; auto.
      rewrite <- Eq in L. apply (prime_pi_lt q p Hq Hp) in L. lia.
Qed.
