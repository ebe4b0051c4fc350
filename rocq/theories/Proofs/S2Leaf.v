(** The classes of special leaves as sums over primes. *)
From Coq Require Import ZArith List Bool Lia Znumtheory.
From Verif.Base Require Import Res Word Zl Arr.
From Verif.Spec Require Import Primes LMOSpec S2Spec.
From Verif.Proofs Require Import Primes NT LMO Tables PhiSum Leaf.
Import ListNotations.
Open Scope Z_scope.
Local Ltac Zify.zify_post_hook ::= idtac.

(** *** Quotients *)
Lemma div_lt_iff a b q : 0 < b -> a / b < q <-> a < b * q.
Proof.
  intros Hb. split; intros H.
  - pose proof (Z.mul_succ_div_gt a b Hb). assert (b * Z.succ (a / b) <= b * q) by (apply Z.mul_le_mono_nonneg_l; lia). lia.
  - apply Z.div_lt_upper_bound; lia.
Qed.
Lemma div_le_iff a b q : 0 < b -> q <= a / b <-> b * q <= a.
Proof. intros Hb. pose proof (div_lt_iff a b q Hb). lia. Qed.

(** *** Small values of phi_sum *)
Lemma phi_sum_one n p : prime p -> 1 <= n < p -> phi_sum n (pi p - 1) = 1.
Proof.
  intros Hp Hn. unfold phi_sum, Phi. rewrite pi_prime by auto. replace (pi (p - 1) + 1 - 1) with (pi (p - 1)) by ring.
  rewrite (sumr_single 1 (n + 1) 1); [now rewrite roughb_1|lia|].
  intros m Hm Hm1. destruct (roughb (pi (p - 1)) m) eqn:R; auto. apply roughb_spec in R; [|lia].
  apply rough_above in R; lia.
Qed.
Lemma phi_sum_sums n p : prime p -> p <= n < p * p -> phi_sum n (pi p - 1) = prime_sum n + 1 - prime_sum (p - 1).
Proof.
  intros Hp Hn. pose proof (prime_ge_2 p Hp). rewrite pi_prime by auto. replace (pi (p - 1) + 1 - 1) with (pi (p - 1)) by ring.
  unfold phi_sum. rewrite Phi_legendre by lia. rewrite !prime_sum_psum.
  rewrite (psum_split 2 (p - 1) n) by lia. replace (p - 1 + 1) with p by ring. ring.
Qed.

(** *** For p > sqrt(y) the leaves are products of two primes *)
Lemma leaf_pq x p m : prime p -> 2 <= m < p * p ->
  leaf x p m = if primeb m then (if p <? m then p * m * phi_sum (x / (p * m)) (pi p - 1) else 0) else 0.
Proof.
  intros Hp Hm. unfold leaf. destruct (primeb m) eqn:E.
  - apply primeb_spec in E. rewrite (mu_prime m E). destruct (Z.ltb_spec p m).
    + assert (R : roughb (pi p) m = true) by (apply roughb_spec; [lia|]; apply prime_rough; auto; now apply pi_lt_prime).
      rewrite R. ring.
    + assert (R : roughb (pi p) m = false).
      { destruct (roughb (pi p) m) eqn:R; auto. apply roughb_spec in R; [|lia]. elim (R m E); [now apply pi_mono|apply Z.divide_refl]. }
      now rewrite R.
  - destruct (roughb (pi p) m) eqn:R; auto. exfalso. apply roughb_spec in R; [|lia].
    assert (NP : ~ prime m) by (intros P; apply primeb_spec in P; congruence).
    destruct (composite_divisor m ltac:(lia) NP) as (q & Hq & Hd & Hqq).
    apply (R q Hq); auto. apply pi_mono. pose proof (prime_ge_2 _ Hp). pose proof (prime_ge_2 _ Hq).
    destruct (Z.le_gt_cases q p); auto. assert (p * p < q * q) by (apply Z.mul_lt_mono_nonneg; lia). lia.
Qed.

Lemma psum_window a b lo hi (cond : Z -> bool) f :
  a <= lo + 1 -> hi <= b ->
  (forall q, prime q -> a <= q <= b -> cond q = true <-> lo < q <= hi) ->
  psum a b (fun q => if cond q then f q else 0) = psum (lo + 1) hi f.
Proof.
  intros Ha Hb H.
  assert (Hext : forall q, prime q -> a <= q <= b -> (lo < q <= hi -> cond q = true) /\ (~ lo < q <= hi -> cond q = false)).
  { intros q Hq Hr. specialize (H q Hq Hr). split; intros; [tauto|]. destruct (cond q); auto. elim H0. tauto. }
  rewrite (psum_lo (lo + 1) a b) by (auto; intros q Hq H1 H2; destruct (Hext q Hq ltac:(lia)) as [_ E]; rewrite E; auto; lia).
  rewrite (psum_hi (lo + 1) hi b) by (auto; intros q Hq H1 H2; destruct (Hext q Hq ltac:(lia)) as [_ E]; rewrite E; auto; lia).
  apply psum_ext. intros q Hq Hr. destruct (Hext q Hq ltac:(lia)) as [E _]. rewrite E; auto. lia.
Qed.

(** The leaves of one prime p > sqrt(y) satisfying P, when these are the ones in a window. *)
Lemma leaves_window (P : Z -> bool) x y p lo hi : prime p -> 2 <= p <= y -> y < p * p ->
  y / p <= lo -> p <= lo -> hi <= y ->
  (forall q, prime q -> y / p < q <= y -> p < q -> P q = true <-> lo < q <= hi) ->
  sumr (y / p + 1) (y + 1) (fun m => if P m then leaf x p m else 0)
  = psum (lo + 1) hi (fun q => p * q * phi_sum (x / (p * q)) (pi p - 1)).
Proof.
  intros Hp Hpy Hyp Hlo1 Hlo2 Hhi HP.
  assert (1 <= y / p) by (apply Z.div_le_lower_bound; lia).
  rewrite <- (psum_window (y / p + 1) y lo hi (fun q => (p <? q) && P q)); [|lia|lia|].
  - unfold psum. apply sumr_ext. intros m Hm. rewrite leaf_pq by (auto; lia).
    destruct (P m), (primeb m), (p <? m); reflexivity.
  - intros q Hq Hr. rewrite andb_true_iff, Z.ltb_lt. destruct (Z.lt_ge_cases p q).
    + rewrite HP by (auto; lia). tauto.
    + lia.
Qed.

(** *** Trivial leaves *)
Section Bounds.
  Context (x y z c : Z).
  Hypothesis (Hy : 1 <= y) (Hyx : y * y <= x) (Hz : z = x / y).
  Lemma y_le_z : y <= z. Proof. subst z. apply Z.div_le_lower_bound; lia. Qed.
  Lemma div_z p m : 1 <= p -> 1 <= m <= y -> z / p <= x / (p * m).
  Proof.
    intros Hp Hm. assert (0 <= x) by (pose proof (Z.square_nonneg y); lia). subst z.
    rewrite Z.div_div by lia. apply Z.div_le_compat_l; [lia|]. split; [nia|]. rewrite (Z.mul_comm y p). apply Z.mul_le_mono_nonneg_l; lia.
  Qed.

  Lemma trivial_none p : prime p -> p * p <= z -> p <= y ->
    sumr (y / p + 1) (y + 1) (fun m => if trivial_leaf x p m then leaf x p m else 0) = 0.
  Proof.
    intros Hp Hpz Hpy. pose proof (prime_ge_2 p Hp). apply sumr_zero. intros m Hm. unfold trivial_leaf.
    assert (1 <= y / p) by (apply Z.div_le_lower_bound; lia).
    pose proof (div_z p m ltac:(lia) ltac:(lia)).
    assert (p <= z / p) by (apply Z.div_le_lower_bound; lia).
    destruct (Z.ltb_spec (x / (p * m)) p); [lia|reflexivity].
  Qed.

  Lemma trivial_some p : prime p -> z < p * p -> p <= y ->
    0 <= x / (p * p) < y /\
    sumr (y / p + 1) (y + 1) (fun m => if trivial_leaf x p m then leaf x p m else 0)
    = p * (prime_sum y - prime_sum (Z.max (x / (p * p)) p)).
  Proof.
    intros Hp Hpz Hpy. pose proof (prime_ge_2 p Hp) as H2. pose proof y_le_z as Hyz.
    assert (Hpp : 0 < p * p) by (apply Z.mul_pos_pos; lia).
    assert (Hx0 : 0 <= x) by (pose proof (Z.square_nonneg y); lia).
    assert (Hlt : x / (p * p) < y).
    { apply div_lt_iff; auto. subst z. apply (proj1 (div_lt_iff x y (p * p) ltac:(lia))) in Hpz; lia. }
    assert (Hq0 : y / p <= x / (p * p)).
    { apply div_le_iff; auto. assert (p * (y / p) <= y) by (apply Z.mul_div_le; lia).
      assert (0 <= y / p) by (apply Z.div_pos; lia). assert (p * (y / p) * (p * (y / p)) <= y * y) by (apply Z.mul_le_mono_nonneg; nia). nia. }
    split; [split; [apply Z.div_pos; lia|exact Hlt]|].
    rewrite (leaves_window _ x y p (Z.max (x / (p * p)) p) y); try lia; auto.
    - rewrite (psum_ext _ _ _ (fun q => p * q)).
      + rewrite (psum_scal _ _ p (fun q => q)). f_equal. rewrite !prime_sum_psum.
        rewrite (psum_split 2 (Z.max (x / (p * p)) p) y) by lia. ring.
      + intros q Hq Hr. rewrite phi_sum_one; auto; [ring|]. split.
        * pose proof (div_z p q ltac:(lia) ltac:(lia)). assert (1 <= z / p) by (apply Z.div_le_lower_bound; lia). lia.
        * assert (0 < p * q) by nia. apply div_lt_iff; auto. assert (D : x / (p * p) < q) by lia. apply (proj1 (div_lt_iff _ _ _ Hpp)) in D; lia.
    - intros q Hq Hr Hpq. unfold trivial_leaf. rewrite Z.ltb_lt. rewrite div_lt_iff by nia.
      pose proof (div_lt_iff x (p * p) q Hpp). split; intros.
      + split; [|lia]. assert (x / (p * p) < q) by (apply H; lia). lia.
      + assert (x / (p * p) < q) by lia. apply H in H1. lia.
  Qed.

  Definition trivial_term (p : Z) : Z := p * (prime_sum y - prime_sum (Z.max (x / (p * p)) p)).
  Lemma S2_trivial_terms pc : 0 <= c -> 1 <= pc -> (forall p, prime p -> p <= y -> c < pi p <-> pc < p) ->
    S2_trivial_sum x y c = psum (Z.max pc (Z.sqrt z) + 1) (y - 1) trivial_term.
  Proof.
    intros Hc Hpc1 Hpc. unfold S2_trivial_sum, S2_part. pose proof y_le_z as Hyz.
    assert (Hsq : Z.sqrt z * Z.sqrt z <= z < (Z.sqrt z + 1) * (Z.sqrt z + 1)) by (apply Z.sqrt_spec; lia).
    pose proof (Z.sqrt_nonneg z).
    rewrite <- (psum_hi _ (y - 1) y trivial_term) by
      (try lia; intros p Hp Hl Hr; replace p with y in * by lia; unfold trivial_term;
       assert (Hyy : z < y * y) by (assert ((Z.sqrt z + 1) * (Z.sqrt z + 1) <= y * y) by (apply Z.mul_le_mono_nonneg; lia); lia);
       destruct (trivial_some y Hp Hyy ltac:(lia)) as [Hlt _]; rewrite Z.max_r by lia; ring).
    rewrite (psum_lo (Z.max pc (Z.sqrt z) + 1) 2); [|lia|].
    - apply psum_ext. intros p Hp Hr. assert (C : c <? pi p = true) by (apply Z.ltb_lt, Hpc; auto; lia). rewrite C.
      apply trivial_some; auto; [|lia]. assert ((Z.sqrt z + 1) * (Z.sqrt z + 1) <= p * p) by (apply Z.mul_le_mono_nonneg; lia). lia.
    - intros p Hp Hr Hpy. destruct (Z.ltb_spec c (pi p)) as [C|C]; auto. apply trivial_none; auto.
      apply Hpc in C; auto. assert (p * p <= Z.sqrt z * Z.sqrt z) by (apply Z.mul_le_mono_nonneg; lia). lia.
  Qed.
End Bounds.

(** *** Easy leaves *)
Section Easy.
  Context (x y z c : Z).
  Hypothesis (Hy : 1 <= y) (Hyx : y * y <= x) (Hz : z = x / y).

  Definition easy_lo (p : Z) : Z := Z.max (Z.max (y / p) p) (z / p).
  Definition easy_hi (p : Z) : Z := Z.min (x / (p * p)) y.
  Definition easy_term (p q : Z) : Z := p * q * (prime_sum (x / (p * q)) + 1 - prime_sum (p - 1)).

  Lemma easy_cond p q : prime p -> p <= y -> y < p * p -> p < q <= y -> 
    easy_leaf x y p q = true <-> easy_lo p < q <= easy_hi p.
  Proof.
    intros Hp Hpy Hyp Hq. pose proof (prime_ge_2 p Hp) as H2. unfold easy_leaf, trivial_leaf, easy_lo, easy_hi.
    assert (0 < p * p) by nia. assert (0 < p * q) by nia.
    rewrite !andb_true_iff, negb_true_iff, Z.ltb_ge, !Z.ltb_lt.
    rewrite (div_le_iff x (p * q) p) by lia. rewrite (div_lt_iff x (p * q) y) by lia.
    pose proof (div_le_iff x (p * p) q ltac:(lia)) as D1. replace (p * p * q) with (p * q * p) in D1 by ring.
    pose proof (div_lt_iff z p q ltac:(lia)) as D2.
    pose proof (div_lt_iff x y (p * q) ltac:(lia)) as D3. rewrite <- Hz in D3. replace (y * (p * q)) with (p * q * y) in D3 by ring.
    pose proof (y_le_z x y z Hy Hyx Hz) as Hyz. assert (y / p <= z / p) by (apply Z.div_le_mono; lia).
    split.
    - intros [[A B] C]. assert (z / p < q) by (apply D2, D3; lia). assert (q <= x / (p * p)) by (apply D1; lia). lia.
    - intros [A B]. split; [split|]; auto; [apply D1; lia|]. apply D3, D2. lia.
  Qed.
  Lemma easy_value p q : prime p -> p <= y -> y < p * p -> p < q <= y -> easy_lo p < q <= easy_hi p ->
    p <= x / (p * q) < y /\ phi_sum (x / (p * q)) (pi p - 1) = prime_sum (x / (p * q)) + 1 - prime_sum (p - 1).
  Proof.
    intros Hp Hpy Hyp Hq Hr. apply easy_cond in Hr; auto. unfold easy_leaf, trivial_leaf in Hr.
    rewrite !andb_true_iff, negb_true_iff, Z.ltb_ge, !Z.ltb_lt in Hr. split; [lia|]. apply phi_sum_sums; auto. lia.
  Qed.
  Lemma easy_prime p : prime p -> p <= y -> y < p * p ->
    sumr (y / p + 1) (y + 1) (fun m => if easy_leaf x y p m then leaf x p m else 0)
    = psum (easy_lo p + 1) (easy_hi p) (easy_term p).
  Proof.
    intros Hp Hpy Hyp. pose proof (prime_ge_2 p Hp).
    rewrite (leaves_window _ x y p (easy_lo p) (easy_hi p)); auto; try (unfold easy_lo, easy_hi; lia).
    - apply psum_ext. intros q Hq Hr. unfold easy_term.
      assert (p < q <= y) by (unfold easy_lo, easy_hi in Hr; lia).
      destruct (easy_value p q) as [_ ->]; auto; lia.
    - intros q Hq Hr Hpq. apply easy_cond; auto; lia.
  Qed.
  Lemma S2_easy_terms r : r <= y -> x < (r + 1) ^ 3 ->
    S2_easy_sum x y c = psum 2 r (fun p => if c <? pi p then if y <? p * p then psum (easy_lo p + 1) (easy_hi p) (easy_term p) else 0 else 0).
  Proof.
    intros Hr Hx. unfold S2_easy_sum, S2_part. 
    rewrite (psum_ext 2 y _ (fun p => if c <? pi p then if y <? p * p then psum (easy_lo p + 1) (easy_hi p) (easy_term p) else 0 else 0)).
    - apply psum_hi; auto. intros p Hp _ Hpr. destruct (c <? pi p); auto. destruct (Z.ltb_spec y (p * p)); auto.
      apply psum_empty. unfold easy_lo, easy_hi. assert (0 < p * p) by (pose proof (prime_ge_2 p Hp); nia).
      assert (x / (p * p) < p + 1); [|lia]. apply div_lt_iff; auto. replace ((r + 1) ^ 3) with ((r + 1) * (r + 1) * (r + 1)) in Hx by ring.
      pose proof (prime_ge_2 p Hp). assert (0 <= r + 1 \/ r + 1 < 0) as [?|?] by lia.
      + assert ((r + 1) * (r + 1) <= p * p) by (apply Z.mul_le_mono_nonneg; lia).
        assert ((r + 1) * (r + 1) * (r + 1) <= p * p * p) by (apply Z.mul_le_mono_nonneg; nia). nia.
      + assert (0 <= (r + 1) * (r + 1)) by nia. assert ((r + 1) * (r + 1) * (r + 1) <= 0) by nia. nia.
    - intros p Hp Hpy. destruct (c <? pi p); auto. destruct (Z.ltb_spec y (p * p)).
      + apply easy_prime; auto; lia.
      + apply sumr_zero. intros m Hm. unfold easy_leaf. destruct (Z.ltb_spec y (p * p)); [lia|].
        now rewrite andb_false_r.
  Qed.
End Easy.

(** *** The classes form a partition *)
Lemma leaf_classes x y p m : Z.b2z (trivial_leaf x p m) + Z.b2z (easy_leaf x y p m) + Z.b2z (hard_leaf x y p m) = 1.
Proof. unfold hard_leaf, easy_leaf. destruct (trivial_leaf x p m), (y <? p * p), (x / (p * m) <? y); reflexivity. Qed.
Lemma S2_partition x y c : S2_trivial_sum x y c + S2_easy_sum x y c + S2_hard_sum x y c = S2_sum x y c.
Proof.
  unfold S2_trivial_sum, S2_easy_sum, S2_hard_sum, S2_part, S2_sum. rewrite <- !psum_add. apply psum_ext. intros p Hp Hr.
  destruct (c <? pi p); [|reflexivity]. unfold S2_prime. rewrite <- !sumr_add. apply sumr_ext. intros m Hm.
  unfold hard_leaf, easy_leaf. destruct (trivial_leaf x p m), (y <? p * p), (x / (p * m) <? y); cbn [negb andb]; ring.
Qed.

Lemma S2_trivial_pq x y c : 1 <= y -> y * y <= x ->
  S2_trivial_sum x y c = psum 2 y (fun p => if c <? pi p then
    psum (p + 1) y (fun q => if x / (p * q) <? p then p * q else 0) else 0).
Proof.
  intros Hy Hyx. unfold S2_trivial_sum, S2_part. apply psum_ext. intros p Hp Hr. destruct (c <? pi p); auto.
  assert (Hpp : 0 < p * p) by nia. pose proof (y_le_z x y (x / y) Hy Hyx eq_refl) as Hyz.
  assert (D : forall q, p < q <= y -> x / (p * q) < p <-> x / (p * p) < q).
  { intros q Hq. rewrite !div_lt_iff by nia. replace (p * q * p) with (p * p * q) by ring. tauto. }
  destruct (Z.le_gt_cases (p * p) (x / y)) as [L|G].
  - rewrite (trivial_none x y (x / y) Hy Hyx eq_refl p Hp L) by lia. symmetry. apply psum_zero. intros q Hq Hqr.
    pose proof (div_z x y (x / y) Hy Hyx eq_refl p q ltac:(lia) ltac:(lia)).
    assert (p <= x / y / p) by (apply Z.div_le_lower_bound; lia). destruct (Z.ltb_spec (x / (p * q)) p); [lia|reflexivity].
  - destruct (trivial_some x y (x / y) Hy Hyx eq_refl p Hp G ltac:(lia)) as [H1 ->].
    rewrite (psum_window (p + 1) y (Z.max (x / (p * p)) p) y (fun q => x / (p * q) <? p) (fun q => p * q)); [|lia|lia|].
    + rewrite (psum_scal _ _ p (fun q => q)). f_equal. rewrite !prime_sum_psum.
      rewrite (psum_split 2 (Z.max (x / (p * p)) p) y) by lia. ring.
    + intros q Hq Hqr. rewrite Z.ltb_lt. rewrite D by lia. lia.
Qed.
