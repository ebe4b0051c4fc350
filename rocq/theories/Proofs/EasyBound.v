(** A bound for the sum of the easy leaves: every number counted by an easy leaf is the
    product of two primes >= p times p, and at most two leaves count it. *)
From Coq Require Import ZArith List Bool Lia Znumtheory.
From Verif.Base Require Import Res Word Zl Arr.
From Verif.Spec Require Import Primes LMOSpec S2Spec.
From Verif.Proofs Require Import Primes NT LMO Tables PhiSum Leaf S2Leaf Bounds.
Import ListNotations.
Open Scope Z_scope.
Local Ltac Zify.zify_post_hook ::= idtac.

Lemma sumr_swap a b c d (F : Z -> Z -> Z) : sumr a b (fun i => sumr c d (fun j => F i j)) = sumr c d (fun j => sumr a b (fun i => F i j)).
Proof. unfold sumr. apply lsum_swap. Qed.

(** a sum of indicators with at most two nonzero terms *)
Lemma sumr_two lo hi (P : Z -> bool) u v : (forall i, lo <= i < hi -> P i = true -> i = u \/ i = v) ->
  sumr lo hi (fun i => if P i then 1 else 0) <= 2.
Proof.
  intros H. assert (A : sumr lo hi (fun i => if P i then 1 else 0) <= sumr lo hi (fun i => (if i =? u then 1 else 0) + (if i =? v then 1 else 0))).
  { apply sumr_le. intros i Hi. destruct (P i) eqn:E; [|destruct (i =? u), (i =? v); lia].
    destruct (H i Hi E) as [->| ->]; rewrite Z.eqb_refl; [destruct (u =? v)|destruct (v =? u)]; lia. }
  rewrite sumr_add in A.
  assert (B : forall w, sumr lo hi (fun i => if i =? w then 1 else 0) <= 1).
  { intros w. destruct (Z.le_gt_cases lo w) as [L|L]; [destruct (Z.lt_ge_cases w hi) as [M|M]|].
    - rewrite (sumr_single lo hi w) by (try lia; intros i Hi Hne; destruct (Z.eqb_spec i w); lia). destruct (w =? w); lia.
    - rewrite sumr_zero by (intros i Hi; destruct (Z.eqb_spec i w); lia). lia.
    - rewrite sumr_zero by (intros i Hi; destruct (Z.eqb_spec i w); lia). lia. }
  pose proof (B u). pose proof (B v). lia.
Qed.

Section Count.
  Context (p T : Z) (Hp : prime p).
  (** 1 or a prime >= p *)
  Definition small_factor (m : Z) : bool := (m =? 1) || (primeb m && (p <=? m)).
  Definition counted (y M : Z) : Z :=
    sumr (p + 1) (y + 1) (fun q => if primeb q && (M mod q =? 0) && small_factor (M / q) then 1 else 0).

  Lemma counted_le y M : 1 <= M -> counted y M <= 2 * (if roughb (pi p - 1) M then 1 else 0).
  Proof.
    intros HM. pose proof (prime_ge_2 p Hp) as P2. unfold counted.
    destruct (roughb (pi p - 1) M) eqn:R.
    - set (P := fun q => primeb q && (M mod q =? 0) && small_factor (M / q)).
      assert (S : forall q, p + 1 <= q -> P q = true -> exists m, M = q * m /\ prime q /\ (m = 1 \/ prime m)).
      { intros q Hq E. unfold P in E. rewrite !andb_true_iff in E. destruct E as [[E1 E2] E3]. apply primeb_spec in E1.
        apply Z.eqb_eq in E2. exists (M / q). split; [|split; auto].
        - rewrite (Z.div_mod M q) at 1 by lia. lia.
        - unfold small_factor in E3. apply orb_true_iff in E3. destruct E3 as [E3|E3]; [left; now apply Z.eqb_eq|right].
          apply andb_true_iff in E3. now apply primeb_spec. }
      destruct (existsb P (zrange (p + 1) (y + 1))) eqn:X.
      + apply existsb_exists in X. destruct X as (q0 & I0 & E0). apply in_zrange in I0.
        destruct (S q0 ltac:(lia) E0) as (m0 & EM & Q0 & M0).
        change (sumr (p + 1) (y + 1) (fun q => if P q then 1 else 0) <= 2 * 1). change (2 * 1) with 2.
        apply (sumr_two _ _ P q0 m0). intros q Hq E. destruct (S q ltac:(lia) E) as (m & EM' & Q & _).
        assert (D : (q | q0 * m0)) by (rewrite <- EM, EM'; apply Z.divide_factor_l).
        apply prime_mult in D; auto. destruct D as [D|D].
        * left. now apply prime_div_prime.
        * right. destruct M0 as [->|M0].
          -- pose proof (prime_ge_2 q Q). apply Z.divide_1_r_nonneg in D; lia.
          -- now apply prime_div_prime.
      + rewrite sumr_zero; [lia|]. intros q Hq. fold (P q).
        destruct (P q) eqn:E; auto. assert (existsb P (zrange (p + 1) (y + 1)) = true); [|congruence].
        apply existsb_exists. exists q. split; auto. now apply in_zrange.
    - rewrite sumr_zero; [lia|]. intros q Hq. destruct (primeb q && (M mod q =? 0) && small_factor (M / q)) eqn:E; auto. exfalso.
      rewrite !andb_true_iff in E. destruct E as [[E1 E2] E3]. apply primeb_spec in E1. apply Z.eqb_eq in E2.
      assert (EM : M = q * (M / q)) by (rewrite (Z.div_mod M q) at 1 by lia; lia). set (m := M / q) in *.
      assert (roughb (pi p - 1) M = true); [|congruence]. apply roughb_spec; auto. intros r Hr Hrp D.
      assert (Hrp' : r < p). { destruct (Z.lt_ge_cases r p) as [|L]; auto. pose proof (pi_mono _ _ L). lia. }
      rewrite EM in D. apply prime_mult in D; auto. destruct D as [D|D].
      + apply prime_div_prime in D; auto. lia.
      + unfold small_factor in E3. apply orb_true_iff in E3. destruct E3 as [E3|E3].
        * apply Z.eqb_eq in E3. rewrite E3 in D. pose proof (prime_ge_2 r Hr). apply Z.divide_1_r_nonneg in D; lia.
        * apply andb_true_iff in E3. destruct E3 as [E3 E4]. apply primeb_spec in E3. apply Z.leb_le in E4. apply prime_div_prime in D; auto. lia.
  Qed.

  Lemma small_sum t : p <= t -> prime_sum t + 1 - prime_sum (p - 1) = sumr 1 (t + 1) (fun m => if small_factor m then m else 0).
  Proof.
    intros Ht. pose proof (prime_ge_2 p Hp) as P2. rewrite !prime_sum_psum. rewrite (psum_split 2 (p - 1) t) by lia.
    replace (p - 1 + 1) with p by ring. rewrite (sumr_cons 1) by lia. rewrite (sumr_split (1 + 1) p) by lia.
    rewrite (sumr_zero (1 + 1) p).
    - unfold psum at 2. rewrite (sumr_ext p (t + 1) _ (fun m => if small_factor m then m else 0)).
      + change (small_factor 1) with true. cbv iota. ring.
      + intros m Hm. unfold small_factor. destruct (Z.eqb_spec m 1); [lia|]. destruct (Z.leb_spec p m); [|lia].
        cbn [orb]. rewrite andb_true_r. reflexivity.
    - intros m Hm. unfold small_factor. destruct (Z.eqb_spec m 1); [lia|]. destruct (Z.leb_spec p m); [lia|]. now rewrite andb_false_r.
  Qed.

  (** the leaves q with p <= T / q *)
  Lemma easy_count y lo hi : 1 <= T -> p <= lo -> hi <= y -> (forall q, lo < q <= hi -> p <= T / q) ->
    psum (lo + 1) hi (fun q => q * (prime_sum (T / q) + 1 - prime_sum (p - 1))) <= 2 * phi_sum T (pi p - 1).
  Proof.
    intros HT Hlo Hhi Hq. pose proof (prime_ge_2 p Hp) as P2.
    set (F := fun q => sumr 1 (T + 1) (fun M => if primeb q && (M mod q =? 0) && small_factor (M / q) then M else 0)).
    assert (F0 : forall q, 0 <= F q).
    { intros q. apply sumr_nonneg. intros M HM. destruct (_ && _ && _); lia. }
    apply Z.le_trans with (sumr (p + 1) (y + 1) F).
    - unfold psum. apply Z.le_trans with (sumr (lo + 1) (hi + 1) F).
      + apply sumr_le. intros q Hr. destruct (primeb q) eqn:E; [|apply F0].
        rewrite small_sum by (apply Hq; lia). unfold F. rewrite E. cbn [andb].
        rewrite (sumr_ext 1 (T + 1) _ (fun M => if M mod q =? 0 then if small_factor (M / q) then M else 0 else 0))
          by (intros M _; destruct (M mod q =? 0); reflexivity).
        rewrite (sumr_multiples q T (fun M => if small_factor (M / q) then M else 0)) by lia.
        rewrite <- (sumr_scal 1 (T / q + 1) q (fun m => if small_factor m then m else 0)). apply Z.eq_le_incl. apply sumr_ext. intros m Hm.
        replace (q * m / q) with m by (rewrite Z.mul_comm, Z.div_mul; lia). destruct (small_factor m); ring.
      + destruct (Z.le_gt_cases lo hi) as [L|G].
        * rewrite (sumr_split (p + 1) (lo + 1) (y + 1)) by lia. rewrite (sumr_split (lo + 1) (hi + 1) (y + 1)) by lia.
          pose proof (sumr_nonneg (p + 1) (lo + 1) F ltac:(auto)). pose proof (sumr_nonneg (hi + 1) (y + 1) F ltac:(auto)). lia.
        * rewrite sumr_empty by lia. apply sumr_nonneg. auto.
    - unfold F. rewrite sumr_swap. unfold phi_sum, Phi. rewrite <- (sumr_scal 1 (T + 1) 2 (fun n => if roughb (pi p - 1) n then n else 0)).
      apply sumr_le. intros M HM. pose proof (counted_le y M ltac:(lia)) as C.
      rewrite (sumr_ext _ _ _ (fun q => M * (if primeb q && (M mod q =? 0) && small_factor (M / q) then 1 else 0)))
        by (intros q _; destruct (_ && _ && _); ring).
      rewrite sumr_scal. fold (counted y M). destruct (roughb (pi p - 1) M); nia.
  Qed.
End Count.

(** *** All primes *)
Lemma phi_telescope x s r : 1 <= s -> s - 1 <= r ->
  psum s r (fun p => p * phi_sum (x / p) (pi p - 1)) = phi_sum x (pi (s - 1)) - phi_sum x (pi r).
Proof.
  intros Hs Hr. replace r with (s - 1 + (r - (s - 1))) by ring. assert (Hn : 0 <= r - (s - 1)) by lia. clear Hr. remember (r - (s - 1)) as n eqn:En. clear En. revert n Hn.
  apply natlike_ind.
  - rewrite psum_empty by lia. replace (s - 1 + 0) with (s - 1) by ring. lia.
  - intros n Hn IH. unfold Z.succ. replace (s - 1 + (n + 1)) with (s - 1 + n + 1) by ring. rewrite psum_succ by lia. rewrite IH.
    destruct (primeb (s - 1 + n + 1)) eqn:E.
    + apply primeb_spec in E. set (q := s - 1 + n + 1) in *. rewrite (phi_sum_step q) by auto.
      replace (pi q - 1) with (pi (s - 1 + n)) by (rewrite (pi_prime q E); unfold q; replace (s - 1 + n + 1 - 1) with (s - 1 + n) by ring; ring). ring.
    + rewrite (pi_succ (s - 1 + n)), E. replace (pi (s - 1 + n) + 0) with (pi (s - 1 + n)) by ring. ring.
Qed.

Section All.
  Context (x y z c : Z).
  Hypothesis (Hy : 1 <= y) (Hyx : y * y <= x) (Hz : z = x / y).

  Lemma easy_p p : prime p -> p <= y -> y < p * p ->
    0 <= psum (easy_lo y z p + 1) (easy_hi x y p) (easy_term x p) <= 2 * (p * phi_sum (x / p) (pi p - 1)).
  Proof.
    intros Hp Hpy Hyp. pose proof (prime_ge_2 p Hp) as P2.
    assert (Q : forall q, prime q -> easy_lo y z p + 1 <= q <= easy_hi x y p -> p <= x / (p * q)).
    { intros q Hq Hr. apply (easy_value x y z ltac:(lia) Hyx Hz p q); auto; unfold easy_lo, easy_hi in *; lia. }
    split.
    - apply psum_nonneg. intros q Hq Hr. specialize (Q q Hq Hr). unfold easy_term. pose proof (prime_sum_mono (p - 1) (x / (p * q)) ltac:(lia)).
      pose proof (prime_ge_2 q Hq). apply Z.mul_nonneg_nonneg; nia.
    - rewrite (psum_ext _ _ _ (fun q => p * (q * (prime_sum (x / p / q) + 1 - prime_sum (p - 1))))).
      + rewrite (psum_scal _ _ p (fun q => q * (prime_sum (x / p / q) + 1 - prime_sum (p - 1)))).
        replace (2 * (p * phi_sum (x / p) (pi p - 1))) with (p * (2 * phi_sum (x / p) (pi p - 1))) by ring. apply Z.mul_le_mono_nonneg_l; [lia|].
        apply (easy_count p (x / p) Hp y).
        * apply div_le_iff; [lia|]. nia.
        * unfold easy_lo. lia.
        * unfold easy_hi. lia.
        * intros q Hq. assert (L : p < q) by (unfold easy_lo in Hq; lia). rewrite Z.div_div by lia. apply div_le_iff; [nia|].
          assert (A : q <= x / (p * p)) by (unfold easy_hi in Hq; lia). apply (proj1 (div_le_iff x (p * p) q ltac:(nia))) in A. nia.
      + intros q Hq Hr. unfold easy_term. rewrite Z.div_div by (pose proof (prime_ge_2 q Hq); lia). ring.
  Qed.

  Lemma S2_easy_phi s : x < (y + 1) ^ 3 -> 1 <= s -> s - 1 <= y -> (forall p, prime p -> y < p * p -> s <= p) ->
    0 <= S2_easy_sum x y c <= 2 * phi_sum x (pi (s - 1)).
  Proof.
    intros Hx3 Hs Hsy Hps. assert (H0 : 0 <= x) by (pose proof (Z.square_nonneg y); lia).
    rewrite (S2_easy_terms x y z c Hy Hyx Hz y ltac:(lia) Hx3). split.
    - apply psum_nonneg. intros p Hp Hr. destruct (c <? pi p); [|lia]. destruct (Z.ltb_spec y (p * p)); [|lia]. apply easy_p; auto; lia.
    - apply Z.le_trans with (psum s y (fun p => 2 * (p * phi_sum (x / p) (pi p - 1)))).
      + assert (E : psum 2 y (fun p => if c <? pi p then if y <? p * p then psum (easy_lo y z p + 1) (easy_hi x y p) (easy_term x p) else 0 else 0)
          = psum s y (fun p => if c <? pi p then if y <? p * p then psum (easy_lo y z p + 1) (easy_hi x y p) (easy_term x p) else 0 else 0)).
        { destruct (Z.le_gt_cases s 2); [rewrite <- (psum_2 s y) by lia; reflexivity|].
          apply psum_lo; [lia|]. intros p Hp Hr Hpy. destruct (c <? pi p); auto. destruct (Z.ltb_spec y (p * p)) as [L|]; auto. specialize (Hps p Hp L). lia. }
        rewrite E. apply psum_le. intros p Hp Hr. pose proof (prime_ge_2 p Hp).
        assert (0 <= p * phi_sum (x / p) (pi p - 1)) by (apply Z.mul_nonneg_nonneg; [lia|apply phi_sum_nonneg]).
        destruct (c <? pi p); [|lia]. destruct (Z.ltb_spec y (p * p)); [|lia]. apply easy_p; auto; lia.
      + rewrite (psum_scal s y 2 (fun p => p * phi_sum (x / p) (pi p - 1))). rewrite phi_telescope by lia.
        pose proof (phi_sum_nonneg x (pi y)). lia.
  Qed.

  (** 3 S2_easy <= x^2 + 4 x + 1, but for the smallest y *)
  Lemma S2_easy_bound : x < (y + 1) ^ 3 -> 0 <= S2_easy_sum x y c /\ (3 * S2_easy_sum x y c <= x * x + 4 * x + 1 \/ S2_easy_sum x y c <= 2 ^ 21).
  Proof.
    intros Hx3. assert (H0 : 0 <= x) by (pose proof (Z.square_nonneg y); lia). destruct (Z.le_gt_cases 9 y) as [L|G].
    - destruct (S2_easy_phi 5 Hx3) as [A B]; try lia.
      { intros p Hp Hr. pose proof (prime_ge_2 p Hp). destruct (Z.le_gt_cases 5 p); auto. exfalso. assert (p = 4) as -> by nia.
        apply (prime_div_prime 2 4) in Hp; try apply prime_2; try lia. exists 2. reflexivity. }
      split; auto. left. change (pi (5 - 1)) with 2 in B. pose proof (phi_sum_S6 x 2 ltac:(lia)). pose proof (S6_bound x). lia.
    - destruct (S2_easy_phi 1 Hx3) as [A B]; try lia.
      { intros p Hp Hr. pose proof (prime_ge_2 p Hp). lia. }
      split; auto. right. change (pi (1 - 1)) with 0 in B. rewrite phi_sum_0 in B by lia.
      assert ((y + 1) ^ 3 <= 9 ^ 3) by (apply Z.pow_le_mono_l; lia). change (9 ^ 3) with 729 in *.
      assert (x * (x + 1) / 2 <= 729 * 729); [|lia]. apply Z.div_le_upper_bound; nia.
  Qed.
End All.
