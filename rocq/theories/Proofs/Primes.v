(** Basic facts about the specification in Spec/Primes.v. *)
From Coq Require Import ZArith List Bool Lia Znumtheory Sorting.
From Verif.Base Require Import Res Zl.
From Verif.Spec Require Import Primes.
Import ListNotations.
Open Scope Z_scope.

Lemma primeb_spec n : primeb n = true <-> prime n.
Proof.
  unfold primeb. rewrite andb_true_iff, Z.leb_le, forallb_forall. split.
  - intros [H2 H]. apply prime_alt. split; [lia|].
    intros d Hd [k Hk]. specialize (H d). rewrite in_zrange in H. specialize (H ltac:(lia)).
    rewrite negb_true_iff, Z.eqb_neq in H. apply H. subst. apply Z.mod_mul. lia.
  - intros Hp. pose proof (prime_ge_2 n Hp). split; [lia|].
    intros d Hd. rewrite in_zrange in Hd. rewrite negb_true_iff, Z.eqb_neq. intros E.
    apply Z.mod_divide in E; [|lia]. apply prime_alt in Hp. destruct Hp as [_ Hp].
    apply (Hp d); [lia|auto].
Qed.

Lemma primeb_false n : primeb n = false <-> ~ prime n.
Proof. rewrite <- primeb_spec. destruct (primeb n); split; intros; congruence. Qed.

Lemma prime_dec' n : {prime n} + {~ prime n}.
Proof. destruct (primeb n) eqn:E; [left; now apply primeb_spec|right; now apply primeb_false]. Qed.

Lemma in_primes_upto n p : In p (primes_upto n) <-> prime p /\ p <= n.
Proof.
  unfold primes_upto. rewrite filter_In, in_zrange, primeb_spec. split; [intuition lia|].
  intros [H1 H2]. pose proof (prime_ge_2 p H1). intuition lia.
Qed.

Lemma primes_upto_small n : n < 2 -> primes_upto n = [].
Proof. intros H. unfold primes_upto. now rewrite zrange_empty by lia. Qed.

Lemma primes_upto_succ n : primes_upto (n + 1) = primes_upto n ++ (if primeb (n + 1) then [n + 1] else []).
Proof.
  destruct (Z.lt_ge_cases (n + 1) 2) as [H|H].
  - rewrite !primes_upto_small by lia. destruct (primeb (n + 1)) eqn:E; auto.
    apply primeb_spec, prime_ge_2 in E. lia.
  - unfold primes_upto. rewrite zrange_snoc by lia. rewrite filter_app. simpl. reflexivity.
Qed.

Lemma pi_succ n : pi (n + 1) = pi n + (if primeb (n + 1) then 1 else 0).
Proof. unfold pi. rewrite primes_upto_succ, zlen_app. destruct (primeb (n + 1)); reflexivity. Qed.
Lemma prime_sum_succ n : prime_sum (n + 1) = prime_sum n + (if primeb (n + 1) then n + 1 else 0).
Proof.
  unfold prime_sum. rewrite primes_upto_succ, lsum_app. destruct (primeb (n + 1)); simpl; lia.
Qed.
Lemma pi_small n : n < 2 -> pi n = 0.
Proof. intros. unfold pi. now rewrite primes_upto_small. Qed.
Lemma prime_sum_small n : n < 2 -> prime_sum n = 0.
Proof. intros. unfold prime_sum. now rewrite primes_upto_small. Qed.
Lemma pi_nonneg n : 0 <= pi n.
Proof. unfold pi, zlen. lia. Qed.

(** primes_upto splits at any point *)
Lemma primes_upto_split m n : m <= n ->
  primes_upto n = primes_upto m ++ filter primeb (zrange (m + 1) (n + 1)).
Proof.
  intros H. destruct (Z.lt_ge_cases m 1) as [Hm|Hm].
  - rewrite (primes_upto_small m) by lia. simpl. unfold primes_upto.
    destruct (Z.lt_ge_cases n 1).
    + rewrite (zrange_empty 2) by lia.
      assert (E : forall l, (forall x, In x l -> x < 2) -> filter primeb l = []).
      { induction l; simpl; auto. intros Hl. destruct (primeb a) eqn:E.
        - apply primeb_spec, prime_ge_2 in E. specialize (Hl a (or_introl eq_refl)). lia.
        - apply IHl. auto. }
      symmetry. apply E. intros x. rewrite in_zrange. lia.
    + rewrite (zrange_app (m + 1) 2 (n + 1)) by lia. rewrite filter_app.
      assert (E : forall l, (forall x, In x l -> x < 2) -> filter primeb l = []).
      { induction l; simpl; auto. intros Hl. destruct (primeb a) eqn:E.
        - apply primeb_spec, prime_ge_2 in E. specialize (Hl a (or_introl eq_refl)). lia.
        - apply IHl. auto. }
      rewrite (E (zrange (m + 1) 2)); [reflexivity|]. intros x. rewrite in_zrange. lia.
  - unfold primes_upto. rewrite (zrange_app 2 (m + 1) (n + 1)) by lia. apply filter_app.
Qed.

Lemma pi_mono m n : m <= n -> pi m <= pi n.
Proof.
  intros H. unfold pi. rewrite (primes_upto_split m n H), zlen_app. unfold zlen. lia.
Qed.

Lemma prime_sum_mono m n : m <= n -> prime_sum m <= prime_sum n.
Proof.
  intros H. unfold prime_sum. rewrite (primes_upto_split m n H), lsum_app.
  assert (0 <= lsum (fun p => p) (filter primeb (zrange (m + 1) (n + 1)))); [|lia].
  apply lsum_nonneg. intros x Hx. apply filter_In in Hx. destruct Hx as [_ Hx].
  apply primeb_spec, prime_ge_2 in Hx. lia.
Qed.
Lemma prime_sum_nonneg n : 0 <= prime_sum n.
Proof.
  apply lsum_nonneg. intros x Hx. apply in_primes_upto in Hx.
  destruct Hx as [Hx _]. apply prime_ge_2 in Hx. lia.
Qed.

Lemma pi_prime p : prime p -> pi p = pi (p - 1) + 1.
Proof.
  intros H. replace p with (p - 1 + 1) at 1 by ring. rewrite pi_succ.
  replace (p - 1 + 1) with p by ring. apply primeb_spec in H. now rewrite H.
Qed.
Lemma prime_sum_prime p : prime p -> prime_sum p = prime_sum (p - 1) + p.
Proof.
  intros H. replace p with (p - 1 + 1) at 1 by ring. rewrite prime_sum_succ.
  replace (p - 1 + 1) with p by ring. apply primeb_spec in H. now rewrite H.
Qed.
Lemma pi_lt_prime m p : prime p -> m < p -> pi m < pi p.
Proof. intros Hp H. rewrite (pi_prime p Hp). pose proof (pi_mono m (p - 1)). lia. Qed.
Lemma prime_pi_inj p q : prime p -> prime q -> pi p = pi q -> p = q.
Proof.
  intros Hp Hq E. destruct (Z.lt_trichotomy p q) as [H|[H|H]]; auto;
  [apply (pi_lt_prime p q) in H|apply (pi_lt_prime q p) in H]; auto; lia.
Qed.
Lemma prime_pi_lt p q : prime p -> prime q -> (pi p < pi q <-> p < q).
Proof.
  intros Hp Hq. split; intros H; [|now apply pi_lt_prime].
  destruct (Z.lt_ge_cases p q); auto. pose proof (pi_mono q p). lia.
Qed.
Lemma prime_pi_le p n : prime p -> (pi p <= pi n <-> p <= n).
Proof.
  intros Hp. split; intros H; [|now apply pi_mono].
  destruct (Z.le_gt_cases p n); auto. apply (pi_lt_prime n p) in H0; auto. lia.
Qed.

(** Every index 1..pi n is hit by a prime <= n. *)
Lemma nth_prime_exists n b : 1 <= b <= pi n -> exists p, prime p /\ pi p = b /\ p <= n.
Proof.
  intros H. assert (Hn : 0 <= n). { destruct (Z.lt_ge_cases n 0); auto. rewrite pi_small in H; lia. }
  revert b H. apply (natlike_ind (fun n => forall b, 1 <= b <= pi n -> exists p, prime p /\ pi p = b /\ p <= n)); auto.
  - intros b H. rewrite (pi_small 0) in H by lia; lia.
  - intros x Hx IH b Hb. unfold Z.succ in *. rewrite pi_succ in Hb.
    destruct (primeb (x + 1)) eqn:E.
    + destruct (Z.eq_dec b (pi x + 1)) as [->|Hne].
      * exists (x + 1). apply primeb_spec in E as E'. split; auto. split; [|lia].
        rewrite pi_succ, E. reflexivity.
      * destruct (IH b ltac:(lia)) as (p & H1 & H2 & H3). exists p. split; [assumption|]. split; [assumption|lia].
    + destruct (IH b ltac:(lia)) as (p & H1 & H2 & H3). exists p. split; [assumption|]. split; [assumption|lia].
Qed.

(** The b-th entry of the table is the b-th prime. *)
Lemma primes_upto_nth n b p : nth_error (primes_upto n) (Z.to_nat (b - 1)) = Some p -> 1 <= b ->
  prime p /\ pi p = b /\ p <= n.
Proof.
  destruct (Z.lt_ge_cases n 0) as [Hn|Hn].
  { rewrite primes_upto_small by lia. destruct (Z.to_nat (b - 1)); discriminate. }
  revert b p. apply (natlike_ind (fun n => forall b p, nth_error (primes_upto n) (Z.to_nat (b - 1)) = Some p -> 1 <= b ->
    prime p /\ pi p = b /\ p <= n)); auto.
  - intros b p H. simpl in H. destruct (Z.to_nat (b - 1)); discriminate.
  - intros x Hx IH b p H Hb. unfold Z.succ in *. rewrite primes_upto_succ in H.
    destruct (Z.le_gt_cases b (pi x)) as [Hle|Hgt].
    + rewrite nth_error_app1 in H by (unfold pi, zlen in Hle; lia).
      destruct (IH b p H Hb) as (H1 & H2 & H3). split; [assumption|]. split; [assumption|lia].
    + rewrite nth_error_app2 in H by (unfold pi, zlen in Hgt; lia).
      destruct (primeb (x + 1)) eqn:E.
      2:{ destruct (Z.to_nat (b - 1) - length (primes_upto x))%nat; discriminate. }
      destruct (Z.to_nat (b - 1) - length (primes_upto x))%nat eqn:En.
      * simpl in H. inversion H; subst p. apply primeb_spec in E as E'. split; auto. split; [|lia].
        rewrite pi_succ, E. unfold pi, zlen in *. lia.
      * simpl in H. destruct n0; discriminate.
Qed.

Lemma prime_table_len N : zlen (prime_table N) = pi N + 1.
Proof. unfold prime_table, pi, zlen. simpl length. lia. Qed.

Lemma prime_table_get N b : 1 <= b <= pi N ->
  exists p, aget (prime_table N) b = Ok p /\ prime p /\ pi p = b /\ p <= N.
Proof.
  intros H. destruct (aget_ex (prime_table N) b) as [p Hp]; [rewrite prime_table_len; lia|].
  exists p. split; auto. apply (primes_upto_nth N b p); [|lia].
  unfold prime_table in Hp. rewrite aget_cons in Hp. destruct (Z.eqb_spec b 0); [lia|].
  unfold aget in Hp. destruct (b - 1 <? 0); [discriminate|].
  destruct (nth_error (primes_upto N) (Z.to_nat (b - 1))); [congruence|discriminate].
Qed.

Lemma prime_table_prime N p : prime p -> p <= N -> aget (prime_table N) (pi p) = Ok p.
Proof.
  intros Hp Hle. assert (H : 1 <= pi p <= pi N).
  { split; [|now apply pi_mono]. rewrite pi_prime by auto. pose proof (pi_nonneg (p - 1)). lia. }
  destruct (prime_table_get N (pi p) H) as (q & E & Hq & Eq & _). rewrite E. f_equal. now apply prime_pi_inj.
Qed.
Lemma prime_table_0 N : aget (prime_table N) 0 = Ok 0.
Proof. reflexivity. Qed.

Lemma pi_pos_prime p : prime p -> 1 <= pi p.
Proof. intros H. rewrite pi_prime by auto. pose proof (pi_nonneg (p - 1)). lia. Qed.
