(** Facts about the specification of libprimesieve. *)
From Coq Require Import ZArith List Bool Lia Znumtheory.
From Verif.Base Require Import Res Zl Word.
From Verif.Spec Require Import Primes.
From Verif.Proofs Require Import Primes NT.
From Verif.Model Require Import Primesieve.
Import ListNotations.
Open Scope Z_scope.

Lemma psearch_spec f p : forall k,
  match psearch f p k with
  | Some r => k <= r < k + Zpos p /\ f r = true /\ forall j, k <= j < r -> f j = false
  | None => forall j, k <= j < k + Zpos p -> f j = false
  end.
Proof.
  induction p as [q IH|q IH|]; intros k; cbn [psearch].
  - destruct (f k) eqn:E. { repeat split; auto; lia. }
    specialize (IH (k + 1)) as I1. destruct (psearch f q (k + 1)) as [r|].
    + destruct I1 as (H1 & H2 & H3). repeat split; auto; try lia.
      intros j Hj. destruct (Z.eq_dec j k); [congruence|apply H3; lia].
    + specialize (IH (k + 1 + Zpos q)) as I2. destruct (psearch f q (k + 1 + Zpos q)) as [r|].
      * destruct I2 as (H1 & H2 & H3). repeat split; auto; try lia.
        intros j Hj. destruct (Z.eq_dec j k); [congruence|].
        destruct (Z.lt_ge_cases j (k + 1 + Zpos q)); [apply I1|apply H3]; lia.
      * intros j Hj. destruct (Z.eq_dec j k); [congruence|].
        destruct (Z.lt_ge_cases j (k + 1 + Zpos q)); [apply I1|apply I2]; lia.
  - specialize (IH k) as I1. destruct (psearch f q k) as [r|].
    + destruct I1 as (H1 & H2 & H3). repeat split; auto; lia.
    + specialize (IH (k + Zpos q)) as I2. destruct (psearch f q (k + Zpos q)) as [r|].
      * destruct I2 as (H1 & H2 & H3). repeat split; auto; try lia.
        intros j Hj. destruct (Z.lt_ge_cases j (k + Zpos q)); [apply I1|apply H3]; lia.
      * intros j Hj. destruct (Z.lt_ge_cases j (k + Zpos q)); [apply I1|apply I2]; lia.
  - destruct (f k) eqn:E. { repeat split; auto; lia. }
    intros j Hj. replace j with k by lia. auto.
Qed.

Lemma fold_mul_divide l d : In d l -> (d | fold_right Z.mul 1 l).
Proof.
  induction l as [|a l IH]; simpl; [tauto|]. intros [->|H].
  - apply Z.divide_factor_l.
  - apply Z.divide_mul_r; auto.
Qed.
Lemma zfact_divide n d : 1 <= d <= n -> (d | zfact n).
Proof. intros H. apply fold_mul_divide. apply in_zrange. lia. Qed.
Lemma zfact_pos n : 1 <= zfact n.
Proof.
  unfold zfact. assert (H : forall d, In d (zrange 1 (n + 1)) -> 1 <= d) by (intros d Hd; apply in_zrange in Hd; lia).
  induction (zrange 1 (n + 1)) as [|a l IH]; simpl; [lia|].
  pose proof (H a (or_introl eq_refl)). assert (1 <= fold_right Z.mul 1 l) by (apply IH; intros; apply H; now right). nia.
Qed.

Lemma euclid n : 1 <= n -> exists p, prime p /\ n < p <= zfact n + 1.
Proof.
  intros Hn. pose proof (zfact_pos n).
  destruct (exists_prime_divisor (zfact n + 1)) as (p & Hp & Hd); [lia|].
  exists p. split; auto. pose proof (prime_ge_2 p Hp). split.
  - destruct (Z.lt_ge_cases n p); auto. exfalso.
    assert (D : (p | zfact n)) by (apply zfact_divide; lia).
    assert (D1 : (p | 1)). { replace 1 with (zfact n + 1 - zfact n) by ring. now apply Z.divide_sub_r. }
    apply Z.divide_1_r_nonneg in D1; lia.
  - apply Z.divide_pos_le in Hd; lia.
Qed.

(** next_prime n is the least prime above n *)
Lemma next_prime_spec n :
  prime (next_prime n) /\ n < next_prime n /\ forall q, prime q -> n < q -> next_prime n <= q.
Proof.
  unfold next_prime. set (m := Z.max n 1).
  pose proof (zfact_pos m).
  pose proof (psearch_spec primeb (Z.to_pos (zfact m + 1)) (m + 1)) as S.
  destruct (psearch primeb (Z.to_pos (zfact m + 1)) (m + 1)) as [r|].
  - destruct S as (H1 & H2 & H3). apply primeb_spec in H2. split; auto. split; [lia|].
    intros q Hq Hn. destruct (Z.le_gt_cases r q); auto. exfalso.
    pose proof (prime_ge_2 q Hq). apply primeb_spec in Hq. rewrite H3 in Hq; [congruence|]. lia.
  - exfalso. destruct (euclid m) as (p & Hp & Hr); [lia|].
    apply primeb_spec in Hp. rewrite S in Hp; [congruence|]. lia.
Qed.
Lemma next_prime_prime n : prime (next_prime n). Proof. apply next_prime_spec. Qed.
Lemma next_prime_gt n : n < next_prime n. Proof. apply next_prime_spec. Qed.
Lemma next_prime_le n q : prime q -> n < q -> next_prime n <= q. Proof. apply next_prime_spec. Qed.
Lemma next_prime_pi n : pi (next_prime n - 1) = pi n.
Proof.
  pose proof (next_prime_gt n). pose proof (pi_mono n (next_prime n - 1) ltac:(lia)).
  destruct (Z.eq_dec (pi (next_prime n - 1)) (pi n)); auto.
  destruct (nth_prime_exists (next_prime n - 1) (pi n + 1)) as (q & Hq & E & L).
  { pose proof (pi_nonneg n). lia. }
  assert (n < q). { destruct (Z.lt_ge_cases n q); auto. pose proof (pi_mono q n). lia. }
  pose proof (next_prime_le n q Hq). lia.
Qed.
Lemma pi_next_prime n : pi (next_prime n) = pi n + 1.
Proof. rewrite pi_prime by apply next_prime_prime. now rewrite next_prime_pi. Qed.

Lemma n_primes_nth n : forall from k, (k < n)%nat ->
  exists p, nth_error (n_primes n from) k = Some p /\ prime p /\ pi p = pi from + Z.of_nat k + 1.
Proof.
  induction n as [|n IH]; intros from k Hk; [lia|]. cbn [n_primes]. destruct k as [|k].
  - exists (next_prime from). cbn [nth_error]. split; [reflexivity|].
    split; [apply next_prime_prime|]. rewrite pi_next_prime. lia.
  - destruct (IH (next_prime from) k) as (p & E & Hp & Pp); [lia|].
    exists p. cbn [nth_error]. split; auto. split; auto. rewrite Pp, pi_next_prime. lia.
Qed.
Lemma n_primes_len n : forall from, length (n_primes n from) = n.
Proof. induction n; intros; simpl; auto. Qed.

Lemma aget_nth l i v : 0 <= i -> nth_error l (Z.to_nat i) = Some v -> aget (A:=Z) l i = Ok v.
Proof.
  intros Hi E. unfold aget. destruct (Z.ltb_spec i 0); [lia|]. now rewrite E.
Qed.

Lemma generate_n_primes_any n b : 1 <= b <= n ->
  exists p, aget (generate_n_primes n) b = Ok (swrap 32 p) /\ prime p /\ pi p = b.
Proof.
  intros H. destruct (n_primes_nth (Z.to_nat n) 0 (Z.to_nat (b - 1))) as (p & E & Hp & Pp); [lia|].
  exists p. split; [|split; auto; rewrite Pp, pi_small; lia].
  apply aget_nth; [lia|]. unfold generate_n_primes. replace (Z.to_nat b) with (S (Z.to_nat (b - 1))) by lia.
  cbn [nth_error]. now apply map_nth_error.
Qed.
Lemma generate_n_primes_get n b : 1 <= b <= n -> b <= pi (2 ^ 31 - 1) ->
  exists p, aget (generate_n_primes n) b = Ok p /\ prime p /\ pi p = b /\ p < 2 ^ 31.
Proof.
  intros H H2. destruct (generate_n_primes_any n b H) as (p & E & Hp & Pp).
  assert (L : p <= 2 ^ 31 - 1).
  { apply (prime_pi_le p); [exact Hp|]. rewrite Pp. exact H2. }
  exists p. rewrite swrap_id in E.
  - split; [exact E|]. split; [exact Hp|]. split; [exact Pp|]. clear - L. lia.
  - lia.
  - unfold in_s, smin, smax. change (32 - 1) with 31. pose proof (prime_ge_2 p Hp). clear - L H0. lia.
Qed.

Lemma generate_n_primes_len n : 0 <= n -> zlen (generate_n_primes n) = n + 1.
Proof. intros. unfold zlen, generate_n_primes. simpl length. rewrite map_length, n_primes_len. lia. Qed.

Lemma prev_prime_none n : pi (n - 1) = 0 -> prev_prime n = 0.
Proof. unfold pi, prev_prime, zlen. destruct (primes_upto (n - 1)); simpl; auto. lia. Qed.
Lemma prev_prime_spec n : 1 <= pi (n - 1) ->
  prime (prev_prime n) /\ prev_prime n < n /\ pi (prev_prime n) = pi (n - 1).
Proof.
  intros H. destruct (nth_prime_exists (n - 1) (pi (n - 1))) as (p & Hp & E & L); [lia|].
  assert (prev_prime n = p); [|subst p; auto with zarith].
  unfold prev_prime. rewrite (primes_upto_split (p - 1) (n - 1)) by lia.
  rewrite zrange_cons by lia. replace (p - 1 + 1) with p by ring. simpl.
  assert (Bp : primeb p = true) by now apply primeb_spec. rewrite Bp.
  replace (filter primeb (zrange (p + 1) (n - 1 + 1))) with (@nil Z).
  - rewrite last_last. reflexivity.
  - symmetry. destruct (filter primeb (zrange (p + 1) (n - 1 + 1))) as [|q l] eqn:F; auto. exfalso.
    assert (I : In q (filter primeb (zrange (p + 1) (n - 1 + 1)))) by (rewrite F; now left).
    apply filter_In in I. destruct I as [I B]. apply in_zrange in I. apply primeb_spec in B.
    pose proof (pi_lt_prime p q B ltac:(lia)). pose proof (pi_mono q (n - 1) ltac:(lia)). lia.
Qed.
Lemma prev_prime_le n q : prime q -> q < n -> q <= prev_prime n.
Proof.
  intros Hq L. pose proof (pi_mono q (n - 1) ltac:(lia)). pose proof (pi_pos_prime q Hq).
  destruct (prev_prime_spec n) as (H1 & H2 & H3); [lia|].
  apply (prime_pi_le q (prev_prime n) Hq). lia.
Qed.
