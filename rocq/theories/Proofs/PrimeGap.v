(** A weak form of Bertrand's postulate, enough to bound the products the code forms
    with the prime following a given one: if 2 m <= 2^k and k n < m then some prime p
    has n < p <= 2 m.  (k binomial(N, k) divides every common multiple of 1 .. N; such
    a multiple is the product of the powers p^e <= N of the primes p <= N.) *)
From Coq Require Import ZArith List Bool Lia Znumtheory.
From Verif.Base Require Import Zl.
From Verif.Spec Require Import Primes.
From Verif.Proofs Require Import Primes NT.
Import ListNotations.
Open Scope Z_scope.
Local Ltac Zify.zify_post_hook ::= idtac.

(** *** Binomial coefficients *)
Fixpoint bin (n k : nat) : Z :=
  match n, k with
  | _, O => 1
  | O, S _ => 0
  | S n, S k => bin n k + bin n (S k)
  end.
Lemma bin_0 n : bin n 0 = 1. Proof. destruct n; reflexivity. Qed.
Lemma bin_S n k : bin (S n) (S k) = bin n k + bin n (S k). Proof. reflexivity. Qed.
Lemma bin_nonneg n : forall k, 0 <= bin n k.
Proof. induction n as [|n IH]; intros [|k]; rewrite ?bin_0, ?bin_S; try (cbn; lia). pose proof (IH k). pose proof (IH (S k)). lia. Qed.
Lemma bin_pos n : forall k, (k <= n)%nat -> 0 < bin n k.
Proof.
  induction n as [|n IH]; intros [|k] Hk; rewrite ?bin_0, ?bin_S; try lia. pose proof (IH k ltac:(lia)). pose proof (bin_nonneg n (S k)). lia.
Qed.
Lemma bin_left n : forall k, (Z.of_nat k + 1) * bin n (S k) = (Z.of_nat n - Z.of_nat k) * bin n k.
Proof.
  induction n as [|n IH]; intros k.
  - destruct k; cbn [bin]; lia.
  - destruct k as [|k].
    + rewrite bin_S, !bin_0. pose proof (IH 0%nat) as E. rewrite bin_0 in E. lia.
    + rewrite !bin_S. pose proof (IH k) as E1. pose proof (IH (S k)) as E2. rewrite !Nat2Z.inj_succ in *. unfold Z.succ in *.
      replace (_ * (bin n (S k) + bin n (S (S k)))) with ((Z.of_nat k + 1 + 1) * bin n (S k) + (Z.of_nat k + 1 + 1) * bin n (S (S k))) by ring.
      rewrite E2. replace ((Z.of_nat n + 1 - (Z.of_nat k + 1)) * (bin n k + bin n (S k))) with ((Z.of_nat n - Z.of_nat k) * bin n k + (Z.of_nat n - Z.of_nat k) * bin n (S k)) by ring.
      rewrite <- E1. ring.
Qed.
Lemma bin_diag n k : (Z.of_nat k + 1) * bin (S n) (S k) = (Z.of_nat n + 1) * bin n k.
Proof. rewrite bin_S, Z.mul_add_distr_l, bin_left. ring. Qed.
Lemma bin_central m : 2 ^ Z.of_nat m <= bin (m + m) m.
Proof.
  induction m as [|m IH]; [cbn; lia|]. rewrite Nat2Z.inj_succ, Z.pow_succ_r by lia.
  replace (S m + S m)%nat with (S (S (m + m))) by lia. rewrite bin_S.
  assert (A : bin (m + m) m <= bin (S (m + m)) m).
  { destruct m as [|m]; [rewrite !bin_0; lia|]. rewrite (bin_S (S m + S m) m). pose proof (bin_nonneg (S m + S m) m). lia. }
  assert (B : bin (m + m) m <= bin (S (m + m)) (S m)) by (rewrite bin_S; pose proof (bin_nonneg (m + m) (S m)); lia). lia.
Qed.

(** k C(n,k) divides every common multiple of 1 .. n *)
Lemma bin_divides k : forall n L, (1 <= k <= n)%nat -> (forall j, 1 <= j <= Z.of_nat n -> (j | L)) -> (Z.of_nat k * bin n k | L).
Proof.
  induction k as [|k IH]; intros n L Hk HL; [lia|]. destruct n as [|n]; [lia|].
  destruct k as [|k].
  { change (Z.of_nat 1) with (Z.of_nat 0 + 1). rewrite bin_diag, bin_0. apply HL. lia. }
  destruct (IH (S n) L ltac:(lia) HL) as [u Hu]. destruct (IH n L ltac:(lia)) as [v Hv]; [intros j Hj; apply HL; lia|].
  exists (v - u). pose proof (bin_diag n (S k)) as E1. pose proof (bin_diag n k) as E2. pose proof (bin_left n k) as E3.
  rewrite !Nat2Z.inj_succ in *. unfold Z.succ in *. rewrite E1. pose proof (bin_pos n k ltac:(lia)) as P0.
  assert (E4 : u * (Z.of_nat n + 1) = v * (Z.of_nat n - Z.of_nat k)).
  { apply (Z.mul_reg_r _ _ (bin n k)); [lia|]. rewrite <- !Z.mul_assoc, <- E2, <- E3. lia. }
  replace ((v - u) * ((Z.of_nat n + 1) * bin n (S k))) with (v * (Z.of_nat n + 1) * bin n (S k) - u * (Z.of_nat n + 1) * bin n (S k)) by ring.
  rewrite E4. rewrite Hv. ring.
Qed.

(** *** A small common multiple *)
Lemma pow_floor p N : 2 <= p -> 1 <= N -> exists e, 0 <= e /\ p ^ e <= N < p ^ (e + 1).
Proof.
  intros Hp HN. assert (G : forall e, 0 <= e -> e < p ^ e) by (intros e He; apply Z.pow_gt_lin_r; lia).
  cut (forall d, 0 <= d -> forall e, 0 <= e -> p ^ e <= N -> N - e <= d -> exists e', 0 <= e' /\ p ^ e' <= N < p ^ (e' + 1)).
  { intros H. apply (H N ltac:(lia) 0 ltac:(lia)); [rewrite Z.pow_0_r; lia|lia]. }
  intros d Hd. pattern d. apply natlike_ind; [| |exact Hd].
  - intros e He L D. pose proof (G e He). lia.
  - intros k Hk IH e He L D. destruct (Z.lt_ge_cases N (p ^ (e + 1))); [now exists e|]. apply (IH (e + 1)); lia.
Qed.
Lemma pow_divides p a e N : 2 <= p -> 0 <= a -> 0 <= e -> p ^ a <= N < p ^ (e + 1) -> (p ^ a | p ^ e).
Proof.
  intros Hp Ha He H. assert (a < e + 1) by (apply (Z.pow_lt_mono_r_iff p); lia).
  exists (p ^ (e - a)). rewrite <- Z.pow_add_r by lia. f_equal. lia.
Qed.
(** the power of p in j *)
Lemma split_power p j : 2 <= p -> 1 <= j -> exists a j', 0 <= a /\ 1 <= j' /\ j = p ^ a * j' /\ ~ (p | j').
Proof.
  intros Hp Hj. assert (Hj0 : 0 <= j) by lia. revert j Hj0 Hj. apply (Z_lt_induction (fun j => 1 <= j -> exists a j', 0 <= a /\ 1 <= j' /\ j = p ^ a * j' /\ ~ (p | j'))).
  intros j IH Hj. destruct (Zdivide_dec p j) as [[c Hc]|N].
  - destruct (IH c) as (a & j' & A & B & C & D); [nia|nia|]. exists (a + 1), j'. split; [lia|]. split; [lia|]. split; [|exact D].
    rewrite Z.pow_add_r, Z.pow_1_r by lia. rewrite Hc, C. ring.
  - exists 0, j. rewrite Z.pow_0_r. split; [lia|]. split; [lia|]. split; [lia|exact N].
Qed.
Lemma common_multiple N ps : 1 <= N -> (forall p, In p ps -> prime p) ->
  exists L, 0 < L <= N ^ Z.of_nat (length ps) /\ forall j, 1 <= j <= N -> (forall q, prime q -> (q | j) -> In q ps) -> (j | L).
Proof.
  intros HN. induction ps as [|p ps IH]; intros HP.
  - exists 1. cbn [length Z.of_nat]. rewrite Z.pow_0_r. split; [lia|]. intros j Hj H. destruct (Z.eq_dec j 1) as [->|]; [apply Z.divide_refl|].
    destruct (exists_prime_divisor j ltac:(lia)) as (q & Hq & D). destruct (H q Hq D).
  - destruct IH as (L & HL & HD); [intros q Hq; apply HP; now right|]. assert (Pp : prime p) by (apply HP; now left). pose proof (prime_ge_2 p Pp).
    destruct (pow_floor p N ltac:(lia) HN) as (e & He & E). exists (p ^ e * L). split.
    + assert (0 < p ^ e) by (apply Z.pow_pos_nonneg; lia). cbn [length]. rewrite Nat2Z.inj_succ, Z.pow_succ_r by lia.
      split; [apply Z.mul_pos_pos; lia|]. apply Z.mul_le_mono_nonneg; lia.
    + intros j Hj H1. destruct (split_power p j ltac:(lia) ltac:(lia)) as (a & j' & A & B & C & D). rewrite C.
      assert (0 < p ^ a) by (apply Z.pow_pos_nonneg; lia).
      apply Z.divide_trans with (p ^ a * L).
      * apply Z.mul_divide_mono_l. apply HD; [nia|]. intros q Hq Dq. destruct (H1 q Hq) as [->|I]; [rewrite C; now apply Z.divide_mul_r|contradiction|exact I].
      * apply Z.mul_divide_mono_r. apply (pow_divides p a e N); try lia. nia.
Qed.

Theorem prime_gap k n m : 0 <= k -> 0 <= n -> 0 < m -> 2 * m <= 2 ^ k -> k * n < m -> exists p, prime p /\ n < p <= 2 * m.
Proof.
  intros Hk Hn Hm H1 H2.
  destruct (existsb (fun p => primeb p && (n <? p)) (zrange 0 (2 * m + 1))) eqn:E.
  - apply existsb_exists in E. destruct E as (p & I & Hp). rewrite andb_true_iff, Z.ltb_lt, primeb_spec in Hp. rewrite in_zrange in I. exists p. split; [tauto|lia].
  - exfalso. assert (HP : forall p, prime p -> p <= 2 * m -> p <= n).
    { intros p Pp Lp. destruct (Z.le_gt_cases p n); auto. exfalso. assert (existsb (fun p => primeb p && (n <? p)) (zrange 0 (2 * m + 1)) = true); [|congruence].
      apply existsb_exists. exists p. pose proof (prime_ge_2 p Pp). rewrite in_zrange, andb_true_iff, Z.ltb_lt, primeb_spec. split; [lia|auto]. }
    set (ps := filter primeb (zrange 1 (n + 1))).
    destruct (common_multiple (2 * m) ps ltac:(lia)) as (L & HL & HD).
    { intros p Hp. apply filter_In in Hp. now apply primeb_spec. }
    assert (LEN : Z.of_nat (length ps) <= n).
    { apply Z.le_trans with (Z.of_nat (length (zrange 1 (n + 1)))); [apply inj_le; unfold ps; clear; induction (zrange 1 (n + 1)) as [|a l IH]; cbn [filter length]; [lia|destruct (primeb a); cbn [length]; lia]|].
      rewrite zrange_length. lia. }
    assert (DV : (Z.of_nat (Z.to_nat m) * bin (Z.to_nat m + Z.to_nat m) (Z.to_nat m) | L)).
    { apply bin_divides; [lia|]. intros j Hj. apply HD; [lia|]. intros q Hq Dq. pose proof (prime_ge_2 q Hq). apply Z.divide_pos_le in Dq; [|lia].
      apply filter_In. rewrite primeb_spec. split; [|exact Hq]. apply in_zrange. specialize (HP q Hq ltac:(lia)). lia. }
    apply Z.divide_pos_le in DV; [|lia]. pose proof (bin_central (Z.to_nat m)) as BC. rewrite Z2Nat.id in * by lia.
    assert (P : 0 < 2 ^ m) by (apply Z.pow_pos_nonneg; lia).
    assert (A : 2 ^ m <= (2 * m) ^ Z.of_nat (length ps)) by nia.
    assert (B : (2 * m) ^ Z.of_nat (length ps) <= (2 ^ k) ^ Z.of_nat (length ps)) by (apply Z.pow_le_mono_l; lia).
    rewrite <- Z.pow_mul_r in B by lia.
    assert (D : 2 ^ (k * Z.of_nat (length ps)) <= 2 ^ (k * n)) by (apply Z.pow_le_mono_r; [lia|apply Z.mul_le_mono_nonneg_l; lia]).
    assert (F : 2 ^ (k * n) < 2 ^ m) by (apply Z.pow_lt_mono_r; lia). lia.
Qed.
Lemma prime_gap_128 n : 1 <= n -> n <= 2 ^ 56 -> exists p, prime p /\ n < p <= 128 * n + 128.
Proof.
  intros H1 H2. destruct (prime_gap 64 n (64 * n + 1)) as (p & Pp & Hp); try lia.
  exists p. split; [exact Pp|lia].
Qed.
