(** Fermat's little theorem and Proth's criterion, used to exhibit a large prime. *)
From Coq Require Import ZArith List Bool Lia Znumtheory Zpow_facts Permutation.
From Verif.Base Require Import Zl.
From Verif.Proofs Require Import Primes NT.
Import ListNotations.
Open Scope Z_scope.

Definition zprod (l : list Z) : Z := fold_right Z.mul 1 l.
Lemma zprod_cons a l : zprod (a :: l) = a * zprod l. Proof. reflexivity. Qed.
Lemma zprod_perm l l' : Permutation l l' -> zprod l = zprod l'.
Proof. induction 1; rewrite ?zprod_cons; auto; try lia. Qed.

Lemma zprod_mod p a l : 0 < p ->
  zprod (map (fun i => a * i mod p) l) mod p = (a ^ Z.of_nat (length l) * zprod l) mod p.
Proof.
  intros Hp. induction l as [|i l IH]; [reflexivity|].
  cbn [map]. rewrite !zprod_cons. rewrite Z.mul_mod, IH, Z.mod_mod by lia.
  rewrite <- Z.mul_mod by lia. f_equal. cbn [length]. rewrite Nat2Z.inj_succ, Z.pow_succ_r by lia. ring.
Qed.

Lemma zprod_coprime p l : prime p -> (forall i, In i l -> ~ (p | i)) -> ~ (p | zprod l).
Proof.
  intros Hp. induction l as [|i l IH]; intros H D.
  - apply Z.divide_1_r_nonneg in D; [|apply prime_ge_2 in Hp; lia]. apply prime_ge_2 in Hp. lia.
  - rewrite zprod_cons in D. apply prime_mult in D; auto. destruct D as [D|D].
    + apply (H i); auto. now left.
    + apply IH; auto. intros j Hj. apply H. now right.
Qed.

Lemma NoDup_map_in {A B} (f : A -> B) l : NoDup l ->
  (forall a b, In a l -> In b l -> f a = f b -> a = b) -> NoDup (map f l).
Proof.
  induction 1 as [|a l Hn Hd IH]; intros Hi; cbn [map]; constructor.
  - rewrite in_map_iff. intros (b & E & Hb). apply Hi in E; [subst; auto|now right|now left].
  - apply IH. intros; apply Hi; auto; now right.
Qed.

Lemma mod_eq_divide a b p : 0 < p -> a mod p = b mod p -> (p | a - b).
Proof. intros Hp E. apply Z.mod_divide; [lia|]. rewrite Zminus_mod, E, Z.sub_diag. apply Zmod_0_l. Qed.

Lemma small_not_divide p i : 0 < i < p -> ~ (p | i).
Proof. intros H D. apply Z.divide_pos_le in D; lia. Qed.

Lemma fermat p a : prime p -> ~ (p | a) -> a ^ (p - 1) mod p = 1.
Proof.
  intros Hp Ha. pose proof (prime_ge_2 p Hp) as Hp2. set (l := zrange 1 p). set (f := fun i => a * i mod p).
  assert (Hin : forall i, In i l -> 1 <= i < p) by (intros i Hi; now apply in_zrange).
  assert (HP : Permutation (map f l) l).
  { apply NoDup_Permutation_bis.
    - apply NoDup_map_in; [apply zrange_NoDup|]. intros i j Hi Hj E. apply Hin in Hi. apply Hin in Hj.
      apply mod_eq_divide in E; [|lia]. rewrite <- Z.mul_sub_distr_l in E. apply prime_mult in E; auto.
      destruct E as [E|E]; [tauto|]. destruct (Z.lt_trichotomy i j) as [L|[L|L]]; auto.
      + apply Z.divide_opp_r in E. exfalso. apply (small_not_divide p (- (i - j))); auto; lia.
      + exfalso. apply (small_not_divide p (i - j)); auto; lia.
    - now rewrite map_length.
    - intros k Hk. apply in_map_iff in Hk. destruct Hk as (i & <- & Hi). apply Hin in Hi. apply in_zrange.
      pose proof (Z.mod_pos_bound (a * i) p ltac:(lia)). unfold f.
      assert (a * i mod p <> 0); [|lia]. intros E. apply Z.mod_divide in E; [|lia].
      apply prime_mult in E; auto. destruct E as [E|E]; [tauto|]. apply (small_not_divide p i); auto; lia. }
  assert (HN : ~ (p | zprod l)).
  { apply zprod_coprime; auto. intros i Hi. apply Hin in Hi. apply small_not_divide. lia. }
  pose proof (zprod_mod p a l ltac:(lia)) as E. fold f in E. rewrite (zprod_perm _ _ HP) in E.
  unfold l in E at 2. rewrite zrange_length, Z2Nat.id in E by lia. symmetry in E.
  apply mod_eq_divide in E; [|lia].
  replace (a ^ (p - 1) * zprod l - zprod l) with ((a ^ (p - 1) - 1) * zprod l) in E by ring.
  apply prime_mult in E; auto. destruct E as [[k E]|E]; [|tauto].
  replace (a ^ (p - 1)) with (1 + k * p) by lia. rewrite Z.mod_add by lia. apply Z.mod_small. lia.
Qed.

(** Square n times modulo m. *)
Fixpoint sqn (n : nat) (b m : Z) : Z := match n with O => b | S n => sqn n (b * b mod m) m end.
Lemma sqn_pow n : forall b m, 0 < m -> sqn n b m mod m = b ^ (2 ^ Z.of_nat n) mod m.
Proof.
  induction n as [|n IH]; intros b m Hm.
  - cbn [sqn]. change (2 ^ Z.of_nat 0) with 1. now rewrite Z.pow_1_r.
  - cbn [sqn]. rewrite IH by auto. rewrite <- Zpower_mod by lia.
    rewrite Nat2Z.inj_succ, Z.pow_succ_r, Z.pow_mul_r, Z.pow_2_r by lia. reflexivity.
Qed.

(** 2-adic decomposition *)
Lemma two_adic n : 0 < n -> exists s t, 0 <= s /\ n = 2 ^ s * (2 * t + 1) /\ 0 <= t.
Proof.
  intros Hn. assert (H0 : 0 <= n) by lia. revert Hn. pattern n. apply Zlt_0_ind; [|exact H0]. clear n H0.
  intros n IH _ Hn. destruct (Z.Even_or_Odd n) as [[k ->]|[k ->]].
  - destruct (IH k) as (s & t & Hs & E & Ht); try lia. exists (s + 1), t. split; [lia|]. split; [|auto].
    rewrite Z.pow_add_r, Z.pow_1_r by lia. lia.
  - exists 0, k. split; [lia|]. split; [|lia]. rewrite Z.pow_0_r. lia.
Qed.

Lemma proth N n b : 1 <= n -> 2 < N -> Z.Odd N -> N < 2 ^ n * 2 ^ n ->
  b ^ (2 ^ (n - 1)) mod N = N - 1 -> prime N.
Proof.
  intros Hn HN Ho Hlt Hb. destruct (prime_dec' N) as [|Hc]; auto. exfalso.
  destruct (composite_divisor N ltac:(lia) Hc) as (p & Hp & Hd & Hpp).
  pose proof (prime_ge_2 p Hp) as Hp2.
  assert (Hodd : p <> 2).
  { intros ->. destruct Hd as [k E], Ho as [j F]. lia. }
  assert (H1 : (p | b ^ (2 ^ (n - 1)) + 1)).
  { apply Z.divide_trans with N; auto. apply Z.mod_divide; [lia|].
    rewrite <- Zplus_mod_idemp_l, Hb. replace (N - 1 + 1) with (1 * N) by ring. apply Z_mod_mult. }
  assert (Hnb : ~ (p | b)).
  { intros D. assert ((p | 1)) as D1.
    { replace 1 with ((b ^ 2 ^ (n - 1) + 1) - b ^ 2 ^ (n - 1)) by ring. apply Z.divide_sub_r; auto.
      assert (0 < 2 ^ (n - 1)) by (apply Z.pow_pos_nonneg; lia).
      replace (2 ^ (n - 1)) with (Z.succ (2 ^ (n - 1) - 1)) by ring. rewrite Z.pow_succ_r by lia.
      now apply Z.divide_mul_l. }
    apply small_not_divide in D1; auto. lia. }
  destruct (two_adic (p - 1) ltac:(lia)) as (s & t & Hs & E & Ht).
  pose proof (fermat p b Hp Hnb) as F. rewrite E in F.
  destruct (Z.le_gt_cases n s) as [L|L].
  - pose proof (Z.pow_le_mono_r 2 n s ltac:(lia) L). assert (0 < 2 ^ n) by (apply Z.pow_pos_nonneg; lia). nia.
  - assert (G : b ^ (2 ^ (n - 1) * (2 * t + 1)) mod p = 1).
    { replace (2 ^ (n - 1) * (2 * t + 1)) with ((2 ^ s * (2 * t + 1)) * 2 ^ (n - 1 - s)).
      - rewrite Z.pow_mul_r by (try apply Z.pow_nonneg; nia). rewrite Zpower_mod by lia. rewrite F.
        rewrite Z.pow_1_l by (apply Z.pow_nonneg; lia). apply Z.mod_small. lia.
      - replace (2 ^ (n - 1)) with (2 ^ s * 2 ^ (n - 1 - s)); [ring|]. rewrite <- Z.pow_add_r by lia. f_equal. lia. }
    rewrite Z.pow_mul_r in G by (try apply Z.pow_nonneg; lia).
    destruct H1 as [k H1]. replace (b ^ 2 ^ (n - 1)) with (-1 + k * p) in G by lia.
    rewrite Zpower_mod, Z.mod_add, <- Zpower_mod in G by lia.
    rewrite Z.pow_add_r, Z.pow_mul_r, Z.pow_1_r in G by lia. change ((-1) ^ 2) with 1 in G.
    rewrite Z.pow_1_l, Z.mul_1_l in G by lia.
    assert (G' : (p | 2)).
    { assert (A : (-1) mod p = 1) by exact G. apply Z.mod_divide; [lia|].
      replace 2 with (1 - (-1)) by ring. rewrite Zminus_mod, A, Z.mod_1_l by lia. reflexivity. }
    apply Z.divide_pos_le in G'; lia.
Qed.

Lemma proth_sqn N k b : 2 < N -> Z.Odd N -> N < 2 ^ Z.of_nat (S k) * 2 ^ Z.of_nat (S k) ->
  sqn k b N mod N = N - 1 -> prime N.
Proof.
  intros HN Ho Hlt Hb. apply (proth N (Z.of_nat (S k)) b); [lia|auto|auto|auto|].
  replace (Z.of_nat (S k) - 1) with (Z.of_nat k) by lia. now rewrite <- sqn_pow by lia.
Qed.

(** 9 * 2^42 + 1 *)
Definition q45 : Z := 39582418599937.
Lemma q45_prime : prime q45.
Proof.
  apply (proth_sqn q45 41 1953125).
  - reflexivity.
  - exists 19791209299968. reflexivity.
  - reflexivity.
  - vm_compute. reflexivity.
Qed.
(** 23 * 2^49 + 1, 5 * 2^55 + 1, 49 * 2^54 + 1 *)
Definition q53 : Z := 12947848928690177.
Lemma q53_prime : prime q53.
Proof.
  apply (proth_sqn q53 48 94143178827).
  - reflexivity.
  - exists 6473924464345088. reflexivity.
  - reflexivity.
  - vm_compute. reflexivity.
Qed.
Definition q57 : Z := 180143985094819841.
Lemma q57_prime : prime q57.
Proof.
  apply (proth_sqn q57 54 243).
  - reflexivity.
  - exists 90071992547409920. reflexivity.
  - reflexivity.
  - vm_compute. reflexivity.
Qed.
Definition q59 : Z := 882705526964617217.
Lemma q59_prime : prime q59.
Proof.
  apply (proth_sqn q59 53 239299329230617529590083).
  - reflexivity.
  - exists 441352763482308608. reflexivity.
  - reflexivity.
  - vm_compute. reflexivity.
Qed.
