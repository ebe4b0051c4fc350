(** Sums over primes by index, rough numbers by least prime factor, special leaves
    by index. *)
From Coq Require Import ZArith List Bool Lia Znumtheory.
From Verif.Base Require Import Res Word Zl Arr.
From Verif.Spec Require Import Primes LMOSpec.
From Verif.Proofs Require Import Primes NT LMO Tables PhiSum.
Import ListNotations.
Open Scope Z_scope.
Local Ltac Zify.zify_post_hook ::= idtac.

(** The b-th prime, as found in a table of the primes up to y *)
Definition pr (y b : Z) : Z := nth (Z.to_nat b) (prime_table y) 0.

Lemma pr_arr y : arr (prime_table y) (pi y + 1) (pr y).
Proof. rewrite <- prime_table_len. apply arr_nth. Qed.
Lemma pr_get y b : 0 <= b <= pi y -> aget (prime_table y) b = Ok (pr y b).
Proof. intros H. apply (arr_get _ _ _ _ (pr_arr y)). lia. Qed.
Lemma pr_spec y b : 1 <= b <= pi y -> prime (pr y b) /\ pi (pr y b) = b /\ pr y b <= y.
Proof.
  intros H. destruct (prime_table_get y b H) as (p & E & P). rewrite pr_get in E by lia. injection E as ->. exact P.
Qed.
Lemma pr_0 y : pr y 0 = 0. Proof. reflexivity. Qed.
Lemma pr_pi y p : prime p -> p <= y -> pr y (pi p) = p.
Proof.
  intros Hp Hy. pose proof (prime_table_prime y p Hp Hy) as E. rewrite pr_get in E; [congruence|].
  split; [apply pi_nonneg|now apply pi_mono].
Qed.
Lemma pr_mono y a b : 0 <= a -> a < b -> b <= pi y -> pr y a < pr y b.
Proof.
  intros H1 H2 H3. destruct (pr_spec y b ltac:(lia)) as (P1 & P2 & P3).
  destruct (Z.eq_dec a 0) as [->|Na]; [rewrite pr_0; pose proof (prime_ge_2 _ P1); lia|].
  destruct (pr_spec y a ltac:(lia)) as (Q1 & Q2 & Q3). apply prime_pi_lt; auto. lia.
Qed.
Lemma pr_mono_le y a b : 0 <= a -> a <= b -> b <= pi y -> pr y a <= pr y b.
Proof. intros. destruct (Z.eq_dec a b) as [->|]; [lia|]. pose proof (pr_mono y a b); lia. Qed.
Lemma pr_ge2 y b : 1 <= b <= pi y -> 2 <= pr y b.
Proof. intros H. destruct (pr_spec y b H) as (P & _). now apply prime_ge_2. Qed.
Lemma pr_le y b : 0 <= y -> 0 <= b <= pi y -> 0 <= pr y b <= y.
Proof. intros Hy Hb. destruct (Z.eq_dec b 0) as [->|]; [rewrite pr_0; lia|]. pose proof (pr_ge2 y b ltac:(lia)). destruct (pr_spec y b ltac:(lia)) as (_ & _ & ?). lia. Qed.

Lemma psum_index y f g : (forall p, prime p -> p <= y -> g (pi p) = f p) -> psum 2 y f = sumr 1 (pi y + 1) g.
Proof.
  destruct (Z.lt_ge_cases y 1) as [L|G].
  { intros _. rewrite psum_empty, pi_small by lia. now rewrite sumr_empty by lia. }
  replace y with (1 + (y - 1)) by ring. assert (Hd : 0 <= y - 1) by lia.
  generalize dependent (y - 1). clear G y. intros d Hd. pattern d. apply natlike_ind; [| |exact Hd].
  - intros _. reflexivity.
  - intros k Hk IH HG. unfold Z.succ in *. rewrite Z.add_assoc in *. rewrite psum_succ by lia.
    rewrite IH by (intros; apply HG; auto; lia). rewrite pi_succ.
    destruct (primeb (1 + k + 1)) eqn:E; [|rewrite !Z.add_0_r; reflexivity].
    pose proof (pi_nonneg (1 + k)). rewrite (sumr_snoc 1 (pi (1 + k) + 1)) by lia. f_equal. apply primeb_spec in E.
    rewrite <- (HG _ E) by lia. f_equal. rewrite (pi_prime _ E). replace (1 + k + 1 - 1) with (1 + k) by ring. lia.
Qed.

(** *** m is free of the primes up to p iff its least factor is larger *)
Lemma rough_lpf p m : prime p -> 2 <= m -> rough (pi p) m <-> p < least_factor m.
Proof.
  intros Hp Hm. destruct (least_factor_spec m Hm) as (L1 & L2 & L3). split.
  - intros R. destruct (Z.lt_ge_cases p (least_factor m)); auto. elim (R _ L1); auto. now apply pi_mono.
  - intros H q Hq Hpq Hd. pose proof (L3 q Hq Hd). apply (prime_pi_le q p Hq) in Hpq. lia.
Qed.
Lemma roughb_lpf p m : prime p -> p < 2 ^ 31 - 1 -> 1 <= m -> roughb (pi p) m = (p <? lpf_value m).
Proof.
  intros Hp Hp31 Hm. unfold lpf_value. destruct (Z.eqb_spec m 0); [lia|]. destruct (Z.eqb_spec m 1) as [->|].
  - rewrite roughb_1. symmetry. now apply Z.ltb_lt.
  - pose proof (rough_lpf p m Hp ltac:(lia)) as R. rewrite <- (roughb_spec _ _ Hm) in R.
    destruct (roughb (pi p) m), (Z.ltb_spec p (least_factor m)); auto; exfalso.
    + destruct R as [R _]. specialize (R eq_refl). lia.
    + destruct R as [_ R]. specialize (R H). discriminate.
Qed.
Lemma lpf_pos m : 1 <= m -> 0 < lpf_value m.
Proof.
  intros Hm. unfold lpf_value. destruct (Z.eqb_spec m 0); [lia|]. destruct (Z.eqb_spec m 1); [reflexivity|].
  destruct (least_factor_spec m ltac:(lia)) as (L1 & _). pose proof (prime_ge_2 _ L1). lia.
Qed.
(** the same by index; index 0 means no condition *)
Lemma roughb_lpf_pr y b m : y < 2 ^ 31 - 1 -> 0 <= b <= pi y -> 1 <= m -> roughb b m = (pr y b <? lpf_value m).
Proof.
  intros Hy Hb Hm. destruct (Z.eq_dec b 0) as [->|].
  - rewrite pr_0, roughb_le0 by lia. symmetry. apply Z.ltb_lt, lpf_pos. lia.
  - destruct (pr_spec y b ltac:(lia)) as (P1 & P2 & P3). rewrite <- P2 at 1. apply roughb_lpf; auto. lia.
Qed.

(** *** Special leaves by index; the largest prime <= y has none *)
Lemma S2_prime_top x y p : prime p -> p <= y -> pi p = pi y -> S2_prime x y p = 0.
Proof.
  intros Hp Hpy E. pose proof (prime_ge_2 p Hp). unfold S2_prime. apply sumr_zero. intros m Hm. unfold leaf.
  assert (1 <= y / p) by (apply Z.div_le_lower_bound; lia).
  destruct (roughb (pi p) m) eqn:R; [|reflexivity]. apply roughb_spec in R; [|lia]. rewrite E in R.
  apply rough_above in R; lia.
Qed.
Lemma S2_sum_index x y c : 0 <= c ->
  S2_sum x y c = sumr (c + 1) (pi y) (fun b => S2_prime x y (pr y b)).
Proof.
  intros Hc. unfold S2_sum.
  rewrite (psum_index y _ (fun b => if c <? b then S2_prime x y (pr y b) else 0)).
  2:{ intros p Hp Hpy. now rewrite pr_pi. }
  destruct (Z.le_gt_cases (pi y) c) as [L|G].
  - rewrite (sumr_empty (c + 1)) by lia. apply sumr_zero. intros b Hb. destruct (Z.ltb_spec c b); [lia|reflexivity].
  - rewrite (sumr_split 1 (c + 1)) by lia. rewrite sumr_zero.
    2:{ intros b Hb. destruct (Z.ltb_spec c b); [lia|reflexivity]. }
    rewrite sumr_snoc by lia. destruct (Z.ltb_spec c (pi y)); [|lia].
    destruct (pr_spec y (pi y) ltac:(lia)) as (P1 & P2 & P3).
    rewrite (S2_prime_top x y (pr y (pi y))) by auto. rewrite Z.add_0_r, Z.add_0_l. apply sumr_ext. intros b Hb.
    destruct (Z.ltb_spec c b); [reflexivity|lia].
Qed.

(** *** The final combination *)
Lemma prime_sum_combine x y c : 1 <= y <= x -> x < (y + 1) ^ 3 -> 0 <= c <= pi y ->
  S1_sum x y c + S2_sum x y c + prime_sum y - 1 - P2_sum x y = prime_sum x.
Proof. intros Hy Hx Hc. rewrite (meissel_sum x y Hy Hx). rewrite (lmo_split x y c) by lia. ring. Qed.
