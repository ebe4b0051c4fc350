(** A bound for the weights of the special leaves: the intermediate sums of S2_hard and of
    S2 of pi_lmo_parallel1 fit into their types. *)
From Coq Require Import ZArith List Bool Lia Znumtheory.
From Verif.Base Require Import Res Word Zl Arr.
From Verif.Spec Require Import Primes LMOSpec S2Spec.
From Verif.Model Require Import Accum.
From Verif.Proofs Require Import Primes NT LMO Accum Tables PhiSum Leaf S2Leaf Bounds HardLeaf.
Import ListNotations.
Open Scope Z_scope.
Local Ltac Zify.zify_post_hook ::= idtac.

Lemma Wa_aleaf keep x y p lo hi : 1 <= y -> prime p -> 
  Wa keep x y p lo hi (fun n => phi_sum n (pi p - 1)) <= sumr (y / p + 1) (y + 1) (aleaf x p).
Proof.
  intros Hy Pp. pose proof (prime_ge_2 p Pp) as P2. assert (0 <= y / p) by (apply Z.div_pos; lia).
  eapply Z.le_trans; [apply (Wa_le keep x y p lo hi _ (fun n => phi_sum n (pi p - 1)))|].
  - intros n _. pose proof (phi_sum_nonneg n (pi p - 1)). lia.
  - intros n. apply phi_sum_nonneg.
  - apply sumr_le. intros m Hm. pose proof (phi_sum_nonneg (x / (p * m)) (pi p - 1)) as N. unfold lw, aleaf.
    assert (0 <= p * m) by (apply Z.mul_nonneg_nonneg; lia).
    destruct (roughb (pi p) m); cbn [andb]; [|cbn; lia]. apply Z.mul_le_mono_nonneg_r; auto.
    destruct (keep p m); [|cbn; lia]. rewrite Z.abs_opp, Z.abs_mul, (Z.abs_eq (p * m)) by lia.
    destruct (mu_values m) as [E|[E|E]]; rewrite E; cbn [Z.abs]; lia.
Qed.

Lemma Wa_sum keep x y c N D hi : 1 <= y <= N -> 0 <= c -> D <= pi y ->
  sumr (c + 1) (D + 1) (fun b => Wa keep x y (pr N b) 1 hi (fun n => phi_sum n (b - 1))) <= S2_abs x y c.
Proof.
  intros Hy Hc HD. unfold S2_abs. set (F := fun p => if c <? pi p then sumr (y / p + 1) (y + 1) (aleaf x p) else 0).
  assert (F0 : forall p, 0 <= p -> 0 <= F p).
  { intros p Hp. unfold F. destruct (c <? pi p); [|lia]. apply sumr_nonneg. intros m Hm. assert (0 <= y / p). { destruct (Z.eq_dec p 0) as [->|]; [now rewrite Zdiv_0_r|apply Z.div_pos; lia]. } apply aleaf_nonneg; lia. }
  rewrite (psum_index y F (fun b => F (pr y b))) by (intros p Pp Hp; now rewrite pr_pi by (auto; lia)).
  pose proof (pi_nonneg y) as PN. destruct (Z.lt_ge_cases D (c + 1)) as [L|G].
  { rewrite (sumr_empty (c + 1)) by lia. apply sumr_nonneg. intros b Hb. apply F0. destruct (pr_spec y b ltac:(lia)) as (P1 & _). pose proof (prime_ge_2 _ P1). lia. }
  rewrite (sumr_split 1 (c + 1) (pi y + 1)), (sumr_split (c + 1) (D + 1) (pi y + 1)) by lia.
  assert (N1 : forall a b, 1 <= a -> b <= pi y + 1 -> 0 <= sumr a b (fun b => F (pr y b))).
  { intros a b Ha Hb. apply sumr_nonneg. intros k Hk. apply F0. destruct (pr_spec y k ltac:(lia)) as (P1 & _). pose proof (prime_ge_2 _ P1). lia. }
  pose proof (N1 1 (c + 1) ltac:(lia) ltac:(lia)). pose proof (N1 (D + 1) (pi y + 1) ltac:(lia) ltac:(lia)).
  assert (sumr (c + 1) (D + 1) (fun b => Wa keep x y (pr N b) 1 hi (fun n => phi_sum n (b - 1))) <= sumr (c + 1) (D + 1) (fun b => F (pr y b))); [|lia].
  apply sumr_le. intros b Hb. destruct (pr_spec y b ltac:(lia)) as (P1 & P2 & _). pose proof (pi_mono y N ltac:(lia)). rewrite <- (pr_same y N b) by lia.
  unfold F. rewrite P2. destruct (Z.ltb_spec c b); [|lia]. pose proof (Wa_aleaf keep x y (pr y b) 1 hi ltac:(lia) P1) as A. now rewrite P2 in A.
Qed.

Lemma S2_abs_128 x y c : 2 <= c -> 1 <= y -> y * y <= x -> x < 2 ^ 63 -> S2_abs x y c <= smax 128.
Proof.
  intros Hc Hy Hyx Hx. eapply Z.le_trans; [now apply S2_abs_le|]. assert (YB : y <= 6 * 2 ^ 29).
  { destruct (Z.le_gt_cases y (6 * 2 ^ 29)); auto. assert ((6 * 2 ^ 29) * (6 * 2 ^ 29) <= y * y) by (apply Z.mul_le_mono_nonneg; lia). assert (2 ^ 63 < (6 * 2 ^ 29) * (6 * 2 ^ 29)) by reflexivity. lia. }
  pose proof (G6_square x y 29 ltac:(nia) ltac:(lia) Hyx ltac:(lia) YB) as G. change (smax 128) with (2 ^ 127 - 1).
  assert (XX : x * x <= 2 ^ 63 * 2 ^ 63) by (apply Z.mul_le_mono_nonneg; nia).
  replace (2100 * x * (x + 7)) with (2100 * (x * x) + 14700 * x) in G by ring. lia.
Qed.
Lemma S2_abs_256 x y c : 2 <= c -> 1 <= y <= 2 ^ 48 -> y * y <= x -> x < 2 ^ 108 -> S2_abs x y c <= smax 256.
Proof.
  intros Hc Hy Hyx Hx. eapply Z.le_trans; [now apply S2_abs_le|].
  pose proof (G6_square x y 48 ltac:(nia) ltac:(lia) Hyx ltac:(lia) ltac:(lia)) as G. change (smax 256) with (2 ^ 255 - 1).
  assert (XX : x * x <= 2 ^ 108 * 2 ^ 108) by (apply Z.mul_le_mono_nonneg; nia).
  replace (2100 * x * (x + 7)) with (2100 * (x * x) + 14700 * x) in G by ring. lia.
Qed.
