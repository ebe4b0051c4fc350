(** S2_hard computes the sum of the hard special leaves. *)
From Coq Require Import ZArith List Bool Lia Znumtheory Permutation.
From Verif.Base Require Import Res Word Zl Arr IType Par.
From Verif.Spec Require Import Primes LMOSpec S2Spec WheelSpec.
From Verif.Model Require Import Accum Imath Primesieve PiTable FactorTable S2 S2LoadBalancer S2Hard.
From Verif.Proofs Require Import Primes NT LMO Accum Imath Tables PiTable Phi Leaf FactorTable Libdivide S2Leaf S2 HardLeaf HardBound HardLoops S2LoadBalancer.
Import ListNotations.
Open Scope Z_scope.
Local Ltac Zify.zify_post_hook ::= idtac.

Definition oracles_ok (z : Z) (o : hard_oracles) : Prop :=
  (forall n, 1 <= n -> Permutation (ho_order o n) (zrange 0 n)) /\
  0 <= ho_size o <= Z.sqrt z /\ (forall r, obs_ok (Z.sqrt z) (ho_obs o r)) /\ (forall r, valid_sched (ho_sched o r)).

Section Top.
  Context (o : hard_oracles) (x y z c threads : Z).
  Hypothesis (Ho : oracles_ok z o) (Hth : in_s 32 threads).
  Hypothesis (Hy : 1 <= y) (Hyx : y * y <= x) (Hz : z = x / y) (Hzb : z <= 2 ^ 59 - 2 ^ 34) (Hzc : z <= 2 ^ 57 \/ 4 <= c) (Hyb : y <= 2 ^ 48) (Hc : 0 <= c <= 9) (Hc4 : c = pi y \/ 4 <= c).

  Lemma x_108 : x < 2 ^ 108.
  Proof.
    pose proof (Z.mul_succ_div_gt x y ltac:(lia)) as G. rewrite <- Hz in G. assert (y * Z.succ z <= 2 ^ 48 * (2 ^ 59 + 1)); [|lia].
    pose proof (Hyz x y z Hy Hyx Hz). apply Z.mul_le_mono_nonneg; lia.
  Qed.
  Lemma hard_budget w : w = 128 /\ x < 2 ^ 63 \/ w = 256 ->
    sumr (c + 1) (hard_B y z + 1) (fun b => Wa (hard_leaf x y) x y (pr z b) 1 (z + 1) (fun n => phi_sum n (b - 1))) <= smax w.
  Proof.
    intros Hw. pose proof x_108. pose proof (Hyz x y z Hy Hyx Hz) as HYZ.
    assert (HB : hard_B y z <= pi y) by (unfold hard_B; apply pi_mono; lia).
    destruct (Z.le_gt_cases (hard_B y z) c) as [L|G].
    { rewrite sumr_empty by lia. destruct Hw as [[-> _]| ->]; discriminate. }
    eapply Z.le_trans; [apply Wa_sum; lia|]. destruct Hc4 as [->|C4]; [lia|].
    destruct Hw as [[-> Hx]| ->]; [apply S2_abs_128; lia|apply S2_abs_256; lia].
  Qed.

  Lemma master_ok w primes factors : w = 128 /\ x < 2 ^ 63 \/ w = 256 ->
    (forall n, 1 < n <= y -> coprime210 n = true -> exists v, ft_lpf factors (gi n) = Ok v /\
      (mu n = 0 -> v = 0) /\ (mu n <> 0 -> ft_mu factors (gi n) = Ok (mu n)) /\
      (mu n <> 0 -> forall p, prime p -> p * p <= y -> p < n -> (p < v <-> p < least_factor n))) ->
    (forall b, 0 <= b <= pi (z / Z.sqrt y) -> pr z b <= y -> aget primes b = Ok (pr z b)) ->
    wp (S2_hard_master w o x y z c primes factors threads) (fun v => v = S2_hard_sum x y c).
  Proof.
    intros Hw Hft Hpr. destruct Ho as (O1 & O2 & O3 & O4). pose proof (Hyz x y z Hy Hyx Hz) as HYZ. pose proof (sqrty_pos y Hy) as SY.
    pose proof (M_le_z x y z _ Hy Hyx Hz eq_refl) as MZ. pose proof (M_sqrtz x y z _ Hy Hyx Hz eq_refl) as MS. pose proof (Z.sqrt_nonneg z) as SZ.
    pose proof (sqrtz_bound x y z Hy Hyx Hz Hzb) as SB.
    unfold S2_hard_master. cbv zeta. rewrite schk64 by lia. rewrite bind_Ok. rewrite zdiv_ok by lia. rewrite bind_Ok.
    apply wp_bind. eapply wp_mono; [apply (lb_min_size_ok (Z.sqrt z)); [lia|lia]|]. intros ms (M1 & M2).
    apply wp_bind. eapply wp_mono; [apply PiTable_lookup; lia|]. intros pt (_ & Hpt). rewrite Hpt by lia. rewrite bind_Ok.
    assert (W1 : width w) by (destruct Hw as [[-> _]| ->]; [apply width_128|apply width_256]).
    apply (master_loop_ok w x y z c (z / Z.sqrt y) factors primes pt (ho_few o) Hy Hyx Hz Hzb Hzc W1 Hyb eq_refl Hft Hpt Hpr Hc Hc4 (hard_budget w Hw) (ho_leaf o) (ho_obs o) (ho_sched o)); auto.
    pose proof (pi_mono (Z.min y (Z.sqrt z)) (Z.sqrt z) ltac:(lia)). unfold hard_B. lia.
  Qed.

  Theorem S2_hard_ok : S2_hard o x y z c threads = Ok (S2_hard_sum x y c).
  Proof.
    apply wp_eq. destruct Ho as (O1 & O2 & O3 & O4). pose proof (Hyz x y z Hy Hyx Hz) as HYZ. pose proof (sqrty_pos y Hy) as SY.
    pose proof (M_le_z x y z _ Hy Hyx Hz eq_refl) as MZ.
    assert (PR : forall f, (forall p, 0 <= p <= y -> f p = p) -> forall b, 0 <= b <= pi (z / Z.sqrt y) -> pr z b <= y -> aget (map f (generate_primes (z / Z.sqrt y))) b = Ok (pr z b)).
    { intros f Hf b Hb Hb2. pose proof (pi_mono _ _ MZ). assert (P0 : 0 <= pr z b). { destruct (Z.eq_dec b 0) as [->|]; [rewrite pr_0; lia|]. destruct (pr_spec z b ltac:(lia)) as (P & _). pose proof (prime_ge_2 _ P). lia. }
      rewrite <- (Hf (pr z b)) by lia. apply nth_error_aget_map. unfold generate_primes. rewrite (pr_get _ b) by lia. f_equal. apply pr_same; lia. }
    assert (FT : forall T, (T = 2 ^ 16 - 1 \/ T = 2 ^ 32 - 1) -> y <= ft_max T -> wp (FactorTable T y threads (ho_order o)) (fun f => forall n, 1 < n <= y -> coprime210 n = true -> exists v, ft_lpf f (gi n) = Ok v /\
      (mu n = 0 -> v = 0) /\ (mu n <> 0 -> ft_mu f (gi n) = Ok (mu n)) /\
      (mu n <> 0 -> forall p, prime p -> p * p <= y -> p < n -> (p < v <-> p < least_factor n)))).
    { intros T HT HyT. eapply wp_mono; [apply (ft_lookup T y threads); auto; lia|]. intros f Hf n Hn Hcop. destruct (Hf n ltac:(lia) Hcop) as (i & v & E1 & E2 & E3).
      rewrite get_index_ok in E1 by lia. injection E1 as <-. exists v. exact E3. }
    unfold S2_hard. destruct (Z.leb_spec y (ft_max (2 ^ 16 - 1))) as [L|L].
    - apply wp_bind. eapply wp_mono; [apply FT; auto|]. intros f Hf. rewrite zdiv_ok by lia. rewrite bind_Ok. apply master_ok; auto.
      { destruct (Z.leb_spec x (2 ^ 63 - 1)); [left; split; [reflexivity|lia]|right; reflexivity]. }
      apply PR. intros p Hp. change (ft_max (2 ^ 16 - 1)) with 4294705155 in L. apply (uw_small 32). lia.
    - apply wp_bind. eapply wp_mono; [apply FT; auto|]. { change (ft_max (2 ^ 32 - 1)) with 18446744056529682435. lia. }
      intros f Hf. rewrite zdiv_ok by lia. rewrite bind_Ok. apply master_ok; auto.
      apply PR. intros p Hp. apply swrap64. lia.
  Qed.
End Top.
