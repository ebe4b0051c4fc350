(** The loops over the hard leaves of one prime in one segment. *)
From Coq Require Import ZArith List Bool Lia Znumtheory.
From Verif.Base Require Import Res Word Zl Arr IType Par.
From Verif.Spec Require Import Primes LMOSpec S2Spec WheelSpec.
From Verif.Model Require Import Accum Imath PiTable BitSieve Fenwick Wheel FactorTable S2 S2LoadBalancer S2Hard.
From Verif.Proofs Require Import Primes NT LMO Accum Bounds Imath Tables Phi Leaf FactorTable BitSieve Fenwick Wheel S2Leaf S2 HardLeaf HardSieve S2LoadBalancer.
Import ListNotations.
Open Scope Z_scope.
Local Ltac Zify.zify_post_hook ::= idtac.

(** Sums of unsieved numbers are differences of phi_sum *)
Lemma phi_sum_snoc n a : 0 <= n -> phi_sum (n + 1) a = phi_sum n a + (if roughb a (n + 1) then n + 1 else 0).
Proof. intros H. unfold phi_sum, Phi. now rewrite sumr_snoc by lia. Qed.
Lemma rough_even a n : 1 <= a -> 1 <= n -> Z.even n = true -> roughb a n = false.
Proof.
  intros Ha Hn He. destruct (roughb a n) eqn:R; auto. exfalso. apply roughb_spec in R; auto. apply (R 2 prime_2); [exact Ha|].
  apply Z.even_spec in He. destruct He as [k ->]. exists k. ring.
Qed.
Lemma phi_isum F a low high k : 1 <= a -> 1 <= low -> Z.odd low = true ->
  (forall i, 0 <= i -> low + 2 * i < high -> F i = roughb a (low + 2 * i)) -> 0 <= k -> low + k < high ->
  isum F low 0 (k / 2 + 1) = phi_sum (low + k) a - phi_sum (low - 1) a.
Proof.
  intros Ha Hl Ho HF Hk. pattern k. apply natlike_ind; [| |exact Hk].
  - intros Hh. change (0 / 2 + 1) with (0 + 1). unfold isum. rewrite sumr_snoc by lia. rewrite sumr_empty by lia. rewrite HF by lia.
    replace (low + 0) with (low - 1 + 1) by ring. rewrite phi_sum_snoc by lia. replace (low - 1 + 1) with low by ring.
    replace (low + 2 * 0) with low by ring. destruct (roughb a low); ring.
  - intros j Hj IH Hh. unfold Z.succ in *. specialize (IH ltac:(lia)). rewrite Z.add_assoc. rewrite phi_sum_snoc by lia.
    destruct (Z.even j) eqn:E.
    + assert (ER : roughb a (low + j + 1) = false).
      { apply rough_even; [lia|lia|]. rewrite !Z.even_add, E. rewrite <- Z.negb_odd, Ho. reflexivity. }
      rewrite ER. apply Z.even_spec in E. destruct E as [h ->]. replace (2 * h + 1) with (1 + h * 2) by ring. rewrite Z.div_add by lia.
      change (1 / 2) with 0. replace (2 * h / 2) with h in IH by (rewrite Z.mul_comm, Z.div_mul by lia; reflexivity).
      replace (0 + h + 1) with (h + 1) by ring. rewrite IH. ring.
    + assert (O : Z.odd j = true) by (rewrite <- Z.negb_even, E; reflexivity). apply Z.odd_spec in O. destruct O as [h ->].
      replace (2 * h + 1 + 1) with ((h + 1) * 2) by ring. rewrite Z.div_mul by lia.
      replace ((2 * h + 1) / 2) with h in IH by (replace (2 * h + 1) with (1 + h * 2) by ring; rewrite Z.div_add by lia; reflexivity).
      unfold isum in *. rewrite sumr_snoc by lia. rewrite IH. rewrite HF by lia. replace (low + (2 * h + 1) + 1) with (low + 2 * (h + 1)) by ring.
      destruct (roughb a (low + 2 * (h + 1))); ring.
Qed.

(** parts of a sum *)
Lemma part_abs lo hi m a K f : lo <= m <= hi -> Z.abs a + sumr lo hi (fun i => Z.abs (f i)) <= K -> Z.abs (a + sumr m hi f) <= K.
Proof.
  intros Hm H. rewrite (sumr_split lo m hi) in H by lia. pose proof (sumr_abs m hi f). pose proof (sumr_nonneg lo m (fun i => Z.abs (f i)) ltac:(intros; apply Z.abs_nonneg)). lia.
Qed.
Lemma part_one lo hi m a K f : lo <= m < hi -> Z.abs a + sumr lo hi (fun i => Z.abs (f i)) <= K -> Z.abs (f m) <= K.
Proof.
  intros Hm H. rewrite (sumr_split lo m hi), (sumr_cons m hi) in H by lia.
  pose proof (sumr_nonneg lo m (fun i => Z.abs (f i)) ltac:(intros; apply Z.abs_nonneg)). pose proof (sumr_nonneg (m + 1) hi (fun i => Z.abs (f i)) ltac:(intros; apply Z.abs_nonneg)). lia.
Qed.
Lemma phi_sum_mono a n n' : 0 <= n <= n' -> phi_sum n a <= phi_sum n' a.
Proof.
  intros H. unfold phi_sum, Phi. rewrite (sumr_split 1 (n + 1) (n' + 1)) by lia.
  assert (0 <= sumr (n + 1) (n' + 1) (fun m => if roughb a m then m else 0)); [|lia]. apply sumr_nonneg. intros i Hi. destruct (roughb a i); lia.
Qed.
Lemma phi_sum_diff a n n' : 0 <= n <= n' -> phi_sum n' a - phi_sum n a <= phi_sum n' 0 - phi_sum n 0.
Proof.
  intros H. unfold phi_sum, Phi. rewrite !(sumr_split 1 (n + 1) (n' + 1)) by lia.
  assert (sumr (n + 1) (n' + 1) (fun m => if roughb a m then m else 0) <= sumr (n + 1) (n' + 1) (fun m => if roughb 0 m then m else 0)); [|lia].
  apply sumr_le. intros i Hi. rewrite (proj2 (roughb_spec 0 i ltac:(lia))); [destruct (roughb a i); lia|].
  intros q Hq Hle. exfalso. pose proof (pi_mono 2 q ltac:(pose proof (prime_ge_2 q Hq); lia)) as PM. change (pi 2) with 1 in PM. lia.
Qed.
Lemma phi_sum_sq n a : 0 <= n -> phi_sum n a <= n * n.
Proof.
  intros H. unfold phi_sum, Phi. apply Z.le_trans with (sumr 1 (n + 1) (fun _ => n)).
  - apply sumr_le. intros i Hi. destruct (roughb a i); lia.
  - rewrite sumr_const by lia. nia.
Qed.

Lemma mul_fits w a b v : width w -> Z.abs a <= 2 ^ 126 -> 0 <= b < 2 ^ 127 -> a * b = v -> Z.abs v <= smax w -> t_mul w a b = Ok v.
Proof.
  intros Hw Ha Hb E H. destruct (smax_pos w Hw) as [S1 _]. rewrite <- E in *. assert (2 ^ 126 <= 2 ^ 127 - 1) by discriminate. apply t_mul_ok; auto; lia.
Qed.

Section Loops.
  Context (wd x y z c M : Z) (factors primes : list Z) (pt : pitable) (few : Z -> Z -> bool).
  Hypothesis (Hy : 1 <= y) (Hyx : y * y <= x) (Hz : z = x / y) (Hzb : z <= 2 ^ 59 - 2 ^ 34) (Hzc : z <= 2 ^ 57 \/ 4 <= c) (Hw : width wd) (Hyb : y <= 2 ^ 48) (HM : M = z / Z.sqrt y).
  Hypothesis Hft : forall n, 1 < n <= y -> coprime210 n = true -> exists v, ft_lpf factors (gi n) = Ok v /\
      (mu n = 0 -> v = 0) /\ (mu n <> 0 -> ft_mu factors (gi n) = Ok (mu n)) /\
      (mu n <> 0 -> forall p, prime p -> p * p <= y -> p < n -> (p < v <-> p < least_factor n)).
  Hypothesis Hpt : forall n, 0 <= n <= M -> pi_get pt n = Ok (pi n).
  Hypothesis Hpr : forall b, 0 <= b <= pi M -> pr z b <= y -> aget primes b = Ok (pr z b).
  Let env := {| h_w := wd; h_x := x; h_y := y; h_z := z; h_c := c; h_factors := factors; h_pi := pt; h_primes := primes; h_few := few |}.
  Let Wb := W (hard_leaf x y) x y.
  Let Wab := Wa (hard_leaf x y) x y.
  Let alive := aliveb (fun p => z / p) x y.

  Lemma Hyz : y <= z. Proof. exact (y_le_z x y z Hy Hyx Hz). Qed.
  Lemma sqrty_pos : 1 <= Z.sqrt y. Proof. change 1 with (Z.sqrt 1). apply Z.sqrt_le_mono. lia. Qed.
  Lemma M_sqrty : Z.sqrt y <= M.
  Proof.
    pose proof sqrty_pos. rewrite HM. apply Z.div_le_lower_bound; [lia|]. pose proof (Z.sqrt_spec y ltac:(lia)) as S1. cbv zeta in S1. pose proof Hyz. lia.
  Qed.
  Lemma M_sqrtz : Z.sqrt z <= M.
  Proof.
    clear Hzb Hzc Hyb. pose proof sqrty_pos. pose proof Hyz. rewrite HM. apply Z.div_le_lower_bound; [lia|]. pose proof (Z.sqrt_spec z ltac:(lia)) as S1. cbv zeta in S1.
    assert (Z.sqrt y <= Z.sqrt z) by (apply Z.sqrt_le_mono; lia). pose proof (Z.sqrt_nonneg z). nia.
  Qed.
  Lemma M_le_z : M <= z.
  Proof. clear Hzb Hzc Hyb. pose proof sqrty_pos. pose proof Hyz. rewrite HM. apply Z.div_le_upper_bound; nia. Qed.
  Lemma M_large p : 0 < p -> y < p * p -> z / p <= M.
  Proof.
    intros Hp Hyp. pose proof sqrty_pos. rewrite HM. pose proof Hyz. apply Z.div_le_compat_l; [lia|]. split; [lia|].
    pose proof (Z.sqrt_spec y ltac:(lia)) as S1. cbv zeta in S1. nia.
  Qed.
  Lemma x_nonneg' : 0 <= x. Proof. exact (x_nonneg x y Hyx). Qed.

  Section OneSeg.
    Context (bs : bitsieve) (N : Z) (F : Z -> bool) (seg low high : Z) (cnt : counter).
    Hypothesis (HR : bs_rep bs N F) (HS : bs_size bs = seg) (He : (2 | seg)) (Hseg : 0 <= seg < 2 ^ 57).
    Hypothesis (Hl : 1 <= low < high) (Hh : high <= low + seg) (Hb : low + 128 * N <= 2 ^ 59) (Hfit : words_fit F low N).
    Hypothesis (HC : cnt_ok cnt seg F low high).
    Context (p phi_b : Z) (f : Z -> Z).
    Hypothesis (Hp : prime p) (Hpy : p <= y).
    Hypothesis Hf : forall n, low <= n < high -> phi_b + isum F low 0 ((n - low) / 2 + 1) = f n.

    Lemma seg_query xn st (Q : Z * Z -> Prop) : low <= xn < high -> st_ok cnt F low (xn - low + 1) st ->
      (forall st', phi_b + snd st' = f xn -> st_ok cnt F low (xn - low + 1) st' -> Q st') ->
      wp (counter_sum cnt bs low high (xn - low) st) Q.
    Proof.
      intros Hx HI HQ. apply (counter_sum_ok bs N F seg low high); auto; [lia|]. intros st' E S. apply HQ; auto. rewrite E. now apply Hf.
    Qed.

    Lemma high_lt : high <= 2 ^ 59.
    Proof. pose proof (seg_N bs N F seg HR HS). lia. Qed.

    (** the accumulators have room for the leaves *)
    Definition fit (acc : Z * Z) : Prop := (forall n, low <= n < high -> 0 <= f n < 2 ^ 127) /\
      Z.abs (fst acc) + Wab p low high f <= smax wd /\ Z.abs (snd acc) + Wab p low high (fun _ => 1) <= smax wd.

    Lemma m_loop_ok acc (Q : Z * Z -> Prop) : fit acc -> 11 <= p -> p * p <= y ->
      Q (fst acc + Wb p low high f, snd acc + Wb p low high (fun _ => 1)) ->
      p < Z.min (x / p / low) y ->
      wp (hard_m_loop env cnt bs low high p (x / p) phi_b (gi (Z.max (Z.min (x / p / high) y) (y / p))) (gi (Z.min (x / p / low) y)) acc) Q.
    Proof.
      intros (Ff & F1 & F2) H11 Hpp HQ HA. unfold Wb in HQ. unfold Wab, Wa in F1, F2. pose proof high_lt as HH. pose proof x_nonneg' as Hx0.
      rewrite !(W_small_gn (hard_leaf x y) x y Hy Hyx (hard_small x y Hy Hyx)) in HQ by (auto; lia).
      rewrite (Wh_small_gn (hard_leaf x y) x y Hy Hyx (hard_small x y Hy Hyx)) in F1, F2 by (auto; lia).
      destruct (smax_pos wd Hw) as [SM1 SM2].
      assert (Hyp : 1 <= y / p) by (apply Z.div_le_lower_bound; nia).
      set (mnv := Z.max (Z.min (x / p / high) y) (y / p)) in *. set (mxv := Z.min (x / p / low) y) in *.
      set (mn := gi mnv) in *. set (mx := gi mxv) in *.
      assert (Hx2 : 0 <= x / p) by (apply Z.div_pos; lia).
      destruct (gi_bounds mnv ltac:(lia)) as (B0 & B1 & B2). fold mn in B0, B1, B2.
      destruct (gi_bounds mxv ltac:(lia)) as (C0 & C1 & C2). fold mx in C0, C1, C2.
      unfold hard_m_loop.
      apply (loop_rule _ (fun '(m, st, s2, mu_b) => m <= mx /\ (mn <= m \/ m = mx) /\
          (exists L, st_ok cnt F low L st /\ (mn < m -> L <= x / p / gn m - low + 1)) /\
          s2 = fst acc + sumr (m + 1) (mx + 1) (fun j => small_term x p f (gn j)) /\
          mu_b = snd acc + sumr (m + 1) (mx + 1) (fun j => small_term x p (fun _ => 1) (gn j)))
        (fun '(m, _, _, _) => Z.max 0 (m - mn))).
      - intros [[[m st] s2] mu_b] (I1 & I2 & (L & IL & IL2) & I3 & I4).
        destruct (Z.gtb_spec m mn) as [G|G].
        + assert (Hgm : mnv < gn m) by (pose proof (gn_mono_le (mn + 1) m ltac:(lia)); lia).
          assert (Hgm2 : gn m <= mxv) by (pose proof (gn_mono_le m mx ltac:(lia)); lia).
          assert (Hgy : gn m <= y) by (unfold mxv in Hgm2; lia). assert (Hg1 : 1 < gn m) by lia.
          assert (Hpm : p < gn m). { assert (p <= y / p) by (apply Z.div_le_lower_bound; lia). lia. }
          destruct (Hft (gn m) ltac:(lia) (gn_coprime m)) as (v & V1 & V2 & V3 & V4). rewrite gi_gn in V1, V3.
          change (h_factors env) with factors. rewrite V1, bind_Ok.
          assert (S1 : sumr (m - 1 + 1) (mx + 1) (fun j => small_term x p f (gn j)) = small_term x p f (gn m) + sumr (m + 1) (mx + 1) (fun j => small_term x p f (gn j))).
          { replace (m - 1 + 1) with m by ring. now rewrite (sumr_cons m) by lia. }
          assert (S2 : sumr (m - 1 + 1) (mx + 1) (fun j => small_term x p (fun _ => 1) (gn j)) = small_term x p (fun _ => 1) (gn m) + sumr (m + 1) (mx + 1) (fun j => small_term x p (fun _ => 1) (gn j))).
          { replace (m - 1 + 1) with m by ring. now rewrite (sumr_cons m) by lia. }
          assert (MS : mn < m - 1 -> x / p / gn m <= x / p / gn (m - 1)).
          { intros Hm1. apply Z.div_le_compat_l; [lia|]. pose proof (gn_mono (m - 1) m ltac:(lia)). pose proof (gn_pos (m - 1) ltac:(lia)). lia. }
          assert (RB : roughb (pi p) (gn m) = true <-> p < least_factor (gn m)).
          { rewrite roughb_spec by lia. apply rough_lpf; auto; lia. }
          destruct (Z.ltb_spec p v) as [Lv|Lv].
          * assert (Hmu : mu (gn m) <> 0) by (intros E; rewrite V2 in Lv by exact E; lia).
            assert (R : roughb (pi p) (gn m) = true) by (apply RB, V4; auto).
            rewrite get_number_ok by lia. rewrite bind_Ok. rewrite zdiv_ok by lia. rewrite bind_Ok.
            assert (Hxn : low <= x / p / gn m < high).
            { split; [apply (proj2 (div_le_iff (x / p) (gn m) low ltac:(lia)))|apply (proj2 (div_lt_iff (x / p) (gn m) high ltac:(lia)))].
              - rewrite Z.mul_comm. apply (proj1 (div_le_iff (x / p) low (gn m) ltac:(lia))). unfold mxv in Hgm2. lia.
              - rewrite Z.mul_comm. apply (proj1 (div_lt_iff (x / p) high (gn m) ltac:(lia))). unfold mnv in Hgm. lia. }
            rewrite swrap64 by lia. apply wp_bind. apply seg_query; [lia|apply (st_ok_mono _ _ _ L); auto; lia|].
            intros st' Ev Sv. rewrite Ev. specialize (Ff _ Hxn). rewrite schk128 by lia. rewrite bind_Ok. rewrite V3 by exact Hmu. rewrite bind_Ok.
            assert (MB : Z.abs (mu (gn m) * gn m) <= y). { rewrite Z.abs_mul. destruct (mu_values (gn m)) as [E|[E|E]]; rewrite E; cbn [Z.abs]; lia. }
            rewrite schk64 by lia. rewrite bind_Ok.
            assert (PB : Z.abs (mu (gn m) * gn m * p) <= y * y). { rewrite Z.abs_mul, (Z.abs_eq p) by lia. apply Z.mul_le_mono_nonneg; lia. }
            assert (YY : y * y <= 2 ^ 126) by (apply Z.le_trans with (2 ^ 48 * 2 ^ 48); [apply Z.mul_le_mono_nonneg; lia|discriminate]).
            rewrite schk128 by lia. rewrite bind_Ok. change (h_w env) with wd.
            assert (ET : forall g, mu (gn m) * gn m * p * g (x / p / gn m) = - small_term x p g (gn m)). { intros g. unfold small_term. rewrite R. ring. }
            assert (T1 : Z.abs (small_term x p f (gn m)) <= smax wd) by (refine (part_one (mn + 1) (mx + 1) m _ _ (fun j => small_term x p f (gn j)) _ F1); lia).
            rewrite (mul_fits wd _ _ _ Hw (Z.le_trans _ _ _ PB YY) Ff (ET f)) by (rewrite Z.abs_opp; exact T1). rewrite bind_Ok.
            assert (ET1 : mu (gn m) * gn m * p = - small_term x p (fun _ => 1) (gn m)) by (rewrite <- (ET (fun _ => 1)); ring). rewrite ET1.
            assert (A1 : Z.abs (s2 - - small_term x p f (gn m)) <= smax wd).
            { pose proof (part_abs (mn + 1) (mx + 1) (m - 1 + 1) _ _ (fun j => small_term x p f (gn j)) ltac:(lia) F1) as PA. rewrite S1 in PA. rewrite I3. eapply Z.le_trans; [|exact PA]. apply Z.eq_le_incl. f_equal. ring. }
            rewrite (t_sub_ok wd s2) by auto. rewrite bind_Ok.
            assert (A2 : Z.abs (mu_b - - small_term x p (fun _ => 1) (gn m)) <= smax wd).
            { pose proof (part_abs (mn + 1) (mx + 1) (m - 1 + 1) _ _ (fun j => small_term x p (fun _ => 1) (gn j)) ltac:(lia) F2) as PA. rewrite S2 in PA. rewrite I4. eapply Z.le_trans; [|exact PA]. apply Z.eq_le_incl. f_equal. ring. }
            rewrite (t_sub_ok wd mu_b) by auto. rewrite bind_Ok. apply wp_ok. clear MB PB T1 A1 A2 F1 F2.
            split; [|lia]. split; [lia|]. split; [lia|]. split; [exists (x / p / gn m - low + 1); split; auto; intros; specialize (MS ltac:(lia)); lia|].
            rewrite S1, S2, I3, I4. split; ring.
          * apply wp_ok. split; [|lia]. split; [lia|]. split; [lia|]. split; [exists L; split; auto; intros; specialize (MS ltac:(lia)); lia|].
            assert (ZT : forall g, small_term x p g (gn m) = 0).
            { intros g. unfold small_term. destruct (roughb (pi p) (gn m)) eqn:R; auto.
              destruct (Z.eq_dec (mu (gn m)) 0) as [->|Hmu]; [ring|]. exfalso. pose proof (proj1 RB eq_refl) as R3. apply V4 in R3; auto. lia. }
            rewrite S1, S2, I3, I4, !ZT. split; ring.
        + apply wp_ok.
          replace (s2, mu_b) with (fst acc + sumr (mn + 1) (mx + 1) (fun j => small_term x p f (gn j)),
             snd acc + sumr (mn + 1) (mx + 1) (fun j => small_term x p (fun _ => 1) (gn j))); [exact HQ|].
          destruct I2 as [I2| ->]; [replace m with mn in * by lia; congruence|]. rewrite I3, I4. now rewrite !sumr_empty by lia.
      - split; [lia|]. split; [auto|]. split.
        + exists 0. split; [apply st_ok_0; lia|]. intros _. assert (low <= x / p / gn mx); [|lia].
          pose proof (gn_pos mx C0). apply (proj2 (div_le_iff (x / p) (gn mx) low ltac:(lia))). rewrite Z.mul_comm. apply (proj1 (div_le_iff (x / p) low (gn mx) ltac:(lia))). unfold mxv in C1. lia.
        + rewrite !sumr_empty by lia. split; ring.
      - assert (mx < y). { pose proof (gi_le mxv ltac:(lia)). unfold mx. unfold mxv in *. lia. } pose proof Hyz.
        assert (2 ^ 59 < 2 ^ 400) by reflexivity. lia.
    Qed.

    Lemma pr_gt_index l m : 0 <= l <= pi z -> 1 <= m <= z -> m < pr z l <-> pi m < l.
    Proof.
      clear. intros Hl Hm. pose proof (pi_nonneg m). destruct (Z.eq_dec l 0) as [->|N0]; [rewrite pr_0; lia|].
      destruct (pr_spec z l ltac:(lia)) as (P1 & P2 & P3). rewrite <- P2 at 2. split.
      - intros H1. now apply pi_lt_prime.
      - intros H1. destruct (Z.lt_ge_cases m (pr z l)) as [|L]; auto. apply pi_mono in L. lia.
    Qed.

    Lemma l_loop_ok acc (Q : Z * Z -> Prop) : fit acc -> y < p * p ->
      Q (fst acc + Wb p low high f, snd acc + Wb p low high (fun _ => 1)) ->
      p < Z.min (Z.min (x / p / low) y) (z / p) ->
      wp (hard_l_loop env cnt bs low high p (x / p) phi_b (Z.max (Z.max (Z.min (x / p / high) y) (y / p)) p)
            (pi (Z.min (Z.min (x / p / low) y) (z / p))) acc) Q.
    Proof.
      intros (Ff & F1 & F2) Hyp HQ HA. unfold Wb in HQ. unfold Wab, Wa in F1, F2. pose proof high_lt as HH. pose proof x_nonneg' as Hx0. pose proof Hyz as Hyz'. pose proof (prime_ge_2 p Hp) as Hp2.
      rewrite !(W_large (hard_leaf x y) (fun p => z / p) x y Hyx (hard_large x y z Hy Hyx Hz)) in HQ by (auto; lia).
      rewrite (Wh_large (hard_leaf x y) (fun p => z / p) x y Hyx (hard_large x y z Hy Hyx Hz)) in F1, F2 by (auto; lia).
      destruct (smax_pos wd Hw) as [SM1 SM2].
      assert (Hx2 : 0 <= x / p) by (apply Z.div_pos; lia). assert (Hypd : y / p <= y) by (apply Z.div_le_upper_bound; nia).
      set (mh := Z.max (Z.max (Z.min (x / p / high) y) (y / p)) p) in *. set (hi := Z.min (Z.min (x / p / low) y) (z / p)) in *.
      rewrite !(psum_index_range z) in HQ by (unfold mh, hi; lia). rewrite (psum_index_range z) in F1, F2 by (unfold mh, hi; lia).
      assert (Hmh : 1 <= mh <= z) by (unfold mh; lia). pose proof (M_large p ltac:(lia) Hyp) as HML.
      assert (Hhi : 0 <= pi hi <= pi M). { split; [apply pi_nonneg|]. apply pi_mono. unfold hi. lia. }
      pose proof (pi_mono _ _ M_le_z) as HMz. pose proof (pi_nonneg mh) as Hmh0.
      assert (PL : forall l, 0 <= l <= pi hi -> pr z l <= hi).
      { intros l Hli. destruct (Z.eq_dec l 0) as [->|]; [rewrite pr_0; lia|]. transitivity (pr z (pi hi)); [apply pr_mono_le; lia|].
        rewrite top_pr by (unfold hi; lia). destruct (top_spec hi) as [->|[_ ?]]; lia. }
      unfold hard_l_loop. change (h_primes env) with primes.
      apply (loop_rule _ (fun '(l, st, s2, mu_b) => 0 <= l <= pi hi /\ (pi mh <= l \/ l = pi hi) /\
          (exists L, st_ok cnt F low L st /\ (pi mh < l -> L <= x / p / pr z l - low + 1)) /\
          s2 = fst acc + sumr (l + 1) (pi hi + 1) (fun j => large_term x p f (pr z j)) /\
          mu_b = snd acc + sumr (l + 1) (pi hi + 1) (fun j => large_term x p (fun _ => 1) (pr z j)))
        (fun '(l, _, _, _) => l)).
      - intros [[[l st] s2] mu_b] (I1 & I2 & (L & IL & IL2) & I3 & I4). pose proof (PL l I1) as HPL.
        rewrite Hpr by (unfold hi in HPL; lia). rewrite bind_Ok.
        pose proof (pr_gt_index l mh ltac:(lia) Hmh) as PG. destruct (Z.gtb_spec (pr z l) mh) as [G|G].
        + apply PG in G as G1. rewrite zdiv_ok by lia. rewrite bind_Ok.
          assert (Hxn : low <= x / p / pr z l < high).
          { split; [apply (proj2 (div_le_iff (x / p) (pr z l) low ltac:(lia)))|apply (proj2 (div_lt_iff (x / p) (pr z l) high ltac:(lia)))].
            - rewrite Z.mul_comm. apply (proj1 (div_le_iff (x / p) low (pr z l) ltac:(lia))). unfold hi in HPL. lia.
            - rewrite Z.mul_comm. apply (proj1 (div_lt_iff (x / p) high (pr z l) ltac:(lia))). unfold mh in G. unfold hi in HPL. lia. }
          rewrite swrap64 by lia. apply wp_bind. apply seg_query; [lia|apply (st_ok_mono _ _ _ L); auto; lia|].
          intros st' Ev Sv. rewrite Ev. specialize (Ff _ Hxn). rewrite schk128 by lia. rewrite bind_Ok.
          assert (PB : 0 <= pr z l * p <= y * y). { split; [apply Z.mul_nonneg_nonneg; lia|]. apply Z.mul_le_mono_nonneg; unfold hi in HPL; lia. }
          assert (YY : y * y <= 2 ^ 126) by (apply Z.le_trans with (2 ^ 48 * 2 ^ 48); [apply Z.mul_le_mono_nonneg; lia|discriminate]).
          rewrite schk128 by lia. rewrite bind_Ok. change (h_w env) with wd.
          assert (ET : forall g, pr z l * p * g (x / p / pr z l) = large_term x p g (pr z l)). { intros g. unfold large_term. ring. }
          assert (T1 : Z.abs (large_term x p f (pr z l)) <= smax wd) by (refine (part_one (pi mh + 1) (pi hi + 1) l _ _ (fun j => large_term x p f (pr z j)) _ F1); lia).
          assert (PB2 : Z.abs (pr z l * p) <= 2 ^ 126) by lia.
          rewrite (mul_fits wd _ _ _ Hw PB2 Ff (ET f) T1). rewrite bind_Ok.
          assert (ET1 : pr z l * p = large_term x p (fun _ => 1) (pr z l)) by (rewrite <- (ET (fun _ => 1)); ring). rewrite ET1.
          assert (A1 : Z.abs (s2 + large_term x p f (pr z l)) <= smax wd).
          { pose proof (part_abs (pi mh + 1) (pi hi + 1) l _ _ (fun j => large_term x p f (pr z j)) ltac:(lia) F1) as PA. rewrite (sumr_cons l) in PA by lia. rewrite I3. eapply Z.le_trans; [|exact PA]. apply Z.eq_le_incl. f_equal. ring. }
          rewrite (t_add_ok wd s2) by auto. rewrite bind_Ok.
          assert (A2 : Z.abs (mu_b + large_term x p (fun _ => 1) (pr z l)) <= smax wd).
          { pose proof (part_abs (pi mh + 1) (pi hi + 1) l _ _ (fun j => large_term x p (fun _ => 1) (pr z j)) ltac:(lia) F2) as PA. rewrite (sumr_cons l) in PA by lia. rewrite I4. eapply Z.le_trans; [|exact PA]. apply Z.eq_le_incl. f_equal. ring. }
          rewrite (t_add_ok wd mu_b) by auto. rewrite bind_Ok. apply wp_ok. clear PB2 T1 A1 A2 F1 F2. split; [|lia]. split; [lia|]. split; [lia|]. split.
          * exists (x / p / pr z l - low + 1). split; auto. intros Hm1.
            assert (x / p / pr z l <= x / p / pr z (l - 1)); [|lia]. apply Z.div_le_compat_l; [lia|].
            pose proof (pr_mono z (l - 1) l ltac:(lia) ltac:(lia) ltac:(lia)). pose proof (pr_ge2 z (l - 1) ltac:(lia)). lia.
          * replace (l - 1 + 1) with l by ring. rewrite !(sumr_cons l) by lia. rewrite I3, I4. split; ring.
        + assert (G1 : l <= pi mh) by lia. apply wp_ok.
          replace (s2, mu_b) with (fst acc + sumr (pi mh + 1) (pi hi + 1) (fun j => large_term x p f (pr z j)),
             snd acc + sumr (pi mh + 1) (pi hi + 1) (fun j => large_term x p (fun _ => 1) (pr z j))); [exact HQ|].
          destruct I2 as [I2| ->]; [replace l with (pi mh) in * by lia; congruence|]. rewrite I3, I4. now rewrite !sumr_empty by lia.
      - split; [lia|]. split; [auto|]. split.
        + exists 0. split; [apply st_ok_0; lia|]. intros G1. apply (pr_gt_index (pi hi) mh) in G1; [|lia|exact Hmh]. pose proof (PL (pi hi) ltac:(lia)) as HPL.
          assert (low <= x / p / pr z (pi hi)); [|lia].
          apply (proj2 (div_le_iff (x / p) (pr z (pi hi)) low ltac:(lia))). rewrite Z.mul_comm. apply (proj1 (div_le_iff (x / p) low (pr z (pi hi)) ltac:(lia))). assert (hi <= x / p / low) by (unfold hi; lia). lia.
        + rewrite !sumr_empty by lia. split; ring.
      - assert (pi hi <= hi) by (apply pi_le; unfold hi; lia). unfold hi in *. assert (2 ^ 59 < 2 ^ 400) by reflexivity. lia.
    Qed.

    Lemma leaves_m_ok b acc (Q : option (Z * Z) -> Prop) : (alive p low = true -> fit acc) -> 0 <= b <= pi M -> pr z b = p -> 11 <= p -> p * p <= y ->
      (alive p low = true -> Q (Some (fst acc + Wb p low high f, snd acc + Wb p low high (fun _ => 1)))) ->
      (alive p low = false -> Q None) ->
      wp (hard_leaves_m env cnt bs low high b phi_b acc) Q.
    Proof.
      intros HF Hb1 Eb H11 Hpp HQ1 HQ2. pose proof high_lt as HH. pose proof x_nonneg' as Hx0. pose proof Hyz as Hyz'.
      assert (Hx2 : 0 <= x / p) by (apply Z.div_pos; lia).
      assert (Hyp : 1 <= y / p) by (apply Z.div_le_lower_bound; nia). assert (Hypd : y / p <= y) by (apply Z.div_le_upper_bound; nia).
      assert (D1 : 0 <= x / p / high) by (apply Z.div_pos; lia). assert (D2 : 0 <= x / p / low) by (apply Z.div_pos; lia).
      unfold hard_leaves_m. change (h_primes env) with primes. change (h_x env) with x. change (h_y env) with y.
      rewrite Hpr by lia. rewrite bind_Ok, Eb. rewrite zdiv_ok by lia. rewrite bind_Ok. rewrite zdiv_ok by lia. rewrite bind_Ok.
      rewrite zdiv_ok by lia. rewrite bind_Ok. rewrite zdiv_ok by lia. rewrite bind_Ok. rewrite !swrap64 by lia.
      unfold alive, aliveb in HQ1, HQ2, HF. rewrite (proj2 (Z.leb_le _ _) Hpp) in HQ1, HQ2, HF.
      destruct (Z.geb_spec p (Z.min (x / p / low) y)) as [G|G].
      - apply wp_ok, HQ2. apply Z.ltb_ge. lia.
      - rewrite !get_index_ok by lia. rewrite !bind_Ok. apply wp_bind. apply m_loop_ok; auto; [apply HF; now apply Z.ltb_lt|]. apply wp_ok. apply HQ1. now apply Z.ltb_lt.
    Qed.

    Lemma leaves_l_ok b acc (Q : option (Z * Z) -> Prop) : (alive p low = true -> fit acc) -> 0 <= b <= pi M -> pr z b = p -> y < p * p ->
      (alive p low = true -> Q (Some (fst acc + Wb p low high f, snd acc + Wb p low high (fun _ => 1)))) ->
      (alive p low = false -> Q None) ->
      wp (hard_leaves_l env cnt bs low high b phi_b acc) Q.
    Proof.
      intros HF Hb1 Eb Hpp HQ1 HQ2. pose proof high_lt as HH. pose proof x_nonneg' as Hx0. pose proof Hyz as Hyz'. pose proof (prime_ge_2 p Hp) as Hp2.
      assert (Hx2 : 0 <= x / p) by (apply Z.div_pos; lia).
      assert (Hyp : 0 <= y / p) by (apply Z.div_pos; lia). assert (Hypd : y / p <= y) by (apply Z.div_le_upper_bound; nia).
      assert (D1 : 0 <= x / p / high) by (apply Z.div_pos; lia). assert (D2 : 0 <= x / p / low) by (apply Z.div_pos; lia).
      assert (D3 : 0 <= z / p) by (apply Z.div_pos; lia). pose proof (M_large p ltac:(lia) Hpp) as HML. pose proof M_le_z as HMz.
      unfold hard_leaves_l. change (h_primes env) with primes. change (h_x env) with x. change (h_y env) with y. change (h_z env) with z. change (h_pi env) with pt.
      rewrite Hpr by lia. rewrite bind_Ok, Eb. rewrite zdiv_ok by lia. rewrite bind_Ok. rewrite zdiv_ok by lia. rewrite bind_Ok.
      rewrite zdiv_ok by lia. rewrite bind_Ok. rewrite zdiv_ok by lia. rewrite bind_Ok. rewrite !swrap64 by lia.
      rewrite Hpt by lia. rewrite bind_Ok. rewrite zdiv_ok by lia. rewrite bind_Ok.
      set (hi := Z.min (Z.min (x / p / low) y) (z / p)) in *.
      assert (ET : pr z (pi hi) = top hi) by (apply top_pr; unfold hi; lia).
      assert (HT : top hi <= hi). { destruct (top_spec hi) as [E|[_ ?]]; [|lia]. unfold hi in *. lia. }
      rewrite Hpr; [|split; [apply pi_nonneg|apply pi_mono; unfold hi; lia]|rewrite ET; unfold hi in *; lia]. rewrite bind_Ok, ET.
      unfold alive, aliveb in HQ1, HQ2, HF. destruct (Z.leb_spec (p * p) y) as [?|_]; [lia|]. fold hi in HQ1, HQ2, HF.
      destruct (Z.geb_spec p (top hi)) as [G|G].
      - apply wp_ok, HQ2. apply Z.ltb_ge. lia.
      - apply wp_bind. apply l_loop_ok; auto; [apply HF; now apply Z.ltb_lt| |fold hi; lia]. apply wp_ok. apply HQ1. now apply Z.ltb_lt.
    Qed.
  End OneSeg.

  (** ** All primes of one segment *)
  Hypothesis (Hc : 0 <= c <= 9) (Hc4 : c = pi y \/ 4 <= c).
  Definition hard_B : Z := pi (Z.min y (Z.sqrt z)).
  Let B := hard_B.
  Definition hD (b lo n : Z) : Z := phi_sum (n - 1) (b - 1) - phi_sum (lo - 1) (b - 1).
  Definition hf (b lo n : Z) : Z := phi_sum n (b - 1) - phi_sum (lo - 1) (b - 1).

  Lemma B_facts : B <= pi M /\ B <= pi z /\ B <= pi y.
  Proof.
    pose proof M_sqrtz. pose proof M_le_z. unfold B, hard_B. split; [apply pi_mono; lia|]. split; [|apply pi_mono; lia].
    apply pi_mono. lia.
  Qed.
  Lemma b_facts b : c < b <= B -> prime (pr z b) /\ pi (pr z b) = b /\ pr z b <= y /\ pr z b <= Z.sqrt z /\ 11 <= pr z b /\ 0 <= b <= pi M /\ b <= pi z.
  Proof.
    intros Hb. destruct B_facts as (B1 & B2 & B3). pose proof Hyz. destruct (pr_spec z b ltac:(lia)) as (P1 & P2 & P3).
    assert (pr z b <= Z.min y (Z.sqrt z)).
    { transitivity (pr z B); [apply pr_mono_le; lia|]. unfold B, hard_B. rewrite top_pr by lia. destruct (top_spec (Z.min y (Z.sqrt z))) as [->|[_ ?]]; [|lia].
      pose proof (Z.sqrt_nonneg z). lia. }
    split; auto. split; auto. split; [lia|]. split; [lia|]. split; [|lia].
    destruct (Z.le_gt_cases 11 (pr z b)) as [|G]; auto. pose proof (pi_mono (pr z b) 10 ltac:(lia)) as PM. change (pi 10) with 4 in PM. lia.
  Qed.

  Lemma rough_coprime a n : 4 <= a -> 1 <= n -> roughb a n = true -> coprime210 n = true.
  Proof.
    clear. intros Ha Hn R. apply roughb_spec in R; auto. apply coprime210_spec. apply rel_prime_sym.
    destruct (rel_prime_dec 210 n) as [D|D]; auto. exfalso.
    rewrite <- Zgcd_1_rel_prime in D. pose proof (Z.gcd_nonneg 210 n).
    assert (G1 : 1 < Z.gcd 210 n). { assert (Z.gcd 210 n <> 0) by (intros E; apply Z.gcd_eq_0_l in E; lia). lia. }
    destruct (exists_prime_divisor (Z.gcd 210 n) ltac:(lia)) as (q & Hq & Dq).
    assert (D2 : (q | 210)) by (eapply Z.divide_trans; [exact Dq|apply Z.gcd_divide_l]).
    assert (D3 : (q | n)) by (eapply Z.divide_trans; [exact Dq|apply Z.gcd_divide_r]).
    apply (R q Hq); auto. destruct (Z.le_gt_cases q 10) as [L|G]; [pose proof (pi_mono q 10 L) as PM; change (pi 10) with 4 in PM; lia|]. exfalso.
    assert (C : coprime210 q = true) by (apply coprime210_prime; auto; lia).
    apply coprime210_spec in C. destruct C as [_ _ C]. assert (D1 : (q | 1)) by (apply C; auto; apply Z.divide_refl).
    apply Z.divide_1_r_nonneg in D1; lia.
  Qed.
  Lemma rough_next p n : prime p -> 5 <= pi p -> 1 <= n -> roughb (pi p) n = roughb (pi p - 1) n && negb (wheel_hit p n).
  Proof.
    clear. intros Hp Hpi Hn. rewrite roughb_step by auto. unfold wheel_hit. destruct (roughb (pi p - 1) n) eqn:R; auto. cbn [andb].
    destruct (Z.eqb_spec (n mod p) 0) as [E|E]; auto. cbn [andb negb]. pose proof (prime_ge_2 p Hp).
    apply rough_coprime in R; [|lia|lia]. rewrite (coprime210_div (n / p) n); auto. exists p. apply Z.div_exact in E; lia.
  Qed.

  Lemma sumr_update lo hi g g' k d : lo <= k < hi -> g' k = g k + d -> (forall i, lo <= i < hi -> i <> k -> g' i = g i) ->
    sumr lo hi g' = sumr lo hi g + d.
  Proof.
    clear. intros Hk E H. rewrite !(sumr_split lo k hi) by lia. rewrite !(sumr_cons k hi) by lia.
    rewrite (sumr_ext lo k g' g) by (intros; apply H; lia). rewrite (sumr_ext (k + 1) hi g' g) by (intros; apply H; lia). lia.
  Qed.

  Lemma sqrtz_bound : 0 <= Z.sqrt z < 2 ^ 30.
  Proof.
    pose proof Hyz. split; [apply Z.sqrt_nonneg|]. pose proof (Z.sqrt_spec z ltac:(lia)) as S1. cbv zeta in S1.
    destruct (Z.lt_ge_cases (Z.sqrt z) (2 ^ 30)) as [|G]; auto. assert (2 ^ 30 * 2 ^ 30 <= Z.sqrt z * Z.sqrt z) by (apply Z.mul_le_mono_nonneg; lia). lia.
  Qed.

  (** *** Bounds of the accumulators *)
  Let phib (b n : Z) : Z := phi_sum n (b - 1).
  Hypothesis Hbud : sumr (c + 1) (B + 1) (fun b => Wab (pr z b) 1 (z + 1) (phib b)) <= smax wd.
  Lemma hf_bounds b lo n : 1 <= lo <= n -> 0 <= hf b lo n <= phi_sum n (b - 1).
  Proof. clear. intros H. unfold hf. pose proof (phi_sum_mono (b - 1) (lo - 1) n ltac:(lia)). pose proof (phi_sum_nonneg (lo - 1) (b - 1)). lia. Qed.
  Lemma hD_bounds b lo n : 1 <= lo <= n -> 0 <= hD b lo n <= hD 1 lo n.
  Proof. clear. intros H. unfold hD. change (1 - 1) with 0. pose proof (phi_sum_mono (b - 1) (lo - 1) (n - 1) ltac:(lia)). pose proof (phi_sum_diff (b - 1) (lo - 1) (n - 1) ltac:(lia)). lia. Qed.
  Lemma hD_mono lo n n' : 1 <= lo <= n -> n <= n' -> hD 1 lo n <= hD 1 lo n'.
  Proof. clear. intros H H'. unfold hD. pose proof (phi_sum_mono (1 - 1) (n - 1) (n' - 1) ltac:(lia)). lia. Qed.
  Lemma phi_small n a : 0 <= n <= 2 ^ 59 -> 0 <= phi_sum n a <= 2 ^ 118.
  Proof.
    clear. intros H. split; [apply phi_sum_nonneg|]. apply Z.le_trans with (1 := phi_sum_sq n a ltac:(lia)). change (2 ^ 118) with (2 ^ 59 * 2 ^ 59).
    apply Z.mul_le_mono_nonneg; lia.
  Qed.
  Lemma lw_abs p m : 0 <= p -> 0 <= m -> Z.abs (lw (hard_leaf x y) p m) <= p * m.
  Proof.
    clear. intros Hp Hm. assert (0 <= p * m) by now apply Z.mul_nonneg_nonneg. unfold lw. destruct (_ && _); [|cbn; lia]. rewrite Z.abs_opp, Z.abs_mul, (Z.abs_eq (p * m)) by lia.
    destruct (mu_values m) as [E|[E|E]]; rewrite E; cbn [Z.abs]; lia.
  Qed.
  Lemma mu_fits b lo hi : c < b <= B -> Wab (pr z b) lo hi (fun _ => 1) <= 2 ^ 126.
  Proof.
    intros Hb. destruct (b_facts b Hb) as (P1 & P2 & P3 & P4 & P5 & _). pose proof sqrtz_bound as SB. set (p := pr z b) in *.
    assert (Hyp : 0 <= y / p <= y) by (split; [apply Z.div_pos; lia|apply Z.div_le_upper_bound; nia]).
    unfold Wab. eapply Z.le_trans; [apply (Wa_le _ _ _ _ _ _ _ (fun _ => 1)); intros; lia|].
    apply Z.le_trans with (sumr (y / p + 1) (y + 1) (fun _ => 2 ^ 30 * 2 ^ 48)).
    - apply sumr_le. intros m Hm. rewrite Z.mul_1_r. eapply Z.le_trans; [apply lw_abs; lia|]. apply Z.mul_le_mono_nonneg; lia.
    - rewrite sumr_const by lia. change (2 ^ 126) with (2 ^ 30 * 2 ^ 48 * 2 ^ 48). apply Z.mul_le_mono_nonneg_l; [discriminate|lia].
  Qed.
  Lemma budget lo pos : 1 <= lo -> (forall b, c < b <= B -> lo <= pos b <= z + 1) ->
    sumr (c + 1) (B + 1) (fun b => Wab (pr z b) lo (pos b) (hf b lo)) <= smax wd.
  Proof.
    intros Hlo Hpos. apply Z.le_trans with (2 := Hbud). apply sumr_le. intros b Hb. specialize (Hpos b ltac:(lia)). unfold Wab.
    apply Z.le_trans with (Wa (hard_leaf x y) x y (pr z b) lo (pos b) (phib b)); [|apply Wa_incl; lia].
    apply Wa_mono. intros n Hn. apply hf_bounds. lia.
  Qed.

  Definition seg_inv (lo : Z) (pos : Z -> Z) (max_b seg N : Z) (st : hard_state) : Prop :=
    (bs_size (t_sieve st) = seg /\ exists F, bs_rep (t_sieve st) N F) /\
    (exists P, arr (t_phi st) (max_b + 1) P /\ (forall b, c < b <= max_b -> alive (pr z b) (pos b) = true -> P b = hD b lo (pos b)) /\
       forall b, 0 <= b <= max_b -> if c <? b then 0 <= P b <= hD 1 lo (pos b) else P b = 0) /\
    arr (t_mu st) (max_b + 1) (fun b => if c <? b then Wb (pr z b) lo (pos b) (fun _ => 1) else 0) /\
    (exists w, arr (t_wheel st) (max_b + 1) w /\ forall b, c < b <= max_b -> alive (pr z b) (pos b) = true -> item_at (pr z b) (pos b) (w b)) /\
    t_s2 st = sumr (c + 1) (max_b + 1) (fun b => Wb (pr z b) lo (pos b) (hf b lo)).

  Lemma seg_inv_ext lo pos pos' max_b seg N st : (forall b, c < b <= max_b -> pos b = pos' b) -> seg_inv lo pos max_b seg N st -> seg_inv lo pos' max_b seg N st.
  Proof.
    intros E (S1 & (P & S2 & S2' & S2'') & S3 & (w & S4 & S4') & S5). split; [exact S1|]. split; [|split; [|split]].
    - exists P. split; auto. split; [intros b Hb; rewrite <- E by lia; auto|]. intros b Hb. specialize (S2'' b Hb). destruct (Z.ltb_spec c b); auto. now rewrite <- E by lia.
    - eapply arr_ext; [exact S3|]. intros b Hb. cbv beta. destruct (Z.ltb_spec c b); auto. now rewrite E by lia.
    - exists w. split; auto. intros b Hb. rewrite <- E by lia. auto.
    - rewrite S5. apply sumr_ext. intros b Hb. now rewrite E by lia.
  Qed.
  (** nothing is left to do for the primes that are not alive *)
  Lemma seg_inv_dead lo pos pos' max_b seg N st : 1 <= lo -> max_b <= B -> (forall b, c < b <= max_b -> lo <= pos b <= pos' b /\ (pos b = pos' b \/ 1 <= pos b /\ alive (pr z b) (pos b) = false)) ->
    seg_inv lo pos max_b seg N st -> seg_inv lo pos' max_b seg N st.
  Proof.
    intros Hlo1 HmB E (S1 & (P & S2 & S2' & S2'') & S3 & (w & S4 & S4') & S5).
    assert (AL : forall b, c < b <= max_b -> alive (pr z b) (pos' b) = true -> alive (pr z b) (pos b) = true /\ pos' b = pos b).
    { intros b Hb A. destruct (E b Hb) as [E1 [E2|[E2 E3]]]; [rewrite E2; auto|]. exfalso. destruct (b_facts b ltac:(lia)) as (P1 & _).
      unfold alive in *. rewrite (alive_mono (fun p => z / p) x y Hyx (hard_mono x y z Hy Hyx Hz) (pr z b) (pr z b) (pos b) (pos' b)) in E3; auto; lia. }
    assert (WL : forall b g, c < b <= max_b -> Wb (pr z b) lo (pos b) g = Wb (pr z b) lo (pos' b) g).
    { intros b g Hb. destruct (E b Hb) as [E1 [E2|[E2 E3]]]; [now rewrite E2|]. destruct (b_facts b ltac:(lia)) as (P1 & P2 & P3 & _).
      unfold Wb. rewrite (W_split _ _ _ _ lo (pos b) (pos' b)) by lia. unfold alive in E3.
      rewrite (dead_W (hard_leaf x y) (fun p => z / p) x y (hard_large x y z Hy Hyx Hz) (pr z b) (pos b) (pos' b) g P1 P3 E2 E3). ring. }
    split; [exact S1|]. split; [|split; [|split]].
    - exists P. split; auto. split; [intros b Hb A; destruct (AL b Hb A) as [A1 A2]; rewrite A2; auto|].
      intros b Hb. specialize (S2'' b Hb). destruct (Z.ltb_spec c b); auto. destruct (E b ltac:(lia)) as [E1 _]. pose proof (hD_mono lo (pos b) (pos' b) ltac:(lia) ltac:(lia)). lia.
    - eapply arr_ext; [exact S3|]. intros b Hb. cbv beta. destruct (Z.ltb_spec c b); auto. apply WL. lia.
    - exists w. split; auto. intros b Hb A. destruct (AL b Hb A) as [A1 A2]. rewrite A2. auto.
    - rewrite S5. apply sumr_ext. intros b Hb. apply WL. lia.
  Qed.

  Lemma alive_index b b' low : c < b <= b' -> b' <= B -> 1 <= low -> alive (pr z b) low = false -> alive (pr z b') low = false.
  Proof.
    intros Hb Hb' Hl A. destruct (alive (pr z b') low) eqn:A'; auto. destruct (b_facts b ltac:(lia)) as (P1 & _). destruct (b_facts b' ltac:(lia)) as (P1' & _ & _ & _ & _ & _ & P6).
    unfold alive in *. rewrite (alive_mono (fun p => z / p) x y Hyx (hard_mono x y z Hy Hyx Hz) (pr z b) (pr z b') low low) in A; auto; try lia.
    apply pr_mono_le; lia.
  Qed.

  Lemma pi_sqrty_index b : c < b <= B -> b <= pi (Z.sqrt y) <-> pr z b * pr z b <= y.
  Proof.
    intros Hb. destruct (b_facts b Hb) as (P1 & P2 & P3 & _). destruct B_facts as (_ & B2 & B3).
    pose proof (sqrt_index y b Hy ltac:(lia)) as SI. rewrite (pr_same y z b) in SI by lia. lia.
  Qed.

  Section BLoop.
    Context (lo low high seg N max_b : Z).
    Hypothesis (He : (2 | seg)) (Hseg : 0 <= seg < 2 ^ 57) (Hlo : 1 <= lo <= low).
    Hypothesis (Hl : low < high) (Hh : high <= low + seg) (Hb : low + 128 * N <= 2 ^ 59) (Ho : Z.odd low = true) (Hhz : high <= z + 1).
    Hypothesis (Hmb : c <= max_b <= B).

    Lemma leaves_ok bs F cnt b phi_b acc (Q : option (Z * Z) -> Prop) : bs_rep bs N F -> words_fit F low N -> bs_size bs = seg -> cnt_ok cnt seg F low high -> c < b <= max_b ->
      (alive (pr z b) low = true -> fit low high (pr z b) (fun n => phi_b + isum F low 0 ((n - low) / 2 + 1)) acc) ->
      (alive (pr z b) low = true -> Q (Some (fst acc + Wb (pr z b) low high (fun n => phi_b + isum F low 0 ((n - low) / 2 + 1)), snd acc + Wb (pr z b) low high (fun _ => 1)))) ->
      (alive (pr z b) low = false -> Q None) ->
      wp (if b <=? Z.min (pi (Z.sqrt y)) max_b then hard_leaves_m env cnt bs low high b phi_b acc else hard_leaves_l env cnt bs low high b phi_b acc) Q.
    Proof.
      intros HR Hfit HS HC Hbb HFt HQ1 HQ2. destruct (b_facts b ltac:(lia)) as (P1 & P2 & P3 & P4 & P5 & P6 & P7). pose proof (pi_sqrty_index b ltac:(lia)) as PS.
      destruct (Z.leb_spec b (Z.min (pi (Z.sqrt y)) max_b)) as [L|L].
      - apply (leaves_m_ok bs N F seg low high cnt HR HS He Hseg ltac:(lia) Hh Hb Hfit HC (pr z b) phi_b (fun n => phi_b + isum F low 0 ((n - low) / 2 + 1)) P1 P3); auto. apply PS. lia.
      - apply (leaves_l_ok bs N F seg low high cnt HR HS He Hseg ltac:(lia) Hh Hb Hfit HC (pr z b) phi_b (fun n => phi_b + isum F low 0 ((n - low) / 2 + 1)) P1 P3); auto. lia.
    Qed.

    Lemma b_loop_ok cnt st F : bs_rep (t_sieve st) N F -> words_fit F low N -> (forall i, 0 <= i -> low + 2 * i < high -> F i = roughb c (low + 2 * i)) ->
      cnt_ok cnt seg F low high -> seg_inv lo (fun _ => low) max_b seg N st ->
      wp (hard_b_loop env low high (pi (Z.sqrt y)) max_b cnt st) (fun r => seg_inv lo (fun _ => high) max_b seg N (snd r)).
    Proof.
      intros HR Hfit HF HC HI. unfold hard_b_loop. change (h_c env) with c. change (h_primes env) with primes.
      set (pos := fun b b' => if b' <? b then high else low).
      apply (loop_rule _ (fun '(b, cnt, st) => c + 1 <= b <= max_b + 1 /\ seg_inv lo (pos b) max_b seg N st /\
          exists F, bs_rep (t_sieve st) N F /\ words_fit F low N /\ (forall i, 0 <= i -> low + 2 * i < high -> F i = roughb (b - 1) (low + 2 * i)) /\ cnt_ok cnt seg F low high)
        (fun '(b, _, _) => max_b + 1 - b)).
      - clear cnt st F HR Hfit HF HC HI. intros [[b cnt] st] (Hbb & HI & F & HR & Hfit & HF & HC).
        destruct (Z.leb_spec b max_b) as [L|L].
        + destruct (b_facts b ltac:(lia)) as (P1 & P2 & P3 & P4 & P5 & P6 & P7).
          pose proof HI as ((HS & _) & (P & AP & EP & BP) & AM & (w & AW & EW) & E2).
          assert (Epos : pos b b = low) by (unfold pos; now rewrite Z.ltb_irrefl).
          rewrite (arr_get _ _ _ b AP) by lia. rewrite bind_Ok. rewrite (arr_get _ _ _ b AM) by lia. rewrite bind_Ok.
          destruct (Z.ltb_spec c b) as [Hcb|]; [|lia]. rewrite Epos. apply wp_bind.
          pose proof (pi_mono 11 (pr z b) P5) as Hb5. change (pi 11) with 5 in Hb5. rewrite P2 in Hb5.
          assert (PN : forall b', pos (b + 1) b' = if b' =? b then high else pos b b').
          { intros b'. unfold pos. destruct (Z.ltb_spec b' (b + 1)), (Z.eqb_spec b' b), (Z.ltb_spec b' b); auto; lia. }
          apply (leaves_ok (t_sieve st) F cnt b (P b) _ _ HR Hfit HS HC ltac:(lia)).
          { intros HA. assert (EPb : P b = hD b lo low) by (pose proof (EP b ltac:(lia)) as EQ; rewrite Epos in EQ; exact (EQ HA)).
            assert (EN : forall n, low <= n < high -> P b + isum F low 0 ((n - low) / 2 + 1) = hf b lo n).
            { intros n Hn. rewrite EPb. rewrite (phi_isum F (b - 1) low high) by (auto; lia). unfold hD, hf. replace (low + (n - low)) with n by ring. ring. }
            split; [|split]; cbn [fst snd].
            - intros n Hn. rewrite EN by auto. pose proof (hf_bounds b lo n ltac:(lia)). pose proof (phi_small n (b - 1) ltac:(lia)). assert (2 ^ 118 < 2 ^ 127) by reflexivity. lia.
            - unfold Wab at 1. rewrite (Wa_ext _ _ _ _ low high _ (hf b lo)) by exact EN. rewrite E2.
              pose proof (budget lo (pos (b + 1)) ltac:(lia) ltac:(intros b' Hb'; unfold pos; destruct (b' <? b + 1); lia)) as BG.
              rewrite (sumr_split (c + 1) (max_b + 1) (B + 1)) in BG by lia. pose proof (sumr_nonneg (max_b + 1) (B + 1) (fun b' => Wab (pr z b') lo (pos (b + 1) b') (hf b' lo)) ltac:(intros; apply Wa_nonneg)) as BN.
              rewrite (sumr_update (c + 1) (max_b + 1) (fun b' => Wab (pr z b') lo (pos b b') (hf b' lo)) _ b (Wab (pr z b) low high (hf b lo))) in BG; [|lia| |].
              + assert (SA : Z.abs (sumr (c + 1) (max_b + 1) (fun b' => Wb (pr z b') lo (pos b b') (hf b' lo))) <= sumr (c + 1) (max_b + 1) (fun b' => Wab (pr z b') lo (pos b b') (hf b' lo))); [|unfold Wab in *; lia].
                eapply Z.le_trans; [apply sumr_abs|]. apply sumr_le. intros b' _. apply W_abs.
              + cbv beta. rewrite PN, Z.eqb_refl, Epos. unfold Wab. apply Wa_split. lia.
              + intros i Hi Hib. cbv beta. rewrite PN. apply Z.eqb_neq in Hib. now rewrite Hib.
            - pose proof (mu_fits b lo high ltac:(lia)) as MF. unfold Wab in MF. rewrite (Wa_split _ _ _ _ lo low high) in MF by lia. unfold Wb. pose proof (W_abs (hard_leaf x y) x y (pr z b) lo low (fun _ => 1)).
              destruct (smax_pos wd Hw) as [SM _]. assert (2 ^ 126 <= 2 ^ 127 - 1) by discriminate. unfold Wab. lia. }
          2:{ intros HD. apply wp_ok. cbn [snd]. apply (seg_inv_dead lo (pos b)); [lia|lia| |exact HI].
              intros b' Hb'. unfold pos. destruct (Z.ltb_spec b' b); [lia|]. split; [lia|]. right. split; [lia|]. apply (alive_index b); auto; lia. }
          intros HA. cbn [fst snd]. assert (EPb : P b = hD b lo low) by (pose proof (EP b ltac:(lia)) as EQ; rewrite Epos in EQ; exact (EQ HA)).
          assert (HT : isum F low 0 ((high - low + 1) / 2) = phi_sum (high - 1) (b - 1) - phi_sum (low - 1) (b - 1)).
          { replace (high - low + 1) with (high - 1 - low + 1 * 2) by ring. rewrite Z.div_add by lia.
            rewrite (phi_isum F (b - 1) low high) by (auto; lia). f_equal. f_equal. lia. }
          assert (EWf : Wb (pr z b) low high (fun n => P b + isum F low 0 ((n - low) / 2 + 1)) = Wb (pr z b) low high (hf b lo)).
          { apply W_ext. intros n Hn. rewrite EPb. rewrite (phi_isum F (b - 1) low high) by (auto; lia). unfold hD, hf. replace (low + (n - low)) with n by ring. ring. }
          rewrite EWf, EPb. apply wp_bind. eapply arr_set; [exact AM|lia|]. intros mu' AM'.
          rewrite (counter_total_ok (t_sieve st) N F seg low high) by (auto; lia). rewrite bind_Ok.
          assert (HDh : hD b lo low + isum F low 0 ((high - low + 1) / 2) = hD b lo high) by (rewrite HT; unfold hD; ring).
          rewrite HDh. pose proof (hD_bounds b lo high ltac:(lia)) as HDb.
          assert (HDs : hD 1 lo high <= 2 ^ 118). { unfold hD. pose proof (phi_small (high - 1) (1 - 1) ltac:(lia)). pose proof (phi_sum_nonneg (lo - 1) (1 - 1)). lia. }
          rewrite schk128 by (assert (2 ^ 118 < 2 ^ 127) by reflexivity; lia). rewrite bind_Ok.
          apply wp_bind. eapply arr_set; [exact AP|lia|]. intros phi' AP'.
          rewrite Hpr by lia. rewrite bind_Ok. rewrite (arr_get _ _ _ b AW) by lia. rewrite bind_Ok.
          pose proof (EW b ltac:(lia)) as EWb. rewrite Epos in EWb. specialize (EWb HA).
          apply wp_bind. pose proof Hyz. assert (pr z b <= 2 ^ 30) by (pose proof sqrtz_bound; lia).
          apply (cross_off_ok (t_sieve st) N F seg low high HR HS He Hseg ltac:(lia) Hh Hb (pr z b) P1 P5 Ho); [|exact HC|exact EWb|].
          { pose proof (seg_N _ _ _ _ HR HS). lia. }
          intros bs' cnt' it' S1 S2 S3 S4. apply wp_bind. eapply arr_set; [exact AW|lia|]. intros w' AW'. apply wp_ok.
          split; [|lia]. split; [lia|]. split.
          * split; [split; [exact S1|eexists; exact S2]|]. split; [|split; [|split]]; cbn [t_phi t_mu t_wheel t_s2].
            -- eexists. split; [exact AP'|]. split; intros b' Hb'; rewrite PN; cbv beta.
               ++ destruct (Z.eqb_spec b' b) as [->|]; [reflexivity|]. intros A. apply EP; auto.
               ++ destruct (Z.eqb_spec b' b) as [->|]; [|now apply BP]. destruct (Z.ltb_spec c b); [exact HDb|lia].
            -- eapply arr_ext; [exact AM'|]. intros b' Hb'. cbv beta. rewrite PN. destruct (Z.eqb_spec b' b) as [->|]; auto.
               destruct (Z.ltb_spec c b); [|lia]. unfold Wb. symmetry. apply W_split. lia.
            -- eexists. split; [exact AW'|]. intros b' Hb'. rewrite PN. cbv beta. destruct (Z.eqb_spec b' b) as [->|]; auto.
            -- rewrite E2. symmetry. apply sumr_update with (k := b); [lia| |].
               ++ cbv beta. rewrite PN, Z.eqb_refl, Epos. unfold Wb. apply W_split. lia.
               ++ intros i Hi Hib. cbv beta. rewrite PN. apply Z.eqb_neq in Hib. now rewrite Hib.
          * eexists. split; [exact S2|]. split; [apply crossed_fit; [exact Hfit|lia]|]. split; [|exact S3]. intros i Hi0 Hi. unfold crossed. rewrite HF by lia.
            rewrite (proj2 (Z.ltb_lt _ _) Hi). cbn [andb]. replace (b + 1 - 1) with (pi (pr z b)) by lia. rewrite rough_next; [|auto|lia|lia]. now rewrite P2.
        + apply wp_ok. cbn [snd]. apply (seg_inv_ext lo (pos b)); [|exact HI]. intros b' Hb'. unfold pos. destruct (Z.ltb_spec b' b); [auto|lia].
      - split; [lia|]. split; [apply (seg_inv_ext lo (fun _ => low)); [|exact HI]; intros b' Hb'; unfold pos; destruct (Z.ltb_spec b' (c + 1)); [lia|auto]|].
        exists F. replace (c + 1 - 1) with c by ring. auto.
      - destruct B_facts as (_ & B2 & _). pose proof Hyz. pose proof (pi_le z ltac:(lia)). assert (2 ^ 59 < 2 ^ 400) by reflexivity. lia.
    Qed.
  End BLoop.

  (** ** The segments of one thread *)
  Lemma segments_ok lo lim max_b seg N st : 1 <= lo < lim -> Z.odd lo = true -> (2 | seg) -> 0 < seg < 2 ^ 57 -> lim + 128 * N <= 2 ^ 59 -> lim + 128 * N <= 2 ^ 58 \/ 4 <= c -> lim <= z + 1 ->
    c <= max_b <= B -> seg_inv lo (fun _ => lo) max_b seg N st ->
    wp (hard_segments env seg lo lim (pi (Z.sqrt y)) max_b st) (fun st' => seg_inv lo (fun _ => lim) max_b seg N st').
  Proof.
    intros Hlo Ho He Hseg Hlim Hlim4 Hlimz Hmb HI. unfold hard_segments. change (h_c env) with c.
    apply (loop_rule _ (fun '(low, st) => lo <= low /\ Z.odd low = true /\ seg_inv lo (fun _ => Z.min low lim) max_b seg N st) (fun '(low, _) => Z.max 0 (lim - low))).
    - clear st HI. intros [low st] (H1 & H2 & HI). destruct (Z.ltb_spec low lim) as [L|L].
      + replace (Z.min low lim) with low in HI by lia. destruct HI as ((HS & F0 & HR) & HI).
        assert (HN : seg <= 128 * N) by (destruct HR as [HR _]; lia).
        rewrite schk64 by lia. rewrite bind_Ok. cbv zeta. apply wp_bind. eapply pre_sieve_ok; [exact HR|lia|lia|exact H2|lia|].
        intros bs' S1 S2. apply wp_bind.
        assert (FT : words_fit (fun i => roughb c (low + 2 * i)) low N).
        { destruct Hlim4 as [L4|C4]; [apply words_fit_small; lia|]. apply (words_fit_rough _ c); [lia|lia|exact C4|auto]. }
        assert (HH : low < Z.min (low + seg) lim <= low + seg) by lia.
        eapply wp_mono; [apply (counter_init_ok bs' N _ seg low (Z.min (low + seg) lim) S2); [congruence|lia|lia|lia|lia|exact FT]|].
        intros cnt HC. cbv beta in HC. apply wp_bind.
        eapply wp_mono; [apply (b_loop_ok lo low (Z.min (low + seg) lim) seg N max_b He) with (F := fun i => roughb c (low + 2 * i))|]; cbn [t_sieve]; auto; try lia.
        * split; [split; [cbn [t_sieve]; congruence|eexists; exact S2]|]. exact HI.
        * intros [cnt' st'] HI'. cbn [snd] in HI'. apply wp_ok. split; [|lia]. split; [lia|]. split.
          -- rewrite Z.odd_add, H2. destruct He as [h ->]. rewrite Z.odd_mul. now rewrite andb_false_r.
          -- exact HI'.
      + apply wp_ok. replace (Z.min low lim) with lim in HI by lia. exact HI.
    - split; [lia|]. split; auto. replace (Z.min lo lim) with lo by lia. exact HI.
    - assert (2 ^ 59 < 2 ^ 400) by reflexivity. assert (0 <= N) by (destruct HI as ((_ & F & [HR _]) & _); lia). lia.
  Qed.

  Lemma pr_B b : 0 <= b <= B -> pr z b <= Z.min y (Z.sqrt z) /\ b <= pi M /\ b <= pi z.
  Proof.
    intros Hb. destruct B_facts as (B1 & B2 & B3). pose proof Hyz. split; [|lia].
    transitivity (pr z B); [apply pr_mono_le; lia|]. unfold B, hard_B. rewrite top_pr by lia. destruct (top_spec (Z.min y (Z.sqrt z))) as [->|[_ ?]]; [|lia].
    pose proof (Z.sqrt_nonneg z). lia.
  Qed.
  Lemma wheel_make_ok max_b low (Q : list wheel_item -> Prop) : 0 <= max_b <= B -> 1 <= low < 2 ^ 62 ->
    (forall l w, arr l (max_b + 1) w -> (forall b, 1 <= b <= max_b -> item_at (pr z b) low (w b)) -> Q l) -> wp (wheel_make primes (max_b + 1) low) Q.
  Proof.
    intros Hmb Hlow HQ. unfold wheel_make. pose proof Hyz.
    apply (for_rule _ _ _ (fun i l => zlen l = i /\ forall b, 1 <= b < i -> exists it, aget l b = Ok it /\ item_at (pr z b) low it)).
    - destruct (pr_B max_b ltac:(lia)) as (_ & _ & P1). pose proof (pi_le z ltac:(lia)). assert (2 ^ 59 < 2 ^ 400) by reflexivity. lia.
    - split; [reflexivity|]. intros b Hb. lia.
    - intros i l Hi (L1 & L2). destruct (pr_B i ltac:(lia)) as (P1 & P2 & P3). rewrite Hpr by lia. rewrite bind_Ok. pose proof (pr_ge2 z i ltac:(lia)).
      apply wp_bind. apply wheel_start_ok; [lia|lia|lia|]. intros it HI. apply wp_ok. split; [rewrite zlen_app, L1; reflexivity|].
      intros b Hb. rewrite aget_app. destruct (Z.ltb_spec b (zlen l)); [apply L2; lia|]. replace (b - zlen l) with 0 by lia. exists it. split; [reflexivity|].
      now replace b with i by lia.
    - intros l (L1 & L2). replace (Z.max 1 (max_b + 1)) with (max_b + 1) in * by lia. apply (HQ l (fun k => nth (Z.to_nat k) l (0, 0))).
      + rewrite <- L1. apply arr_nth.
      + intros b Hb. destruct (L2 b ltac:(lia)) as (it & I1 & I2). rewrite (aget_ok l b (0, 0)) in I1 by lia. congruence.
  Qed.

  Definition thread_spec (e e' : Z) (r : Z * list Z * list Z) : Prop :=
    exists n P, 0 <= n <= B + 1 /\ arr (snd r) n P /\ arr (snd (fst r)) n (fun b => if c <? b then Wb (pr z b) e e' (fun _ => 1) else 0) /\
      (forall b, c < b < n -> alive (pr z b) e' = true -> P b = hD b e e') /\ (forall b, 0 <= b < n -> 0 <= P b <= hD 1 e e') /\
      fst (fst r) = sumr (c + 1) (B + 1) (fun b => Wb (pr z b) e e' (hf b e)) /\
      (forall b, c < b <= B -> n <= b -> (forall g, Wb (pr z b) e e' g = 0) /\ (alive (pr z b) e' = true -> hD b e e' = 0)).

  Lemma alive_max_b b lo : c < b <= B -> 1 <= lo -> alive (pr z b) lo = true -> b <= pi (Z.min (Z.min (Z.sqrt (x / lo)) (Z.sqrt z)) y).
  Proof.
    intros Hb Hlo A. destruct (b_facts b Hb) as (P1 & P2 & P3 & P4 & _). pose proof (prime_ge_2 _ P1). pose proof x_nonneg'.
    destruct (alive_bound (fun p => z / p) x y z Hy Hyx Hz (hard_sq y z) (pr z b) lo P1 Hlo A) as (A1 & A2 & A3).
    rewrite <- P2 at 1. apply pi_mono. assert (pr z b <= Z.sqrt (x / lo)); [|lia]. apply Z.sqrt_le_square; [apply Z.div_pos; lia|lia|].
    apply (proj2 (div_le_iff x lo (pr z b * pr z b) ltac:(lia))).
    assert (A4 : pr z b * lo <= x / pr z b). { rewrite Z.mul_comm. apply (proj1 (div_le_iff (x / pr z b) lo (pr z b) ltac:(lia))). lia. }
    apply (proj1 (div_le_iff x (pr z b) (pr z b * lo) ltac:(lia))) in A4. lia.
  Qed.

  Lemma thread_ok seg spt i low0 limit : (2 | seg) -> 0 < seg < 2 ^ 57 -> 1 <= spt -> 0 <= i -> 1 <= low0 -> Z.odd low0 = true ->
    low0 + seg * spt * i + seg * spt < 2 ^ 62 -> limit + seg + 128 <= 2 ^ 59 -> limit + seg + 128 <= 2 ^ 58 \/ 4 <= c -> limit <= z + 1 ->
    wp (S2_hard_thread env seg spt i low0 limit)
       (thread_spec (Z.min (low0 + seg * spt * i) limit) (Z.min (low0 + seg * spt * i + seg * spt) limit)).
  Proof.
    intros He Hseg Hspt Hi Hl Ho Hb Hlim Hlim4 Hlimz. unfold S2_hard_thread. set (d := seg * spt) in *. assert (Hd : seg <= d) by (unfold d; nia).
    assert (0 <= d * i) by nia. set (lo := low0 + d * i) in *. pose proof x_nonneg'. pose proof Hyz.
    assert (Olo : Z.odd lo = true).
    { unfold lo, d. rewrite Z.odd_add, Ho. destruct He as [h ->]. replace (h * 2 * spt * i) with (h * spt * i * 2) by ring. rewrite (Z.odd_mul _ 2). now rewrite andb_false_r. }
    unfold lb_interval. fold d. rewrite schk64 by lia. rewrite bind_Ok. rewrite schk64 by lia. rewrite bind_Ok. fold lo. rewrite schk64 by lia. rewrite bind_Ok.
    rewrite schk64 by lia. rewrite !bind_Ok. cbv zeta iota beta. change (h_x env) with x. change (h_z env) with z. change (h_y env) with y. change (h_pi env) with pt. change (h_c env) with c. change (h_primes env) with primes.
    rewrite zdiv_ok by lia. rewrite bind_Ok. pose proof (Z.sqrt_nonneg z). pose proof (Z.sqrt_nonneg (x / lo)). pose proof M_sqrtz. pose proof M_sqrty. pose proof (Z.sqrt_nonneg y).
    rewrite swrap64 by lia. rewrite Hpt by lia. rewrite bind_Ok. rewrite Hpt by lia. rewrite bind_Ok.
    set (max_b := pi (Z.min (Z.min (Z.sqrt (x / lo)) (Z.sqrt z)) y)).
    assert (HmB : 0 <= max_b <= B). { split; [apply pi_nonneg|]. apply pi_mono. lia. }
    assert (DEAD : forall b, c < b <= B -> max_b < b -> lo < limit -> (forall g, Wb (pr z b) lo (Z.min (lo + d) limit) g = 0) /\ alive (pr z b) (Z.min (lo + d) limit) = false).
    { intros b Hcb Hmb Hlo. destruct (b_facts b ltac:(lia)) as (P1 & P2 & P3 & _).
      destruct (alive (pr z b) lo) eqn:A; [apply alive_max_b in A; [fold max_b in A; lia|lia|lia]|].
      split; [intros g; apply (dead_W (hard_leaf x y) (fun p => z / p) x y (hard_large x y z Hy Hyx Hz)); auto; lia|].
      destruct (alive (pr z b) (Z.min (lo + d) limit)) eqn:A'; auto. unfold alive in *.
      rewrite (alive_mono (fun p => z / p) x y Hyx (hard_mono x y z Hy Hyx Hz) (pr z b) (pr z b) lo (Z.min (lo + d) limit)) in A; auto; lia. }
    (* a thread without work *)
    assert (IDLE : forall n, 0 <= n <= B + 1 -> limit <= lo -> thread_spec (Z.min lo limit) (Z.min (lo + d) limit) (0, amake n 0, amake n 0)).
    { intros n Hn Hlo. replace (Z.min (lo + d) limit) with limit by lia. replace (Z.min lo limit) with limit by lia.
      assert (WE : forall b g, Wb (pr z b) limit limit g = 0) by (intros b g; unfold Wb; apply W_empty; lia).
      assert (DE : forall b, hD b limit limit = 0) by (intros b; unfold hD; ring).
      exists n, (fun _ => 0). cbn [fst snd]. split; [lia|]. split; [apply arr_make; lia|]. split; [|split; [|split; [|split]]].
      - eapply arr_ext; [apply arr_make; lia|]. intros k Hk. cbv beta. rewrite WE. now destruct (c <? k).
      - intros b _ _. now rewrite DE.
      - intros b _. rewrite DE. lia.
      - symmetry. apply sumr_zero. intros b _. apply WE.
      - intros b _ _. split; auto. }
    destruct (Z.gtb_spec c max_b) as [G|G].
    - apply wp_ok. change (@nil Z) with (amake 0 0). destruct (Z.le_gt_cases limit lo) as [L|L]; [apply IDLE; lia|].
      replace (Z.min lo limit) with lo by lia. exists 0, (fun _ => 0). cbn [fst snd]. split; [lia|]. split; [apply arr_make; lia|]. split; [|split; [|split; [|split]]].
      + eapply arr_ext; [apply arr_make; lia|]. intros k Hk. lia.
      + intros b Hcb. lia.
      + intros b Hcb. lia.
      + symmetry. apply sumr_zero. intros b Hcb. apply DEAD; lia.
      + intros b Hcb _. destruct (DEAD b Hcb ltac:(lia) L) as [D1 D2]. split; auto. intros D3. congruence.
    - destruct (bs_make_ok seg) as (N & N1 & N2 & NM); [lia|]. apply wp_bind. eapply wp_mono; [exact NM|]. intros bs [S1 S2].
      apply wp_bind. apply wheel_make_ok; [lia|lia|]. intros wl w AW HW.
      destruct (Z.le_gt_cases limit lo) as [L|L].
      + apply wp_bind. unfold hard_segments. apply (loop_rule _ (fun st => st = (lo, {| t_s2 := 0; t_sieve := bs; t_wheel := wl; t_phi := amake (max_b + 1) 0; t_mu := amake (max_b + 1) 0; t_tree := [] |})) (fun _ => 0)); [|reflexivity|reflexivity].
        intros st ->. destruct (Z.ltb_spec lo (Z.min (lo + d) limit)); [lia|]. apply wp_ok, wp_ok. cbn [t_s2 t_mu t_phi]. apply IDLE; lia.
      + apply wp_bind. eapply wp_mono; [apply (segments_ok lo (Z.min (lo + d) limit) max_b seg N)|]; auto; try lia.
        * split; [split; [exact S1|eexists; exact S2]|]. cbn [t_phi t_mu t_wheel t_s2]. split; [|split; [|split]].
          -- exists (fun _ => 0). split; [apply arr_make; lia|]. split; [intros b _ _; unfold hD; ring|]. intros b _. unfold hD. destruct (c <? b); [lia|reflexivity].
          -- eapply arr_ext; [apply arr_make; lia|]. intros k Hk. cbv beta. unfold Wb. rewrite W_empty by lia. now destruct (c <? k).
          -- exists w. split; [exact AW|]. intros b Hcb _. apply HW. lia.
          -- symmetry. apply sumr_zero. intros b _. unfold Wb. apply W_empty. lia.
        * intros st' (_ & (P & AP & EP & BP) & AM & _ & E2). apply wp_ok. replace (Z.min lo limit) with lo by lia.
          exists (max_b + 1), P. cbn [fst snd]. split; [lia|]. split; [exact AP|]. split; [exact AM|]. split; [intros b Hcb; apply EP; lia|]. split; [|split].
          -- intros b Hcb. specialize (BP b ltac:(lia)). destruct (Z.ltb_spec c b); [exact BP|]. rewrite BP. pose proof (hD_bounds 1 lo (Z.min (lo + d) limit) ltac:(lia)). lia.
          -- rewrite E2. rewrite (sumr_split (c + 1) (max_b + 1) (B + 1)) by lia. rewrite (sumr_zero (max_b + 1)); [ring|].
             intros b Hcb. apply DEAD; lia.
          -- intros b Hcb Hmb. destruct (DEAD b Hcb ltac:(lia) L) as [D1 D2]. split; auto. intros D3. congruence.
  Qed.

  (** ** Combining the results of the threads *)
  Lemma dead b e e' g : c < b <= B -> 1 <= e -> alive (pr z b) e = false -> Wb (pr z b) e e' g = 0.
  Proof.
    intros Hb He A. destruct (b_facts b Hb) as (P1 & P2 & P3 & _).
    exact (dead_W (hard_leaf x y) (fun p => z / p) x y (hard_large x y z Hy Hyx Hz) (pr z b) e e' g P1 P3 He A).
  Qed.
  Lemma alive_back b e e' : c < b <= B -> 1 <= e <= e' -> alive (pr z b) e' = true -> alive (pr z b) e = true.
  Proof.
    intros Hb He A. destruct (b_facts b Hb) as (P1 & _). unfold alive in *.
    exact (alive_mono (fun p => z / p) x y Hyx (hard_mono x y z Hy Hyx Hz) (pr z b) (pr z b) e e' P1 P1 ltac:(lia) He A).
  Qed.

  Definition tot_ok (e : Z) (T : Z -> Z) : Prop := (forall b, c < b <= B -> alive (pr z b) e = true -> T b = phi_sum (e - 1) (b - 1)) /\
    (forall b, 0 <= b <= B -> 0 <= T b <= phi_sum (e - 1) 0).

  Lemma combine1_ok e e' r s2 tot nT T (Q : Z * list Z -> Prop) : 1 <= e <= e' -> e' <= z + 1 -> thread_spec e e' r -> B + 1 <= nT -> arr tot nT T -> tot_ok e T ->
    Z.abs s2 + sumr (c + 1) (B + 1) (fun b => Wab (pr z b) e e' (fun _ => 1) * phi_sum (e - 1) (b - 1)) <= smax wd ->
    (forall tot' T', arr tot' nT T' -> tot_ok e' T' ->
       Q (s2 + sumr (c + 1) (B + 1) (fun b => Wb (pr z b) e e' (fun _ => 1) * phi_sum (e - 1) (b - 1)), tot')) ->
    wp (hard_combine1 wd 128 (snd (fst r)) (snd r) (s2, tot)) Q.
  Proof.
    intros He Hez (n & P & Hn & AP & AM & EP & BP & _ & EN) HnT AT [HT HT2] HB HQ. unfold hard_combine1. rewrite (arr_len _ _ _ AP).
    set (G := fun b => Wb (pr z b) e e' (fun _ => 1) * phi_sum (e - 1) (b - 1)) in *.
    set (Ga := fun b => Wab (pr z b) e e' (fun _ => 1) * phi_sum (e - 1) (b - 1)) in *.
    assert (GG : forall b, Z.abs (G b) <= Ga b).
    { intros b. unfold G, Ga. rewrite Z.abs_mul. pose proof (phi_sum_nonneg (e - 1) (b - 1)). rewrite (Z.abs_eq (phi_sum _ _)) by lia. apply Z.mul_le_mono_nonneg_r; [lia|]. apply W_abs. }
    assert (GS : forall j j', j <= B + 1 -> j' < j -> Z.abs (sumr (c + 1) j G) <= smax wd - Z.abs s2 /\ (c < j' -> Z.abs (G j') <= smax wd)).
    { intros j j' Hj Hj'. assert (N1 : forall b, 0 <= Ga b) by (intros b; pose proof (GG b); pose proof (Z.abs_nonneg (G b)); lia).
      assert (N2 : forall a b, 0 <= sumr a b Ga) by (intros; apply sumr_nonneg; auto). split.
      - assert (SJ : Z.abs (sumr (c + 1) j G) <= sumr (c + 1) j Ga) by (eapply Z.le_trans; [apply sumr_abs|apply sumr_le; intros; apply GG]).
        destruct (Z.le_gt_cases (c + 1) j); [rewrite (sumr_split (c + 1) j (B + 1)) in HB by lia; pose proof (N2 j (B + 1)); lia|].
        rewrite !(sumr_empty (c + 1) j) in * by lia. pose proof (N2 (c + 1) (B + 1)). lia.
      - intros Hc'. rewrite (sumr_split (c + 1) j' (B + 1)), (sumr_cons j' (B + 1)) in HB by lia. pose proof (N2 (c + 1) j'). pose proof (N2 (j' + 1) (B + 1)). pose proof (GG j'). pose proof (Z.abs_nonneg s2). lia. }
    destruct B_facts as (_ & B2 & _). pose proof Hyz. pose proof (pi_le z ltac:(lia)). assert (B0 : 0 <= B) by (apply pi_nonneg).
    assert (SUM : phi_sum (e - 1) 0 + hD 1 e e' = phi_sum (e' - 1) 0) by (unfold hD; change (1 - 1) with 0; ring).
    pose proof (phi_small (e' - 1) 0 ltac:(lia)) as PS. pose proof (phi_small (e - 1) 0 ltac:(lia)) as PS0.
    assert (BD : forall b, 0 <= b < n -> b <= B -> 0 <= T b + P b <= phi_sum (e' - 1) 0).
    { intros b Hb HbB. specialize (BP b Hb). specialize (HT2 b ltac:(lia)). lia. }
    assert (C116 : 2 ^ 118 < 2 ^ 127 - 1) by reflexivity. destruct (smax_pos wd Hw) as [SM _].
    apply (for_rule _ _ _ (fun j st => fst st = s2 + sumr (c + 1) j G /\ arr (snd st) nT (fun b => if (1 <=? b) && (b <? j) then T b + P b else T b))).
    - assert (2 ^ 59 < 2 ^ 400) by reflexivity. lia.
    - cbn [fst snd]. rewrite sumr_empty by lia. split; [ring|]. eapply arr_ext; [exact AT|]. intros k Hk. destruct (Z.leb_spec 1 k), (Z.ltb_spec k 1); cbn [andb]; auto; lia.
    - intros j [s tj] Hj [E1 E2]. cbn [fst snd] in E1, E2. rewrite (arr_get _ _ _ j AM) by lia. rewrite bind_Ok. rewrite (arr_get _ _ _ j E2) by lia. rewrite bind_Ok.
      rewrite (Z.ltb_irrefl j), andb_false_r. pose proof (HT2 j ltac:(lia)) as HT2j.
      set (Gj := if c <? j then G j else 0).
      assert (EM : (if c <? j then Wb (pr z j) e e' (fun _ => 1) else 0) * T j = Gj).
      { unfold Gj, G. destruct (Z.ltb_spec c j); [|ring]. destruct (alive (pr z j) e) eqn:A; [now rewrite (HT j ltac:(lia) A)|]. rewrite (dead j e e') by (auto; lia). ring. }
      assert (MJ : Z.abs (if c <? j then Wb (pr z j) e e' (fun _ => 1) else 0) <= 2 ^ 126).
      { destruct (Z.ltb_spec c j); [|discriminate]. eapply Z.le_trans; [apply W_abs|]. apply mu_fits. lia. }
      assert (GJ : Z.abs Gj <= smax wd). { unfold Gj. destruct (Z.ltb_spec c j); [apply (GS (j + 1) j); lia|cbn; lia]. }
      rewrite (mul_fits wd _ (T j) Gj Hw MJ ltac:(lia) EM GJ). rewrite bind_Ok.
      assert (ES : sumr (c + 1) (j + 1) G = sumr (c + 1) j G + Gj). { unfold Gj. destruct (Z.ltb_spec c j); [now rewrite sumr_snoc by lia|]. rewrite !sumr_empty by lia. ring. }
      assert (SJ : Z.abs (s + Gj) <= smax wd). { rewrite E1. destruct (GS (j + 1) j ltac:(lia) ltac:(lia)) as [GS1 _]. rewrite ES in GS1. clear - GS1. lia. }
      rewrite (t_add_ok wd s Gj Hw SJ). rewrite bind_Ok.
      rewrite (arr_get _ _ _ j AP) by lia. rewrite bind_Ok. pose proof (BD j ltac:(lia) ltac:(lia)) as BDj.
      rewrite (t_add_ok 128 (T j) (P j) width_128) by (change (smax 128) with (2 ^ 127 - 1); clear - BDj PS C116; lia). rewrite bind_Ok.
      apply wp_bind. eapply arr_set; [exact E2|lia|]. intros t' AT'. apply wp_ok. cbn [fst snd].
      clear MJ GJ SJ. split; [rewrite E1, ES; ring|].
      eapply arr_ext; [exact AT'|]. intros k Hk. cbv beta. destruct (Z.eqb_spec k j) as [->|].
      * destruct (Z.leb_spec 1 j), (Z.ltb_spec j (j + 1)); cbn [andb]; auto; lia.
      * destruct (Z.leb_spec 1 k), (Z.ltb_spec k j), (Z.ltb_spec k (j + 1)); cbn [andb]; auto; lia.
    - intros [s t'] [E1 E2]. cbn [fst snd] in *. clear HB GS GG. set (j := Z.max 1 n) in *. replace s with (s2 + sumr (c + 1) (B + 1) G).
      2:{ rewrite E1. f_equal. assert (Z0 : forall b, c < b <= B -> j <= b -> G b = 0). { intros b Hb Hj. unfold G. destruct (EN b Hb ltac:(lia)) as [-> _]. ring. }
          destruct (Z.le_gt_cases (c + 1) j).
          - rewrite (sumr_split (c + 1) j (B + 1)) by lia. rewrite (sumr_zero j); [ring|]. intros b Hb. apply Z0; lia.
          - rewrite (sumr_empty (c + 1) j) by lia. apply sumr_zero. intros b Hb. apply Z0; lia. }
      apply (HQ _ (fun b => if (1 <=? b) && (b <? j) then T b + P b else T b)); [exact E2|]. split.
      + intros b Hb A. pose proof (alive_back b e e' Hb He A) as A0. rewrite (HT b Hb A0).
        destruct (Z.leb_spec 1 b); [|lia]. destruct (Z.ltb_spec b j); cbn [andb].
        * rewrite (EP b) by (auto; lia). unfold hD. ring.
        * destruct (EN b Hb ltac:(lia)) as [_ D]. specialize (D A). unfold hD in D. lia.
      + intros b Hb. pose proof (phi_sum_mono 0 (e - 1) (e' - 1) ltac:(lia)). specialize (HT2 b Hb).
        destruct (Z.leb_spec 1 b), (Z.ltb_spec b j); cbn [andb]; try lia. apply BD; lia.
  Qed.

  Section Round.
    Context (seg spt t low limit : Z).
    Hypothesis (He : (2 | seg)) (Hseg : 0 < seg < 2 ^ 57) (Hspt : 1 <= spt) (Ht : 1 <= t) (Hl : 1 <= low) (Ho : Z.odd low = true).
    Hypothesis (HD : low + seg * spt * t < 2 ^ 62) (Hlim : limit + seg + 128 <= 2 ^ 59) (Hlim4 : limit + seg + 128 <= 2 ^ 58 \/ 4 <= c) (Hlim1 : 1 <= limit <= z + 1).
    Let ee (i : Z) : Z := Z.min (low + seg * spt * i) limit.
    Let SS (k : Z) : Z := sumr (c + 1) (B + 1) (fun b => Wb (pr z b) (ee k) (ee (k + 1)) (hf b (ee k))).
    Lemma ee_mono i j : 0 <= i <= j -> 1 <= ee i <= ee j.
    Proof. intros H. unfold ee. assert (0 <= seg * spt) by nia. assert (0 <= seg * spt * i) by nia. assert (seg * spt * i <= seg * spt * j) by (apply Z.mul_le_mono_nonneg_l; lia). lia. Qed.
    Lemma t_bound : t < 2 ^ 62.
    Proof. assert (1 * t <= seg * spt * t) by (apply Z.mul_le_mono_nonneg_r; nia). lia. Qed.
    Lemma threads_ok : wp (hard_threads env seg spt t low limit) (fun rs => zlen rs = t /\
      (forall i, 0 <= i < t -> exists r, aget rs i = Ok r /\ thread_spec (ee i) (ee (i + 1)) r)).
    Proof.
      unfold hard_threads. pose proof t_bound. apply (for_rule _ _ _ (fun i rs => zlen rs = i /\
        (forall k, 0 <= k < i -> exists r, aget rs k = Ok r /\ thread_spec (ee k) (ee (k + 1)) r))).
      - assert (2 ^ 62 < 2 ^ 400) by reflexivity. lia.
      - split; [reflexivity|]. intros; lia.
      - intros i rs Hi (E1 & E2). apply wp_bind.
        assert (SI : seg * spt * i + seg * spt <= seg * spt * t). { replace (seg * spt * i + seg * spt) with (seg * spt * (i + 1)) by ring. apply Z.mul_le_mono_nonneg_l; nia. }
        eapply wp_mono; [apply thread_ok; auto; lia|]. intros r Hr. apply wp_ok. fold (ee i) in Hr.
        replace (Z.min (low + seg * spt * i + seg * spt) limit) with (ee (i + 1)) in Hr by (unfold ee; f_equal; ring).
        split; [rewrite zlen_app, E1; reflexivity|].
        intros k Hk. rewrite aget_app, E1. destruct (Z.ltb_spec k i); [apply E2; lia|]. replace k with i by lia. rewrite Z.sub_diag. exists r. split; auto.
      - intros rs. replace (Z.max 0 t) with t by lia. auto.
    Qed.

    Let phiW (e e' : Z) : Z := sumr (c + 1) (B + 1) (fun b => Wb (pr z b) e e' (phib b)).
    Let phiWa (e e' : Z) : Z := sumr (c + 1) (B + 1) (fun b => Wab (pr z b) e e' (phib b)).
    Let SSa (k : Z) : Z := sumr (c + 1) (B + 1) (fun b => Wab (pr z b) (ee k) (ee (k + 1)) (hf b (ee k))).
    Let CCa (k : Z) : Z := sumr (c + 1) (B + 1) (fun b => Wab (pr z b) (ee k) (ee (k + 1)) (fun _ => 1) * phi_sum (ee k - 1) (b - 1)).
    Lemma SS_abs k : Z.abs (SS k) <= SSa k.
    Proof. eapply Z.le_trans; [apply sumr_abs|]. apply sumr_le. intros b _. apply W_abs. Qed.
    Lemma phiW_abs e e' : Z.abs (phiW e e') <= phiWa e e'.
    Proof. eapply Z.le_trans; [apply sumr_abs|]. apply sumr_le. intros b _. apply W_abs. Qed.
    Lemma CCa_nonneg k : 0 <= CCa k.
    Proof. apply sumr_nonneg. intros b _. apply Z.mul_nonneg_nonneg; [apply Wa_nonneg|apply phi_sum_nonneg]. Qed.
    Lemma phiWa_split i : 0 <= i -> phiWa (ee 0) (ee (i + 1)) = phiWa (ee 0) (ee i) + SSa i + CCa i.
    Proof.
      intros Hi. pose proof (ee_mono i (i + 1) ltac:(lia)) as EM. pose proof (ee_mono 0 i ltac:(lia)) as EM0.
      unfold phiWa, SSa, CCa. rewrite <- Z.add_assoc, <- !sumr_add. apply sumr_ext. intros b _. unfold Wab.
      rewrite (Wa_split _ _ _ _ (ee 0) (ee i) (ee (i + 1))) by lia. f_equal.
      rewrite <- (Wa_shift _ _ _ _ _ _ (hf b (ee i))); [|apply phi_sum_nonneg|intros n Hn; apply hf_bounds; lia].
      apply Wa_ext. intros n _. unfold hf, phib. ring.
    Qed.
    Lemma phiWa_all i : 0 <= i -> phiWa (ee 0) (ee i) = sumr 0 i SSa + sumr 0 i CCa.
    Proof.
      intros Hi. pattern i. apply natlike_ind; [| |exact Hi].
      - rewrite !(sumr_empty 0 0) by lia. apply sumr_zero. intros b _. unfold Wab, Wa. apply sumr_zero. intros m _.
        destruct (Z.leb_spec (ee 0) (x / (pr z b * m))), (Z.ltb_spec (x / (pr z b * m)) (ee 0)); cbn [andb]; try reflexivity; lia.
      - intros k Hk IH. unfold Z.succ. rewrite phiWa_split, IH by lia. rewrite !(sumr_snoc 0 k) by lia. ring.
    Qed.

    Lemma combine_ok sched rs s2 tot nT T (Q : Z * list Z -> Prop) : valid_sched sched -> zlen rs = t -> (forall i, 0 <= i < t -> exists r, aget rs i = Ok r /\ thread_spec (ee i) (ee (i + 1)) r) ->
      B + 1 <= nT -> arr tot nT T -> tot_ok (ee 0) T -> Z.abs s2 + phiWa (ee 0) (ee t) <= smax wd ->
      (forall tot' T', arr tot' nT T' -> tot_ok (ee t) T' -> Q (s2 + phiW (ee 0) (ee t), tot')) ->
      wp (hard_combine wd 128 sched rs t (s2, tot)) Q.
    Proof.
      intros Hsch E1 E2 HnT AT HT HB HQ. unfold hard_combine. cbn [fst snd]. pose proof t_bound.
      rewrite phiWa_all in HB by lia. assert (CN : forall a b, 0 <= sumr a b CCa) by (intros; apply sumr_nonneg; intros; apply CCa_nonneg).
      assert (SN : forall a b, 0 <= sumr a b SSa). { intros a b. apply sumr_nonneg. intros k _. pose proof (SS_abs k). pose proof (Z.abs_nonneg (SS k)). lia. }
      rewrite (par_acc_ok (t_add wd) _ (fun _ => True) SS SSa (smax wd) 0 t); auto.
      2:{ intros a b Hab. now apply t_add_ok. }
      2:{ intros i sum st Hi _ Hs. destruct (E2 i Hi) as (r & Er & Hr). rewrite Er, bind_Ok. destruct Hr as (n & P & _ & _ & _ & _ & _ & R5 & _). rewrite R5. fold (SS i).
          rewrite t_add_ok; [|exact Hw|pose proof (SS_abs i); lia]. rewrite bind_Ok. apply wp_ok. cbn [fst snd]. auto. }
      2:{ intros i _. apply SS_abs. }
      2:{ pose proof (CN 0 t). lia. }
      rewrite bind_Ok.
      apply (for_rule _ _ _ (fun i st => fst st = s2 + sumr i t SS + phiW (ee 0) (ee i) /\
        exists T', arr (snd st) nT T' /\ tot_ok (ee i) T')).
      - assert (2 ^ 62 < 2 ^ 400) by reflexivity. lia.
      - cbn [fst snd]. split; [|exists T; auto]. unfold phiW. rewrite (sumr_zero (c + 1)); [ring|]. intros b _. unfold Wb. apply W_empty. lia.
      - intros i [s ti] Hi [H1 (T' & H2 & H3)]. cbn [fst snd] in *. destruct (E2 i Hi) as (r & Er & Hr). rewrite Er, bind_Ok.
        destruct r as [[rs2 rmu] rphi]. pose proof (ee_mono i (i + 1) ltac:(lia)) as EM. pose proof (ee_mono 0 i ltac:(lia)) as EM0.
        refine (combine1_ok (ee i) (ee (i + 1)) (rs2, rmu, rphi) s ti nT T' _ EM _ Hr HnT H2 H3 _ _); [unfold ee; lia| |].
        { fold (CCa i). rewrite H1. pose proof (phiW_abs (ee 0) (ee i)) as PA. rewrite phiWa_all in PA by lia.
          assert (SA : Z.abs (sumr i t SS) <= sumr i t SSa). { eapply Z.le_trans; [apply sumr_abs|]. apply sumr_le. intros k _. apply SS_abs. }
          rewrite (sumr_split 0 i t SSa), (sumr_split 0 i t CCa), (sumr_cons i t CCa) in HB by lia. pose proof (CN (i + 1) t). clear - HB PA SA H0. lia. }
        intros tot' T'' A'' O''. cbn [fst snd]. split; [|exists T''; auto].
        rewrite H1. rewrite (sumr_cons i) by lia.
        assert (SE : SS i + sumr (c + 1) (B + 1) (fun b => Wb (pr z b) (ee i) (ee (i + 1)) (fun _ => 1) * phi_sum (ee i - 1) (b - 1)) = phiW (ee i) (ee (i + 1))).
        { unfold SS, phiW. rewrite <- sumr_add. apply sumr_ext. intros b _. unfold Wb. rewrite <- W_shift. apply W_ext. intros n _. unfold hf, phib. ring. }
        assert (SP : phiW (ee 0) (ee (i + 1)) = phiW (ee 0) (ee i) + phiW (ee i) (ee (i + 1))).
        { unfold phiW. rewrite <- sumr_add. apply sumr_ext. intros b _. unfold Wb. apply W_split. lia. }
        clear HB. lia.
      - intros [s ti] [H1 (T' & H2 & H3)]. replace (Z.max 0 t) with t in * by lia. cbn [fst snd] in *. rewrite (sumr_empty t t) in H1 by lia.
        replace s with (s2 + phiW (ee 0) (ee t)) by lia. now apply (HQ _ T').
    Qed.
  End Round.

  (** ** The master loop *)
  Definition master_inv (nT : Z) (m : master_state) : Prop :=
    1 <= r_low m /\ Z.odd (r_low m) = true /\ lb_ok (Z.sqrt z) (r_lb m) /\
    (exists T, arr (r_phi_total m) nT T /\ tot_ok (Z.min (r_low m) (z + 1)) T) /\
    r_s2 m = sumr (c + 1) (B + 1) (fun b => Wb (pr z b) 1 (Z.min (r_low m) (z + 1)) (phib b)).

  Lemma hard_round_ok leaf obs sched nT m : (forall r, obs_ok (Z.sqrt z) (obs r)) -> (forall r, valid_sched (sched r)) -> B + 1 <= nT -> r_low m < z + 1 -> master_inv nT m ->
    wp (hard_round env leaf obs sched (z + 1) m) (fun m' => master_inv nT m' /\ r_low m < r_low m').
  Proof.
    intros Hobs Hsch HnT Hlow (I1 & I2 & I3 & (T & I4 & I5) & I6). pose proof sqrtz_bound as SB. destruct m as [low th [[ms seg] spt0] tot s2 rd].
    cbn [r_low r_threads r_lb r_phi_total r_s2 r_round] in *. unfold hard_round. cbn [r_low r_threads r_lb r_phi_total r_s2 r_round].
    pose proof I3 as (L1 & L2 & L3 & L4).
    apply wp_bind. apply lb_clamp_ok; [lia|lia|lia|]. intros t s T1 S1 B1.
    assert (SBd : s <= 2 ^ 53). { assert (512 * s * 1 <= seg * s * t) by (apply Z.mul_le_mono_nonneg; nia). lia. }
    assert (D0 : 0 <= seg * s) by nia. assert (DB : seg * s * t <= 2 ^ 60) by lia.
    assert (SG : seg <= seg * s * t). { replace seg with (seg * 1) at 1 by ring. rewrite <- Z.mul_assoc. apply Z.mul_le_mono_nonneg_l; nia. }
    assert (E2 : (2 | seg)) by (apply pow2_even; [exact L2|lia]).
    apply wp_bind. eapply wp_mono; [apply threads_ok; auto; lia|]. intros rs (R1 & R2).
    assert (E0 : Z.min (low + seg * s * 0) (z + 1) = low) by lia.
    apply wp_bind. refine (combine_ok seg s t low (z + 1) ltac:(lia) S1 T1 I1 ltac:(lia) ltac:(lia) (sched rd) rs s2 tot nT T _ (Hsch rd) R1 R2 HnT I4 _ _ _).
    { rewrite E0. now replace (Z.min low (z + 1)) with low in I5 by lia. }
    { rewrite E0, I6. replace (Z.min low (z + 1)) with low by lia. apply Z.le_trans with (2 := Hbud). set (e' := Z.min (low + seg * s * t) (z + 1)). assert (He' : low <= e' <= z + 1) by (unfold e'; lia).
      apply Z.le_trans with (sumr (c + 1) (B + 1) (fun b => Wab (pr z b) 1 low (phib b)) + sumr (c + 1) (B + 1) (fun b => Wab (pr z b) low e' (phib b))).
      - apply Z.add_le_mono_r. eapply Z.le_trans; [apply sumr_abs|]. apply sumr_le. intros b _. apply W_abs.
      - rewrite <- sumr_add. apply sumr_le. intros b _. unfold Wab. rewrite <- Wa_split by lia. apply Wa_incl; lia. }
    intros tot' T' A' O'. cbn iota. apply wp_bind. change (h_z env) with z.
    apply lb_advance_ok; [apply Hobs|lia|exact I3|lia|lia|lia|lia|]. intros st' HS HS2. cbn iota. apply wp_ok. cbn [r_low]. split; [|lia].
    split; [cbn [r_low]; lia|]. split; [|split; [|split]]; cbn [r_low r_threads r_lb r_phi_total r_s2 r_round].
    - rewrite Z.odd_add, I2. destruct E2 as [h ->]. replace (h * 2 * s * t) with (h * s * t * 2) by ring. rewrite (Z.odd_mul _ 2). now rewrite andb_false_r.
    - exact HS.
    - exists T'. split; auto.
    - rewrite I6, E0. replace (Z.min low (z + 1)) with low by lia. rewrite <- sumr_add. apply sumr_ext. intros b _. symmetry. unfold Wb. apply W_split. lia.
  Qed.

  Lemma master_loop_ok leaf obs sched nT th min_size : (forall r, obs_ok (Z.sqrt z) (obs r)) -> (forall r, valid_sched (sched r)) -> B + 1 <= nT -> is_pow2 min_size -> 512 <= min_size <= 2 * Z.max (Z.sqrt z) 512 ->
    wp (loop (fun m => if r_low m <? z + 1 then m <- hard_round env leaf obs sched (z + 1) m ;; Ok (inl m) else Ok (inr (r_s2 m)))
      {| r_low := 1; r_threads := th; r_lb := (min_size, min_size, 1); r_phi_total := amake nT 0; r_s2 := 0; r_round := 0 |})
      (fun v => v = S2_hard_sum x y c).
  Proof.
    intros Hobs Hsch HnT HP Hms. pose proof Hyz as HYZ. assert (B0 : 0 <= B) by apply pi_nonneg.
    apply (loop_rule _ (master_inv nT) (fun m => Z.max 0 (z + 1 - r_low m))).
    - intros m HI. destruct (Z.ltb_spec (r_low m) (z + 1)) as [L|L].
      + apply wp_bind. eapply wp_mono; [apply (hard_round_ok leaf obs sched nT m Hobs Hsch HnT L HI)|]. intros m' [HI' HL]. apply wp_ok. split; [exact HI'|]. lia.
      + apply wp_ok. destruct HI as (_ & _ & _ & _ & ->). rewrite (S2_hard_W x y z Hy Hyx Hz c) by lia. replace (Z.min (r_low m) (z + 1)) with (z + 1) by lia. reflexivity.
    - split; [cbn; lia|]. split; [reflexivity|]. split; [cbn [r_lb]; split; [exact HP|split; [exact HP|lia]]|]. cbn [r_low r_phi_total r_s2].
      replace (Z.min 1 (z + 1)) with 1 by lia. split.
      + exists (fun _ => 0). split; [apply arr_make; lia|]. split; [intros b Hb _; symmetry; unfold phi_sum, Phi; apply sumr_empty; lia|].
        intros b Hb. pose proof (phi_sum_nonneg (1 - 1) 0). lia.
      + symmetry. apply sumr_zero. intros b _. unfold Wb. apply W_empty. lia.
    - cbn [r_low]. assert (2 ^ 59 < 2 ^ 400) by reflexivity. lia.
  Qed.
End Loops.
