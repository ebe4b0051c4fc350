(** The special leaves of all primes grouped by intervals, and the loops over the leaves
    of one prime in one interval, as they are in pi_lmo2 to pi_lmo5 and pi_lmo_parallel1. *)
From Coq Require Import ZArith List Bool Lia Znumtheory.
From Verif.Base Require Import Res Word Zl Arr IType.
From Verif.Spec Require Import Primes LMOSpec S2Spec WheelSpec.
From Verif.Model Require Import S2 LMO.
From Verif.Proofs Require Import Primes NT LMO Imath Tables Phi Leaf S2Leaf S2 HardLeaf HardLoops.
Import ListNotations.
Open Scope Z_scope.
Local Ltac Zify.zify_post_hook ::= idtac.

Section All.
  Context (x y : Z).
  Hypothesis (Hy : 1 <= y) (Hyx : y * y <= x).
  (** all leaves of p with lo <= x/n < hi *)
  Definition Wl (p lo hi : Z) (f : Z -> Z) : Z := W (fun _ _ => true) x y p lo hi f.

  Lemma x_pos : 1 <= x. Proof. nia. Qed.

  Definition Wal (p lo hi : Z) (f : Z -> Z) : Z := Wa (fun _ _ => true) x y p lo hi f.
  Lemma Wh_m h p lo hi f : h 0 = 0 -> prime p -> p <= y -> 1 <= lo -> 1 <= hi ->
    Wh h (fun _ _ => true) x y p lo hi f = sumr (Z.max (x / (p * hi)) (y / p) + 1) (Z.min (x / (p * lo)) y + 1) (fun m => h (small_term x p f m)).
  Proof.
    intros H0 Hp Hpy Hlo Hhi. pose proof (prime_ge_2 p Hp). assert (Hyp : 1 <= y / p) by (apply Z.div_le_lower_bound; lia). pose proof x_pos.
    rewrite <- !(Z.div_div x p) by lia.
    set (a := Z.max (x / p / hi) (y / p)). set (b := Z.min (x / p / lo) y).
    assert (y / p <= a) by lia.
    assert (T : forall m, y / p < m <= y -> lw (fun _ _ => true) p m * f (x / (p * m)) = small_term x p f m).
    { intros m Hm. unfold lw, small_term. rewrite andb_true_r, Z.div_div by lia. destruct (roughb (pi p) m); ring. }
    assert (C : forall m, y / p < m <= y -> ((lo <=? x / (p * m)) && (x / (p * m) <? hi)) = (a <? m) && (m <=? b)).
    { intros m Hm. pose proof (div_pm x p m lo ltac:(lia) ltac:(lia) ltac:(lia)). pose proof (div_pm x p m hi ltac:(lia) ltac:(lia) ltac:(lia)).
      destruct (Z.leb_spec lo (x / (p * m))), (Z.ltb_spec (x / (p * m)) hi), (Z.ltb_spec a m), (Z.leb_spec m b); cbn [andb]; auto; exfalso; unfold a, b in *; lia. }
    unfold Wh. destruct (Z.le_gt_cases a b) as [L|G].
    - rewrite (sumr_split (y / p + 1) (a + 1) (y + 1)) by (unfold b in *; lia). rewrite (sumr_split (a + 1) (b + 1) (y + 1)) by (unfold b in *; lia).
      rewrite (sumr_zero (y / p + 1)), (sumr_zero (b + 1)), Z.add_0_r, Z.add_0_l.
      + apply sumr_ext. intros m Hm. rewrite C by (unfold b in *; lia). destruct (Z.ltb_spec a m), (Z.leb_spec m b); try lia. cbn [andb].
        f_equal. apply T. unfold b in *; lia.
      + intros m Hm. rewrite C by lia. destruct (Z.leb_spec m b); [lia|]. now rewrite andb_false_r.
      + intros m Hm. rewrite C by (unfold b in *; lia). destruct (Z.ltb_spec a m); [lia|]. exact H0.
    - rewrite (sumr_empty (a + 1)) by lia. apply sumr_zero. intros m Hm. rewrite C by lia.
      destruct (Z.ltb_spec a m), (Z.leb_spec m b); try lia; exact H0.
  Qed.
  Lemma Wl_m p lo hi f : prime p -> p <= y -> 1 <= lo -> 1 <= hi ->
    Wl p lo hi f = sumr (Z.max (x / (p * hi)) (y / p) + 1) (Z.min (x / (p * lo)) y + 1) (small_term x p f).
  Proof. exact (Wh_m (fun v => v) p lo hi f eq_refl). Qed.

  (** no prime between p and sqrt(y): the leaves of p are products of two primes *)
  Lemma leaf_pq_pi p m : prime p -> pi (Z.sqrt y) <= pi p -> 2 <= m <= y -> roughb (pi p) m = if primeb m then p <? m else false.
  Proof.
    intros Hp Hyp Hm. destruct (primeb m) eqn:E.
    - apply primeb_spec in E. destruct (Z.ltb_spec p m).
      + apply roughb_spec; [lia|]. apply prime_rough; auto. now apply pi_lt_prime.
      + destruct (roughb (pi p) m) eqn:R; auto. apply roughb_spec in R; [|lia]. elim (R m E); [now apply pi_mono|apply Z.divide_refl].
    - destruct (roughb (pi p) m) eqn:R; auto. exfalso. apply roughb_spec in R; [|lia].
      assert (NP : ~ prime m) by (intros P; apply primeb_spec in P; congruence).
      destruct (composite_divisor m ltac:(lia) NP) as (q & Hq & Hd & Hqq).
      apply (R q Hq); auto. etransitivity; [|exact Hyp]. apply pi_mono. pose proof (prime_ge_2 _ Hq). apply Z.sqrt_le_square; lia.
  Qed.
  Lemma Wh_l h p lo hi f : h 0 = 0 -> prime p -> pi (Z.sqrt y) <= pi p -> p <= y -> 1 <= lo -> 1 <= hi ->
    Wh h (fun _ _ => true) x y p lo hi f = psum (Z.max (Z.max (x / (p * hi)) (y / p)) p + 1) (Z.min (x / (p * lo)) y) (fun q => h (large_term x p f q)).
  Proof.
    intros H0 Hp Hpy Hpy2 Hlo Hhi. pose proof (prime_ge_2 p Hp). assert (Hyp : 1 <= y / p) by (apply Z.div_le_lower_bound; lia). pose proof x_pos.
    rewrite <- !(Z.div_div x p) by lia.
    set (a := Z.max (Z.max (x / p / hi) (y / p)) p). set (b := Z.min (x / p / lo) y).
    rewrite <- (psum_window (y / p + 1) y a b (fun q => (p <? q) && (lo <=? x / (p * q)) && (x / (p * q) <? hi))); [|unfold a; lia|unfold b; lia|].
    - unfold psum, Wh. apply sumr_ext. intros m Hm. unfold lw, large_term. rewrite leaf_pq_pi by (auto; lia). rewrite Z.div_div by lia.
      destruct (primeb m) eqn:E; [|destruct (lo <=? x / (p * m)), (x / (p * m) <? hi); exact H0].
      apply primeb_spec in E. rewrite (mu_prime m E).
      destruct (p <? m), (lo <=? x / (p * m)), (x / (p * m) <? hi); cbn [andb]; try exact H0; f_equal; ring.
    - intros q Hq Hr. pose proof (div_pm x p q lo ltac:(lia) ltac:(lia) ltac:(lia)). pose proof (div_pm x p q hi ltac:(lia) ltac:(lia) ltac:(lia)).
      rewrite !andb_true_iff, Z.ltb_lt, Z.leb_le, Z.ltb_lt. unfold a, b. split; intros; lia.
  Qed.
  Lemma Wl_l p lo hi f : prime p -> pi (Z.sqrt y) <= pi p -> p <= y -> 1 <= lo -> 1 <= hi ->
    Wl p lo hi f = psum (Z.max (Z.max (x / (p * hi)) (y / p)) p + 1) (Z.min (x / (p * lo)) y) (large_term x p f).
  Proof. exact (Wh_l (fun v => v) p lo hi f eq_refl). Qed.

  (** ** Primes that still have leaves at or above low *)
  Definition alive_m (p low : Z) : bool := p <? Z.min (x / (p * low)) y.
  Definition alive_l (p low : Z) : bool := if pi p <? pi (Z.sqrt y) then alive_m p low else p <? top (Z.min (x / (p * low)) y).

  Lemma quot_mono p p' low low' : 0 < p <= p' -> 0 < low <= low' -> x / (p' * low') <= x / (p * low).
  Proof. intros Hp Hl. pose proof x_pos. apply Z.div_le_compat_l; [lia|]. split; [nia|]. apply Z.mul_le_mono_nonneg; lia. Qed.
  Lemma alive_m_mono p p' low low' : prime p -> prime p' -> p <= p' -> 1 <= low <= low' -> alive_m p' low' = true -> alive_m p low = true.
  Proof.
    intros Hp Hp' Hpp Hl. pose proof (prime_ge_2 p Hp). pose proof (quot_mono p p' low low' ltac:(lia) ltac:(lia)) as D.
    unfold alive_m. rewrite !Z.ltb_lt. lia.
  Qed.
  Lemma alive_l_mono p p' low low' : prime p -> prime p' -> p <= p' -> 1 <= low <= low' -> alive_l p' low' = true -> alive_l p low = true.
  Proof.
    intros Hp Hp' Hpp Hl. pose proof (prime_ge_2 p Hp). pose proof (quot_mono p p' low low' ltac:(lia) ltac:(lia)) as D.
    pose proof (pi_mono p p' Hpp). unfold alive_l.
    destruct (Z.ltb_spec (pi p) (pi (Z.sqrt y))), (Z.ltb_spec (pi p') (pi (Z.sqrt y))); try lia.
    - now apply alive_m_mono.
    - unfold alive_m. rewrite !Z.ltb_lt. destruct (top_spec (Z.min (x / (p' * low')) y)) as [E|[P1 P2]]; lia.
    - rewrite !Z.ltb_lt. destruct (top_spec (Z.min (x / (p' * low')) y)) as [E|[P1 P2]]; [lia|].
      intros H3. apply Z.le_lt_trans with p'; auto. apply Z.lt_le_trans with (1 := H3). apply top_ge; auto. lia.
  Qed.
  Lemma alive_l_m p low : prime p -> alive_l p low = true -> alive_m p low = true.
  Proof.
    intros Hp. unfold alive_l. destruct (pi p <? pi (Z.sqrt y)); auto. unfold alive_m. rewrite !Z.ltb_lt. pose proof (prime_ge_2 p Hp).
    destruct (top_spec (Z.min (x / (p * low)) y)) as [E|[P1 P2]]; lia.
  Qed.
  Lemma dead_m p low hi f : prime p -> p <= y -> 1 <= low -> alive_m p low = false -> Wl p low hi f = 0.
  Proof.
    intros Hp Hpy Hl HA. pose proof (prime_ge_2 p Hp). assert (1 <= y / p) by (apply Z.div_le_lower_bound; lia).
    apply W_zero. intros m Hm Hx R _. apply div_pm in Hx; [|lia|lia|lia]. rewrite Z.div_div in Hx by lia. unfold alive_m in HA.
    apply Z.ltb_ge in HA. apply roughb_spec in R; [|lia]. rewrite rough_lpf in R by (auto; lia).
    destruct (least_factor_spec m ltac:(lia)) as (L1 & L2 & L3). apply Z.divide_pos_le in L2; lia.
  Qed.
  Lemma dead_l p low hi f : prime p -> p <= y -> 1 <= low -> alive_l p low = false -> Wl p low hi f = 0.
  Proof.
    intros Hp Hpy Hl HA. pose proof (prime_ge_2 p Hp). assert (1 <= y / p) by (apply Z.div_le_lower_bound; lia). unfold alive_l in HA.
    destruct (Z.ltb_spec (pi p) (pi (Z.sqrt y))) as [L|L]; [now apply dead_m|].
    apply W_zero. intros m Hm Hx R _. apply div_pm in Hx; [|lia|lia|lia]. rewrite Z.div_div in Hx by lia.
    apply Z.ltb_ge in HA. rewrite leaf_pq_pi in R by (auto; lia). destruct (primeb m) eqn:E; [|discriminate]. apply primeb_spec in E.
    apply Z.ltb_lt in R. assert (m <= top (Z.min (x / (p * low)) y)); [|lia]. apply top_ge; auto. lia.
  Qed.

  (** ** All leaves *)
  Lemma S2_sum_Wl c : 0 <= c -> S2_sum x y c = sumr (c + 1) (pi y) (fun b => Wl (pr y b) 1 (x / y + 1) (fun n => phi_sum n (b - 1))).
  Proof.
    intros Hc. rewrite S2_sum_index by auto. apply sumr_ext. intros b Hb. destruct (pr_spec y b ltac:(lia)) as (P1 & P2 & P3).
    set (p := pr y b) in *. pose proof (prime_ge_2 p P1). assert (1 <= y / p) by (apply Z.div_le_lower_bound; lia). pose proof x_pos.
    unfold S2_prime, Wl, W. apply sumr_ext. intros m Hm. unfold leaf, lw.
    assert (1 <= x / (p * m) < x / y + 1).
    { assert (0 < p * m) by nia. split.
      - apply div_le_iff; auto. assert (p * m <= y * y) by (apply Z.mul_le_mono_nonneg; lia). lia.
      - assert (x / (p * m) <= x / y); [|lia]. apply Z.div_le_compat_l; [lia|].
        split; [lia|]. pose proof (Z.mul_succ_div_gt y p ltac:(lia)). assert (p * Z.succ (y / p) <= p * m) by (apply Z.mul_le_mono_nonneg_l; lia). lia. }
    destruct (Z.leb_spec 1 (x / (p * m))), (Z.ltb_spec (x / (p * m)) (x / y + 1)); try lia. cbn [andb]. rewrite andb_true_r, P2.
    destruct (roughb b m); ring.
  Qed.

  (** ** The loops *)
  Section Loops.
    Context {T A : Type} (query : Z -> T -> res (Z * T)).
    Context (p lo hi : Z) (f : Z -> Z) (I : Z -> T -> Prop).
    Hypothesis (Hp : prime p) (Hpy : p <= y) (Hlo : 1 <= lo < hi) (Hy31 : y < 2 ^ 31 - 1).
    (** [I k st]: the state allows queries from k on *)
    Hypothesis I_mono : forall k k' st, k <= k' -> I k st -> I k' st.
    (** [rf v]: how the type of phi represents v *)
    Context (rf : Z -> Z).
    Hypothesis query_ok : forall xn st, lo <= xn < hi -> I xn st -> wp (query xn st) (fun '(phi, st') => phi = rf (f xn) /\ I xn st').

    (** [Rep s u acc]: the accumulator stands for the sum s of the leaves and the sum u of
        their weights, at most Sb and Ub *)
    Context (Rep : Z -> Z -> A -> Prop) (Sb Ub : Z).
    Definition leaves_post (s u : Z) (r : T * A) : Prop :=
      I (hi - 1) (fst r) /\ Rep (s + Wl p lo hi f) (u + Wl p lo hi (fun _ => 1)) (snd r).
    (** there is room for all leaves *)
    Definition room (s u : Z) : Prop := Z.abs s + Wal p lo hi f <= Sb /\ Z.abs u + Wal p lo hi (fun _ => 1) <= Ub.
    (** what an operation on the accumulator has to do *)
    Definition adds (op : Z -> Z -> Z) (add : Z -> Z -> A -> res A) : Prop :=
      forall w n s u acc, lo <= n < hi -> Z.abs w <= y * y -> Rep s u acc -> Z.abs (w * f n) <= Sb -> Z.abs (op s (w * f n)) <= Sb -> Z.abs (op u w) <= Ub ->
        wp (add w (rf (f n)) acc) (Rep (op s (w * f n)) (op u w)).

    Lemma xn_range m : 0 < m -> Z.max (x / (p * hi)) (y / p) < m <= Z.min (x / (p * lo)) y -> lo <= x / (p * m) < hi.
    Proof.
      intros Hm H. pose proof (prime_ge_2 p Hp). split.
      - apply (proj2 (div_le_iff x (p * m) lo ltac:(nia))). replace (p * m * lo) with (p * lo * m) by ring.
        apply (proj1 (div_le_iff x (p * lo) m ltac:(nia))). lia.
      - apply (proj2 (div_lt_iff x (p * m) hi ltac:(nia))). replace (p * m * hi) with (p * hi * m) by ring.
        apply (proj1 (div_lt_iff x (p * hi) m ltac:(nia))). lia.
    Qed.

    Lemma leaves_m_ok sub lpf mut st s u acc : adds Z.sub sub -> room s u -> Rep s u acc -> arr lpf (y + 1) lpf_value -> arr mut (y + 1) (fun k => if k =? 0 then 1 else mu k) -> I lo st ->
      wp (leaves_m query sub lpf mut x p (Z.max (x / (p * hi)) (y / p)) (Z.min (x / (p * lo)) y) st acc) (leaves_post s u).
    Proof.
      intros Hsub [F1 F2] HR HL HM HI. unfold Wal, Wa in F1, F2. rewrite Wh_m in F1, F2 by (auto; lia). pose proof (prime_ge_2 p Hp) as Hp2. assert (Hyp : 1 <= y / p) by (apply Z.div_le_lower_bound; lia). pose proof x_pos as Hx.
      unfold leaves_m. set (mn := Z.max (x / (p * hi)) (y / p)) in *. set (mx := Z.min (x / (p * lo)) y) in *.
      assert (RG : forall m, mn < m <= mx -> 1 < m <= y /\ lo <= x / (p * m) < hi).
      { intros m Hm. split; [unfold mn, mx in Hm; lia|]. apply xn_range; [unfold mn in Hm; lia|exact Hm]. }
      assert (Tm : forall g m, 0 < m -> small_term x p g m = if roughb (pi p) m then - (mu m * m * p) * g (x / (p * m)) else 0).
      { intros g m Hm. unfold small_term. destruct (roughb (pi p) m); [|reflexivity]. rewrite Z.div_div by lia. ring. }
      apply (for_down_rule mx mn _ (fun m '(st, acc') => (exists k, I k st /\ (mn < m <= mx -> k <= x / (p * m)) /\ (k <= hi - 1)) /\
          Rep (s + sumr (m + 1) (mx + 1) (small_term x p f)) (u + sumr (m + 1) (mx + 1) (small_term x p (fun _ => 1))) acc')).
      - unfold mn, mx. assert (2 ^ 31 < 2 ^ 400) by reflexivity. assert (0 <= x / (p * hi)) by (apply Z.div_pos; nia). lia.
      - split.
        + exists lo. split; auto. split; [|lia]. intros Hm. apply RG in Hm. lia.
        + rewrite !sumr_empty, !Z.add_0_r by lia. exact HR.
      - intros m [st1 acc1] Hm [(k & K1 & K2 & K3) HA]. destruct (RG m Hm) as [R1 R2]. specialize (K2 Hm).
        assert (Mn : mn < m - 1 -> x / (p * m) <= x / (p * (m - 1))).
        { intros H1. apply quot_mono; lia. }
        assert (NX : forall g : Z -> Z, sumr (m - 1 + 1) (mx + 1) (small_term x p g) = small_term x p g m + sumr (m + 1) (mx + 1) (small_term x p g)).
        { intros g. replace (m - 1 + 1) with m by ring. now rewrite (sumr_cons m) by lia. }
        rewrite (arr_get _ _ _ m HM) by lia. rewrite bind_Ok. destruct (Z.eqb_spec m 0); [lia|].
        destruct (Z.eqb_spec (mu m) 0) as [E0|E0].
        + apply wp_ok. split; [exists k; split; auto; split; auto; intros; specialize (Mn ltac:(lia)); lia|].
          assert (ZT : forall g, small_term x p g m = 0) by (intros g; rewrite Tm, E0 by lia; destruct (roughb (pi p) m); ring).
          now rewrite !NX, !ZT, !Z.add_0_l.
        + rewrite (arr_get _ _ _ m HL) by lia. rewrite bind_Ok. rewrite <- roughb_lpf by (auto; lia).
          destruct (roughb (pi p) m) eqn:RB.
          * rewrite schk64 by nia. rewrite bind_Ok. rewrite zdiv_ok by nia. rewrite bind_Ok.
            apply wp_bind. eapply wp_mono; [apply query_ok; [exact R2|apply (I_mono k); auto]|].
            intros [phi st2] [-> I2]. apply wp_bind.
            assert (ET : forall g, mu m * m * p * g (x / (p * m)) = - small_term x p g m) by (intros g; rewrite Tm, RB by lia; ring).
            assert (ET1 : mu m * m * p = - small_term x p (fun _ => 1) m) by (rewrite <- (ET (fun _ => 1)); ring).
            assert (EN : forall g a, a - mu m * m * p * g (x / (p * m)) + sumr (m + 1) (mx + 1) (small_term x p g) = a + sumr (m - 1 + 1) (mx + 1) (small_term x p g)) by (intros g a; rewrite (NX g), (ET g); ring).
            assert (EN1 : forall a, a - mu m * m * p + sumr (m + 1) (mx + 1) (small_term x p (fun _ => 1)) = a + sumr (m - 1 + 1) (mx + 1) (small_term x p (fun _ => 1))) by (intros a; rewrite (NX (fun _ => 1)), ET1; ring).
            eapply wp_mono; [refine (Hsub (mu m * m * p) (x / (p * m)) _ _ acc1 R2 _ HA _ _ _)|].
            -- rewrite !Z.abs_mul, (Z.abs_eq m), (Z.abs_eq p) by lia. assert (Z.abs (mu m) <= 1) by (destruct (mu_values m) as [E|[E|E]]; rewrite E; cbn; lia).
               assert (Z.abs (mu m) * m <= y) by nia. apply Z.mul_le_mono_nonneg; lia.
            -- rewrite (ET f), Z.abs_opp. refine (part_one (mn + 1) (mx + 1) m _ _ (small_term x p f) _ F1). lia.
            -- replace (s + _ - _) with (s + sumr (m - 1 + 1) (mx + 1) (small_term x p f)) by (rewrite <- (EN f); ring).
               apply (part_abs (mn + 1) (mx + 1)); [lia|exact F1].
            -- replace (u + _ - _) with (u + sumr (m - 1 + 1) (mx + 1) (small_term x p (fun _ => 1))) by (rewrite <- EN1; ring).
               apply (part_abs (mn + 1) (mx + 1)); [lia|exact F2].
            -- intros acc2 HR2. apply wp_ok. split; [exists (x / (p * m)); split; auto; split; [intros; apply Mn; lia|lia]|].
               rewrite <- (EN f), <- EN1. replace (s - _ + _) with (s + sumr (m + 1) (mx + 1) (small_term x p f) - mu m * m * p * f (x / (p * m))) by ring.
               replace (u - _ + _) with (u + sumr (m + 1) (mx + 1) (small_term x p (fun _ => 1)) - mu m * m * p) by ring. exact HR2.
          * apply wp_ok. split; [exists k; split; auto; split; auto; intros; specialize (Mn ltac:(lia)); lia|].
            assert (ZT : forall g, small_term x p g m = 0) by (intros g; rewrite Tm, RB by lia; reflexivity). now rewrite !NX, !ZT, !Z.add_0_l.
      - intros [st1 acc1] [(k & K1 & _ & K3) HA]. split; [apply (I_mono k); auto|]. cbn [snd].
        rewrite !Wl_m by (auto; lia). fold mn mx. destruct (Z.le_gt_cases mn mx); [now rewrite Z.min_l in HA by lia|rewrite !sumr_empty in HA |- * by lia; exact HA].
    Qed.

    Lemma leaves_l_ok add primes st s u acc : adds Z.add add -> room s u -> Rep s u acc -> (forall b, 0 <= b <= pi y -> aget primes b = Ok (pr y b)) -> pi (Z.sqrt y) <= pi p -> I lo st ->
      wp (leaves_l query add primes x p (Z.max (Z.max (x / (p * hi)) (y / p)) p) (pi (Z.min (x / (p * lo)) y)) st acc) (leaves_post s u).
    Proof.
      intros Hadd [F1 F2] HR Hpr Hsq HI. unfold Wal, Wa in F1, F2. rewrite Wh_l in F1, F2 by (auto; lia). pose proof (prime_ge_2 p Hp) as Hp2. pose proof x_pos as Hx. assert (Hypd : y / p <= y) by (apply Z.div_le_upper_bound; nia).
      unfold leaves_l. set (mn := Z.max (Z.max (x / (p * hi)) (y / p)) p) in *. set (mx := Z.min (x / (p * lo)) y) in *.
      assert (Hmx : 0 <= mx <= y) by (unfold mx; assert (0 <= x / (p * lo)) by (apply Z.div_pos; nia); lia).
      assert (Hmn : 1 <= mn) by (unfold mn; lia).
      pose proof (pi_mono mx y ltac:(lia)) as PM. pose proof (pi_nonneg mx) as PM0.
      assert (PL : forall l, 0 <= l <= pi mx -> pr y l <= mx).
      { intros l Hli. destruct (Z.eq_dec l 0) as [->|]; [rewrite pr_0; lia|]. transitivity (pr y (pi mx)); [apply pr_mono_le; lia|].
        rewrite top_pr by lia. destruct (top_spec mx) as [->|[_ ?]]; lia. }
      assert (RG : forall l, 0 <= l <= pi mx -> mn < pr y l -> 2 <= pr y l <= y /\ lo <= x / (p * pr y l) < hi).
      { intros l Hl G. pose proof (PL l Hl). split; [unfold mn in G; lia|]. apply xn_range; [lia|]. unfold mn in G. unfold mx in H. lia. }
      assert (Tm : forall g q, 0 < q -> large_term x p g q = q * p * g (x / (p * q))).
      { intros g q Hq. unfold large_term. rewrite Z.div_div by lia. ring. }
      set (mn' := Z.min mn y).
      assert (PG : forall l, 0 <= l <= pi mx -> mn < pr y l <-> pi mn' < l).
      { intros l Hl. pose proof (PL l Hl). destruct (Z.le_gt_cases mn y) as [L|L].
        - replace mn' with mn by (unfold mn'; lia). apply (pr_gt_index y); lia.
        - replace mn' with y by (unfold mn'; lia). lia. }
      apply (loop_rule _ (fun '(l, st, acc') => 0 <= l <= pi mx /\ (pi mn' <= l \/ l = pi mx) /\
          (exists k, I k st /\ (mn < pr y l -> k <= x / (p * pr y l)) /\ k <= hi - 1) /\
          Rep (s + sumr (l + 1) (pi mx + 1) (fun j => large_term x p f (pr y j))) (u + sumr (l + 1) (pi mx + 1) (fun j => large_term x p (fun _ => 1) (pr y j))) acc')
        (fun '(l, _, _) => l)).
      - intros [[l st1] acc1] (I1 & I2 & (k & K1 & K2 & K3) & HA). rewrite Hpr by lia. rewrite bind_Ok. pose proof (PG l I1) as PGl.
        destruct (Z.gtb_spec (pr y l) mn) as [G|G].
        + destruct (RG l I1 G) as [R1 R2]. specialize (K2 G). rewrite schk64 by nia. rewrite bind_Ok. rewrite zdiv_ok by nia. rewrite bind_Ok.
          apply wp_bind. eapply wp_mono; [apply query_ok; [exact R2|apply (I_mono k); auto]|].
          apply PGl in G as G1. pose proof (pi_nonneg mn').
          intros [phi st2] [-> I3]. apply wp_bind.
          assert (mn <= y) by lia. replace mn' with mn in * by (unfold mn'; lia). rewrite (psum_index_range y) in F1, F2 by lia.
          assert (ET : forall g, pr y l * p * g (x / (p * pr y l)) = large_term x p g (pr y l)) by (intros g; rewrite Tm by lia; ring).
          assert (ET1 : pr y l * p = large_term x p (fun _ => 1) (pr y l)) by (rewrite <- (ET (fun _ => 1)); ring).
          assert (EN : forall g a, a + sumr l (pi mx + 1) (fun j => large_term x p g (pr y j)) = a + sumr (l + 1) (pi mx + 1) (fun j => large_term x p g (pr y j)) + pr y l * p * g (x / (p * pr y l)))
            by (intros g a; rewrite (sumr_cons l), (ET g) by lia; ring).
          pose proof (EN (fun _ => 1) u) as EN1. rewrite Z.mul_1_r in EN1.
          eapply wp_mono; [refine (Hadd (pr y l * p) (x / (p * pr y l)) _ _ acc1 R2 _ HA _ _ _)|].
          { rewrite Z.abs_eq by nia. apply Z.mul_le_mono_nonneg; lia. }
          { rewrite (ET f). refine (part_one (pi mn + 1) (pi mx + 1) l _ _ (fun j => large_term x p f (pr y j)) _ F1). lia. }
          { rewrite <- (EN f). apply (part_abs (pi mn + 1) (pi mx + 1)); [lia|exact F1]. }
          { rewrite <- EN1. apply (part_abs (pi mn + 1) (pi mx + 1)); [lia|exact F2]. }
          intros acc2 HR2. apply wp_ok. split; [|lia]. split; [lia|]. split; [lia|]. split.
          * exists (x / (p * pr y l)). split; auto. split; [|lia]. intros G2. apply quot_mono; [lia|]. destruct (RG (l - 1) ltac:(lia) G2) as [R3 _].
            pose proof (pr_mono y (l - 1) l ltac:(lia) ltac:(lia) ltac:(lia)). lia.
          * replace (l - 1 + 1) with l by ring. rewrite (EN f), EN1. exact HR2.
        + apply wp_ok. split; [apply (I_mono k); auto|]. cbn [snd]. rewrite !Wl_l by (auto; lia). fold mn mx. clear F1 F2.
          assert (LE : l <= pi mn') by lia.
          destruct (Z.le_gt_cases mn y) as [L|L].
          * rewrite !(psum_index_range y) by lia. replace mn' with mn in * by (unfold mn'; lia).
            destruct I2 as [I2| ->]; [now replace l with (pi mn) in HA by lia|]. rewrite !sumr_empty in HA |- * by lia. exact HA.
          * replace mn' with y in * by (unfold mn'; lia). unfold psum. rewrite !sumr_empty in HA |- * by lia. exact HA.
      - split; [lia|]. split; [auto|]. split.
        + exists lo. split; auto. split; [|lia]. intros G. apply RG in G; lia.
        + rewrite !sumr_empty, !Z.add_0_r by lia. exact HR.
      - pose proof (pi_le mx ltac:(lia)). assert (2 ^ 31 < 2 ^ 400) by reflexivity. lia.
    Qed.
  End Loops.
End All.
