(** The load balancer keeps its invariants for every sequence of observations. *)
From Coq Require Import ZArith List Bool Lia.
From Verif.Base Require Import Res Word Zl IType.
From Verif.Spec Require Import TilingSpec.
From Verif.Model Require Import Imath S2LoadBalancer.
From Verif.Proofs Require Import Imath Phi S2.
Import ListNotations.
Open Scope Z_scope.
Local Ltac Zify.zify_post_hook ::= idtac.

(** What the floating-point parts may return: a size of at most sqrt(z), and at most
    twice as many segments per thread. *)
Definition obs_ok (sqrtz : Z) (ob : lb_obs) : Prop :=
  0 <= ob_size ob <= sqrtz /\ forall s, 1 <= s <= 2 ^ 53 -> 1 <= ob_segments ob s <= 2 * s.

Definition lb_ok (sqrtz : Z) (st : lb_state) : Prop :=
  let '(ms, seg, _) := st in is_pow2 ms /\ is_pow2 seg /\ 512 <= ms <= seg /\ seg <= 2 * Z.max sqrtz 512.

Lemma pow2_lt_double a b : is_pow2 a -> is_pow2 b -> a < b -> 2 * a <= b.
Proof.
  intros (i & Hi & ->) (j & Hj & ->) H. apply Z.pow_lt_mono_r_iff in H; [|lia|lia].
  rewrite <- Z.pow_succ_r by lia. apply Z.pow_le_mono_r; lia.
Qed.
Lemma pow2_double a : is_pow2 a -> is_pow2 (a * 2).
Proof. intros (i & Hi & ->). exists (i + 1). split; [lia|]. rewrite Z.pow_add_r by lia. reflexivity. Qed.
Lemma pow2_half a : is_pow2 a -> 2 <= a -> is_pow2 (Z.shiftr a 1) /\ 2 * Z.shiftr a 1 = a.
Proof.
  intros (i & Hi & ->) H. assert (1 <= i). { destruct (Z.eq_dec i 0) as [->|]; [change (2 ^ 0) with 1 in H; lia|lia]. }
  rewrite Z.shiftr_div_pow2 by lia. replace (2 ^ i) with (2 ^ (i - 1) * 2 ^ 1) by (rewrite <- Z.pow_add_r by lia; f_equal; lia).
  rewrite Z.div_mul by lia. split; [exists (i - 1); split; [lia|reflexivity]|lia].
Qed.
Lemma pow2_even a : is_pow2 a -> 2 <= a -> (2 | a).
Proof. intros H1 H2. destruct (pow2_half a H1 H2) as [_ E]. exists (Z.shiftr a 1). lia. Qed.

Lemma lb_min_size_ok sqrtz size : 0 <= size <= sqrtz -> sqrtz < 2 ^ 32 ->
  wp (lb_min_size size) (fun m => is_pow2 m /\ 512 <= m <= 2 * Z.max sqrtz 512).
Proof.
  intros H Hs. unfold lb_min_size. eapply wp_mono; [apply (next_power_of_2_ok i64); [cbn; tauto|change (tdigits i64) with 63; lia]|].
  cbv beta. intros m (M1 & M2 & M3). split; auto. split; [lia|].
  destruct (Z.le_gt_cases m (2 * Z.max sqrtz 512)) as [|G]; auto. exfalso.
  destruct (pow2_half m M1 ltac:(lia)) as [P1 P2]. specialize (M3 (Z.shiftr m 1) P1). lia.
Qed.

Lemma lb_clamp_ok limit low seg spt threads (Q : Z * Z -> Prop) : 0 <= low < limit -> limit <= 2 ^ 60 -> 512 <= seg <= 2 ^ 33 ->
  (forall t s, 1 <= t -> 1 <= s -> seg * s * t <= 2 * (limit - low + seg) -> Q (t, s)) -> wp (lb_clamp limit low seg spt threads) Q.
Proof.
  intros Hl Hlim Hseg HQ. unfold lb_clamp.
  destruct (ceil_div_all i64 (limit - low) seg) as (n & E & N1 & N2); [cbn; tauto|lia|lia|change (tmax i64) with (2 ^ 63 - 1); lia|].
  rewrite E, bind_Ok. assert (1 <= n) by nia. assert (NB : seg * (n - 1) < limit - low).
  { destruct (Z.lt_ge_cases (seg * (n - 1)) (limit - low)); auto. specialize (N2 (n - 1) ltac:(lia)). lia. }
  cbv zeta. destruct (in_between_ok 1 threads n ltac:(lia)) as (T1 & _). set (t := in_between 1 threads n) in *.
  assert (n <= 2 ^ 60) by nia.
  destruct (ceil_div_all i64 n t) as (k & E2 & K1 & K2); [cbn; tauto|lia|lia|change (tmax i64) with (2 ^ 63 - 1); lia|].
  rewrite E2, bind_Ok. assert (1 <= k) by nia. assert (KB : t * (k - 1) < n).
  { destruct (Z.lt_ge_cases (t * (k - 1)) n); auto. specialize (K2 (k - 1) ltac:(lia)). lia. }
  destruct (in_between_ok 1 spt k ltac:(lia)) as (S1 & _). set (s := in_between 1 spt k) in *.
  apply wp_ok, HQ; try lia. assert (s * t <= k * t) by (apply Z.mul_le_mono_nonneg_r; lia).
  assert (s * t <= 2 * n) by lia. assert (seg * (s * t) <= seg * (2 * n)) by (apply Z.mul_le_mono_nonneg_l; lia). lia.
Qed.

Lemma lb_high_ok seg spt t low : 0 <= seg -> 0 <= spt -> 1 <= t -> 0 <= low -> low + seg * spt * t < 2 ^ 63 ->
  lb_high seg spt t low = Ok (low + seg * spt * t).
Proof.
  intros H1 H2 H3 H4 H5. unfold lb_high. assert (0 <= seg * spt) by nia. assert (seg * spt <= seg * spt * t) by nia.
  rewrite schk64 by lia. rewrite bind_Ok. rewrite schk64 by lia. rewrite bind_Ok. now rewrite schk64 by lia.
Qed.

Lemma lb_advance_ok sqrtz leaf ob low t ms seg spt (Q : Z * lb_state -> Prop) : obs_ok sqrtz ob -> sqrtz < 2 ^ 32 -> lb_ok sqrtz (ms, seg, spt) ->
  1 <= t -> 1 <= spt <= 2 ^ 53 -> 0 <= low <= 2 ^ 60 -> seg * spt * t <= 2 ^ 61 + 2 ^ 40 ->
  (forall st, lb_ok sqrtz st -> 1 <= snd st -> Q (low + seg * spt * t, st)) -> wp (lb_advance sqrtz leaf ob low t (ms, seg, spt)) Q.
Proof.
  intros [O1 O2] Hs (L1 & L2 & L3 & L4) Ht Hspt Hlow HD HQ. unfold lb_advance.
  assert (P1 : 0 <= spt * t) by nia. assert (P2 : spt * t <= seg * spt * t). { assert (1 * (spt * t) <= seg * (spt * t)) by (apply Z.mul_le_mono_nonneg_r; lia). lia. }
  rewrite schk64 by lia. rewrite bind_Ok. replace (spt * t * seg) with (seg * spt * t) by ring. rewrite schk64 by lia. rewrite bind_Ok.
  rewrite schk64 by lia. rewrite bind_Ok. set (low' := low + seg * spt * t) in *.
  assert (HR : wp (lb_resize sqrtz leaf ob low' (ms, seg, spt)) (fun r => is_pow2 (fst r) /\ ms <= fst r <= 2 * Z.max sqrtz 512 /\ 1 <= snd r /\
     fst r * snd r * t <= 2 * (seg * spt * t) /\ snd r <= 2 * spt)).
  { unfold lb_resize. destruct (Z.ltb_spec seg sqrtz).
    - destruct (ob_increase ob).
      + rewrite schk64 by lia. rewrite bind_Ok. apply wp_ok. cbn [fst snd]. split; [now apply pow2_double|]. repeat (split; [lia|]). lia.
      + destruct (ob_decrease ob); cbn [andb]; [destruct (Z.gtb_spec seg ms)|].
        * apply wp_ok. cbn [fst snd]. destruct (pow2_half seg L2 ltac:(lia)) as [H1 H2]. pose proof (pow2_lt_double _ _ L1 L2 ltac:(lia)).
          split; auto. split; [lia|]. split; [lia|]. split; [|lia]. assert (0 <= Z.shiftr seg 1 * spt * t) by nia. nia.
        * apply wp_ok. cbn [fst snd]. split; auto. split; [lia|]. split; [lia|]. split; nia.
        * apply wp_ok. cbn [fst snd]. split; auto. split; [lia|]. split; [lia|]. split; nia.
    - destruct (low' >? leaf).
      + unfold lb_segments. destruct (ob_increase ob || ob_decrease ob); [destruct (ob_fast ob)|].
        * rewrite schk64 by lia. rewrite !bind_Ok. apply wp_ok. cbn [fst snd]. split; auto. split; [lia|]. split; [lia|]. split; lia.
        * specialize (O2 spt ltac:(lia)). rewrite bind_Ok. apply wp_ok. cbn [fst snd]. set (s' := ob_segments ob spt) in *. split; auto. split; [lia|]. split; [lia|]. split; [|lia].
          assert (seg * t * s' <= seg * t * (2 * spt)) by (apply Z.mul_le_mono_nonneg_l; nia). lia.
        * rewrite bind_Ok. apply wp_ok. cbn [fst snd]. split; auto. split; [lia|]. split; [lia|]. split; nia.
      + apply wp_ok. cbn [fst snd]. split; auto. split; [lia|]. split; [lia|]. split; nia. }
  apply wp_bind. unfold lb_update. apply wp_bind. eapply wp_mono; [exact HR|]. intros [seg' spt'] (R1 & R2 & R3 & R4 & R5). cbn [fst snd] in *.
  rewrite lb_high_ok by (try lia; unfold low'; lia). rewrite bind_Ok.
  assert (E2 : ms * spt' * t <= 2 ^ 62 + 2 ^ 41).
  { assert (ms * (spt' * t) <= seg' * (spt' * t)) by (apply Z.mul_le_mono_nonneg_r; [nia|lia]). lia. }
  apply wp_bind.
  assert (HK : forall seg2 high, is_pow2 seg2 -> ms <= seg2 <= 2 * Z.max sqrtz 512 ->
    wp (if high >=? leaf then min_size <- lb_min_size (ob_size ob);; Ok (min_size, Z.max min_size seg2, spt') else Ok (ms, seg2, spt'))
       (fun lb => wp (Ok (low', lb)) Q)).
  { intros seg2 high K1 K2. destruct (high >=? leaf).
    - apply wp_bind. eapply wp_mono; [apply (lb_min_size_ok sqrtz); [lia|lia]|]. intros m (M1 & M2). apply wp_ok, wp_ok, HQ; [|cbn [snd]; lia].
      split; auto. split; [destruct (Z.max_spec m seg2) as [[_ ->]|[_ ->]]; auto|]. lia.
    - apply wp_ok, wp_ok, HQ; [|cbn [snd]; lia]. split; auto. split; auto. lia. }
  destruct ((low' <=? leaf) && (low' + seg' * spt' * t >? leaf)).
  - rewrite lb_high_ok by (try lia; unfold low'; lia). rewrite bind_Ok. apply wp_ok. apply HK; auto. lia.
  - apply wp_ok. apply HK; auto.
Qed.

(** ** The plan *)
Lemma covered_app n l1 l2 : covered n (l1 ++ l2) = covered n l1 + covered n l2.
Proof. unfold covered. rewrite filter_app. apply zlen_app. Qed.
Lemma covered_one n lo hi : covered n [(lo, hi)] = if (lo <=? n) && (n <? hi) then 1 else 0.
Proof. unfold covered. cbn [filter]. destruct ((lo <=? n) && (n <? hi)); reflexivity. Qed.

Lemma lb_interval_ok seg spt i low limit : 0 <= seg * spt -> 0 <= i -> 0 <= low -> low + seg * spt * i + seg * spt < 2 ^ 63 ->
  lb_interval seg spt i low limit = Ok (low + seg * spt * i, Z.min (low + seg * spt * i + seg * spt) limit).
Proof.
  intros H1 H2 H3 H4. unfold lb_interval. assert (0 <= seg * spt * i) by nia. rewrite schk64 by lia. rewrite bind_Ok. rewrite schk64 by lia. rewrite bind_Ok.
  rewrite schk64 by lia. rewrite bind_Ok. rewrite schk64 by lia. now rewrite bind_Ok.
Qed.

Theorem lb_plan_ok sqrtz leaf obs limit threads size : 0 <= sqrtz < 2 ^ 32 -> (forall r, obs_ok sqrtz (obs r)) -> 1 <= limit <= 2 ^ 60 -> 0 <= size <= sqrtz ->
  wp (min_size <- lb_min_size size ;; lb_plan sqrtz leaf obs limit threads min_size)
     (fun plan => tiles 1 limit (concat (map snd plan)) /\ Forall (round_ok limit) plan).
Proof.
  intros Hs Hobs Hlim Hsize. apply wp_bind. eapply wp_mono; [apply (lb_min_size_ok sqrtz); [lia|lia]|]. intros m (M1 & M2). unfold lb_plan.
  apply (loop_rule _ (fun '(low, threads, st, round, out) => 1 <= low /\ lb_ok sqrtz st /\ tiles 1 (Z.min low limit) (concat (map snd out)) /\ Forall (round_ok limit) out)
    (fun '(low, _, _, _, _) => Z.max 0 (limit - low))).
  - clear threads m M1 M2. intros [[[[low threads] [[ms seg] spt]] round] out] (H1 & H2 & H3 & H4). destruct (Z.ltb_spec low limit) as [L|L].
    + pose proof H2 as (L1 & L2 & L3 & L4). apply wp_bind. apply lb_clamp_ok; [lia|lia|lia|]. intros t s T1 S1 B1.
      assert (SB : s <= 2 ^ 53). { assert (512 * s * 1 <= seg * s * t) by (apply Z.mul_le_mono_nonneg; nia). lia. }
      assert (D0 : 0 <= seg * s) by nia. assert (DB : seg * s * t <= 2 ^ 61 + 2 ^ 40) by lia.
      apply wp_bind. apply (for_rule _ _ _ (fun i l => zlen l = i /\ tiles low (Z.min (low + seg * s * i) limit) l /\
          forall k lo hi, aget l k = Ok (lo, hi) -> hi = Z.min (lo + seg * s) limit)).
      * assert (t <= 2 ^ 62). { assert (1 * t <= seg * s * t) by (apply Z.mul_le_mono_nonneg_r; nia). lia. } assert (2 ^ 62 < 2 ^ 400) by reflexivity. lia.
      * split; [reflexivity|]. split.
        -- intros n. replace (low + seg * s * 0) with low by ring. change (covered n []) with 0. destruct (Z.leb_spec low n), (Z.ltb_spec n (Z.min low limit)); cbn [andb]; auto; lia.
        -- intros k lo hi E. apply aget_range in E. change (zlen (@nil (Z * Z))) with 0 in E. lia.
      * intros i l Hi (E1 & E2 & E3). assert (SI : seg * s * i + seg * s <= seg * s * t). { replace (seg * s * i + seg * s) with (seg * s * (i + 1)) by ring. apply Z.mul_le_mono_nonneg_l; lia. }
        assert (0 <= seg * s * i) by nia.
        rewrite lb_interval_ok by lia. rewrite bind_Ok. apply wp_ok. split; [rewrite zlen_app, E1; reflexivity|]. split.
        -- intros n. rewrite covered_app, E2, covered_one. replace (low + seg * s * (i + 1)) with (low + seg * s * i + seg * s) by ring.
           destruct (Z.leb_spec low n), (Z.ltb_spec n (Z.min (low + seg * s * i) limit)), (Z.leb_spec (low + seg * s * i) n), (Z.ltb_spec n (Z.min (low + seg * s * i + seg * s) limit)); cbn [andb]; try lia.
        -- intros k lo hi. rewrite aget_app. destruct (Z.ltb_spec k (zlen l)); [apply E3|]. rewrite aget_cons. destruct (k - zlen l =? 0).
           ++ intros [= <- <-]. reflexivity.
           ++ intros E. apply aget_range in E. change (zlen (@nil (Z * Z))) with 0 in E. lia.
      * intros l (E1 & E2 & E3). replace (Z.max 0 t) with t in * by lia. apply wp_bind.
        apply lb_advance_ok; [apply Hobs|lia|auto|lia|lia|lia|lia|]. intros st' HS HS2. apply wp_ok.
        assert (SG : seg <= seg * s * t). { replace seg with (seg * 1) at 1 by ring. rewrite <- Z.mul_assoc. apply Z.mul_le_mono_nonneg_l; nia. }
        split; [|lia]. split; [lia|]. split; auto. split.
        -- intros n. rewrite map_app, concat_app, covered_app. cbn [map snd concat]. rewrite app_nil_r. rewrite H3, E2.
           destruct (Z.leb_spec 1 n), (Z.ltb_spec n (Z.min low limit)), (Z.leb_spec low n), (Z.ltb_spec n (Z.min (low + seg * s * t) limit)); cbn [andb]; try lia.
        -- apply Forall_app. split; auto. constructor; [|constructor]. unfold round_ok. split; auto. split; auto. split; [lia|]. split; [lia|]. split; [lia|]. exact E3.
    + apply wp_ok. split; auto. intros n. rewrite H3. now replace (Z.min low limit) with limit by lia.
  - split; [lia|]. split; [split; auto; split; auto; lia|]. split; [|constructor]. intros n. change (covered n (concat (map snd []))) with 0.
    destruct (Z.leb_spec 1 n), (Z.ltb_spec n (Z.min 1 limit)); cbn [andb]; auto; lia.
  - assert (2 ^ 61 < 2 ^ 400) by reflexivity. lia.
Qed.
