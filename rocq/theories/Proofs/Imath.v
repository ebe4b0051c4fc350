From Coq Require Import ZArith List Bool Lia Znumtheory.
From Verif.Base Require Import Res Word Zl IType.
From Verif.Spec Require Import Primes.
From Verif.Model Require Import Imath.
From Verif.Proofs Require Import Primes.
Import ListNotations.
Open Scope Z_scope.

(** ** isqrt *)
Lemma pow_400_big n : 0 <= n <= 128 -> 2 ^ n < 2 ^ 400.
Proof. intros. apply Z.pow_lt_mono_r; lia. Qed.

Lemma isqrt_gen t m r0 x : 0 < bits t -> 0 <= tdigits t <= 128 ->
  ct_sqrt t (tmax t) = Ok m -> m * m <= tmax t -> tmax t < (m + 1) * (m + 1) -> 2 <= m -> 
  0 <= r0 -> 0 <= x <= tmax t ->
  isqrt t r0 x = Ok (Z.sqrt x).
Proof.
  intros Hb Hd Ec H1 H2 Hm Hr Hx. apply wp_eq.
  assert (HT : tmax t < 2 ^ 400).
  { unfold tmax. pose proof (pow_400_big (tdigits t) Hd). lia. }
  assert (Hmin : tmin t <= 0).
  { unfold tmin. destruct (signed t); [|lia]. assert (0 < 2 ^ tdigits t) by (apply Z.pow_pos_nonneg; lia). lia. }
  assert (T : forall z, 0 <= z <= tmax t -> tar t z = Ok z) by (intros z Hz; apply tar_ok; auto; unfold in_t; lia).
  unfold isqrt. rewrite Ec. cbn [bind]. apply wp_bind.
  apply (loop_rule _ (fun r => 0 <= r <= m) (fun r => r)).
  2: lia. 2: nia.
  intros r Hrr. rewrite T by nia. cbn [bind].
  destruct (Z.gtb_spec (r * r) x) as [G|L].
  - rewrite T by nia. cbn [bind wp]. nia.
  - cbn [wp].
    apply (loop_rule _ (fun r => 0 <= r /\ r * r <= x) (fun r => x - r)).
    2: nia. 2: lia.
    intros s [Hs1 Hs2]. assert (s <= m) by nia.
    rewrite T by nia. cbn [bind]. rewrite T by nia. cbn [bind]. rewrite T by nia. cbn [bind].
    destruct (Z.gtb_spec (x - s * s) (s * 2)) as [G2|L2].
    + rewrite T by nia. cbn [bind wp]. nia.
    + cbn [wp]. symmetry. apply Z.sqrt_unique. nia.
Qed.

Lemma isqrt_ok t r0 x : In t [i32; u32; i64; u64; i128; u128] -> 0 <= r0 -> 0 <= x <= tmax t ->
  isqrt t r0 x = Ok (Z.sqrt x).
Proof.
  intros Ht Hr Hx. simpl in Ht.
  destruct Ht as [<-|[<-|[<-|[<-|[<-|[<-|[]]]]]]].
  - apply (isqrt_gen i32 46340); auto; try reflexivity; try discriminate; try (vm_compute; intuition discriminate).
  - apply (isqrt_gen u32 65535); auto; try reflexivity; try discriminate; try (vm_compute; intuition discriminate).
  - apply (isqrt_gen i64 3037000499); auto; try reflexivity; try discriminate; try (vm_compute; intuition discriminate).
  - apply (isqrt_gen u64 4294967295); auto; try reflexivity; try discriminate; try (vm_compute; intuition discriminate).
  - apply (isqrt_gen i128 13043817825332782212); auto; try reflexivity; try discriminate; try (vm_compute; intuition discriminate).
  - apply (isqrt_gen u128 18446744073709551615); auto; try reflexivity; try discriminate; try (vm_compute; intuition discriminate).
Qed.

(** ** ipow / iroot *)
Lemma ipow_ok t x n : 0 < bits t -> 0 <= tdigits t -> 0 <= x -> 0 <= n < 2 ^ 400 -> x ^ n <= tmax t ->
  1 <= tmax t -> ipow t x n = Ok (x ^ n).
Proof.
  intros Hb Hd Hx Hn Hp H1. apply wp_eq. unfold ipow.
  assert (Hmin : tmin t <= 0).
  { unfold tmin. destruct (signed t); [|lia]. assert (0 < 2 ^ tdigits t) by (apply Z.pow_pos_nonneg; lia). lia. }
  apply (for_rule 0 n _ (fun i r => r = x ^ i)).
  - lia.
  - reflexivity.
  - intros i s Hi ->. rewrite tar_ok; auto.
    + cbn [wp]. rewrite Z.pow_add_r by lia. rewrite Z.pow_1_r. ring.
    + unfold in_t. assert (0 <= x ^ i) by (apply Z.pow_nonneg; lia). split; [nia|].
      replace (x ^ i * x) with (x ^ (i + 1)) by (rewrite Z.pow_add_r, Z.pow_1_r by lia; ring).
      destruct (Z.eq_dec x 0) as [->|Hx0].
      * rewrite Z.pow_0_l by lia. lia.
      * etransitivity; [|exact Hp]. apply Z.pow_le_mono_r; lia.
  - intros s ->. now rewrite Z.max_r by lia.
Qed.

(** The width condition under which the correction loops cannot overflow. *)
Definition iroot_fits (t : ity) (N : Z) : Prop :=
  2 <= N <= 64 /\ (tdigits t + N - 1) / N * (N - 1) < tdigits t.

Lemma pow_le_div r N x : 0 < r -> 1 <= N -> 0 <= x -> (r ^ (N - 1) <=? Z.quot x r) = (r ^ N <=? x).
Proof.
  intros Hr HN Hx. rewrite Z.quot_div_nonneg by lia. apply eq_true_iff_eq. rewrite !Z.leb_le.
  replace N with (N - 1 + 1) at 2 by ring. rewrite Z.pow_add_r by lia. rewrite Z.pow_1_r.
  split; intros H.
  - pose proof (Z.mul_div_le x r Hr). nia.
  - apply Z.div_le_lower_bound; lia.
Qed.

Lemma iroot_gen t N r0 x : 0 < bits t -> 1 < tdigits t <= 128 -> iroot_fits t N ->
  0 <= x <= tmax t -> 0 <= r0 <= 2 ^ ((tdigits t + N - 1) / N) ->
  wp (iroot t N r0 x) (fun r => 0 <= r /\ r ^ N <= x < (r + 1) ^ N).
Proof.
  intros Hb Hd [HN Hf] Hx Hr.
  set (K := (tdigits t + N - 1) / N) in *.
  assert (HK : tdigits t <= N * K).
  { unfold K. pose proof (Z.div_mod (tdigits t + N - 1) N ltac:(lia)). pose proof (Z.mod_pos_bound (tdigits t + N - 1) N ltac:(lia)). lia. }
  assert (HK0 : 1 <= K) by nia.
  assert (HKp : 0 < 2 ^ K) by (apply Z.pow_pos_nonneg; lia).
  assert (HK128 : K <= 128) by nia.
  assert (HT : tmax t < 2 ^ 400).
  { unfold tmax. pose proof (pow_400_big (tdigits t) ltac:(lia)). lia. }
  assert (HT1 : 3 <= tmax t).
  { unfold tmax. assert (2 ^ 2 <= 2 ^ tdigits t) by (apply Z.pow_le_mono_r; lia). lia. }
  assert (Hmin : tmin t <= 0).
  { unfold tmin. destruct (signed t); [|lia]. assert (0 < 2 ^ tdigits t) by (apply Z.pow_pos_nonneg; lia). lia. }
  assert (HKT : 2 ^ K <= tmax t).
  { unfold tmax. assert (2 ^ K < 2 ^ tdigits t) by (apply Z.pow_lt_mono_r; nia). lia. }
  assert (P : forall r, 0 <= r <= 2 ^ K -> ipow t r (N - 1) = Ok (r ^ (N - 1))).
  { intros r Hr'. apply ipow_ok; try lia.
    transitivity ((2 ^ K) ^ (N - 1)); [apply Z.pow_le_mono_l; lia|].
    rewrite <- Z.pow_mul_r by lia. unfold tmax.
    assert (2 ^ (K * (N - 1)) < 2 ^ tdigits t) by (apply Z.pow_lt_mono_r; nia). lia. }
  assert (T : forall z, 0 <= z <= tmax t -> tar t z = Ok z) by (intros z Hz; apply tar_ok; auto; unfold in_t; lia).
  assert (Big : (2 ^ K) ^ N > tmax t).
  { rewrite <- Z.pow_mul_r by lia. unfold tmax.
    assert (2 ^ tdigits t <= 2 ^ (K * N)) by (apply Z.pow_le_mono_r; nia). lia. }
  unfold iroot. destruct (Z.eqb_spec N 0); [lia|]. apply wp_bind.
  apply (loop_rule _ (fun r => 0 <= r <= 2 ^ K) (fun r => r)).
  2: lia.
  2: { assert (2 ^ K < 2 ^ 400) by (apply Z.pow_lt_mono_r; lia). lia. }
  intros r Hrr.
  assert (Next : r ^ N <= x -> wp (loop (fun r => r1 <- tar t (r + 1) ;;
                   p <- ipow t r1 (N - 1) ;;
                   assert_ (negb (r1 =? 0)) UB ;;;
                   if p <=? Z.quot x r1 then Ok (inl r1) else Ok (inr r)) r)
                  (fun r => 0 <= r /\ r ^ N <= x < (r + 1) ^ N)).
  { intros Hrx.
    apply (loop_rule _ (fun r => 0 <= r /\ r ^ N <= x) (fun r => 2 ^ K - r)).
    2: lia.
    2: { assert (2 ^ K < 2 ^ 400) by (apply Z.pow_lt_mono_r; lia). lia. }
    intros s [Hs1 Hs2].
    assert (Hs3 : s < 2 ^ K).
    { destruct (Z.lt_ge_cases s (2 ^ K)); auto.
      assert ((2 ^ K) ^ N <= s ^ N) by (apply Z.pow_le_mono_l; lia). lia. }
    rewrite T by lia. cbn [bind]. rewrite P by lia. cbn [bind].
    destruct (Z.eqb_spec (s + 1) 0); [lia|]. cbn [negb assert_ bind].
    rewrite pow_le_div by lia. destruct (Z.leb_spec ((s + 1) ^ N) x); cbn [wp]; lia. }
  destruct (Z.gtb_spec r 0) as [G|L].
  - rewrite P by lia. cbn [bind]. rewrite pow_le_div by lia.
    destruct (Z.leb_spec (r ^ N) x).
    + cbn [wp]. auto.
    + rewrite T by lia. cbn [bind wp]. lia.
  - cbn [wp]. apply Next. replace r with 0 by lia. rewrite Z.pow_0_l by lia. lia.
Qed.

Lemma iroot_unique N x r s : 1 <= N -> 0 <= r -> 0 <= s -> r ^ N <= x < (r + 1) ^ N ->
  s ^ N <= x < (s + 1) ^ N -> r = s.
Proof.
  intros HN Hr Hs H1 H2.
  destruct (Z.lt_trichotomy r s) as [H|[H|H]]; auto; exfalso.
  - assert ((r + 1) ^ N <= s ^ N) by (apply Z.pow_le_mono_l; lia). lia.
  - assert ((s + 1) ^ N <= r ^ N) by (apply Z.pow_le_mono_l; lia). lia.
Qed.

(** ** powers of two *)
Lemma fill_bits_ok t x : 0 < bits t -> 31 <= tdigits t <= 128 -> 0 <= x <= tmax t ->
  fill_bits t x = Ok (if x =? 0 then 0 else 2 ^ (Z.log2 x + 1) - 1).
Proof.
  intros Hb Hd Hx. apply wp_eq. unfold fill_bits.
  assert (Hmin : tmin t <= 0).
  { unfold tmin. destruct (signed t); [|lia]. assert (0 < 2 ^ tdigits t) by (apply Z.pow_pos_nonneg; lia). lia. }
  assert (HT : 2 ^ 8 < 2 ^ tdigits t) by (apply Z.pow_lt_mono_r; lia).
  change (2 ^ 8) with 256 in HT.
  apply (loop_rule _ (fun st => 1 <= fst st <= 256 /\ 0 <= snd st /\
     forall b, 0 <= b -> (Z.testbit (snd st) b = true <-> exists s, 0 <= s < fst st /\ Z.testbit x (b + s) = true))
     (fun st => 256 - fst st)).
  - intros [i y] (Hi & Hy & Hbits). cbn [fst snd] in *.
    destruct (Z.ltb_spec i (tdigits t)) as [L|G].
    + rewrite tar_ok by (auto; unfold in_t, tmax; lia). cbn [bind wp fst snd].
      split; [|lia]. split; [lia|]. split; [apply Z.lor_nonneg; split; auto; apply Z.shiftr_nonneg; auto|].
      intros b Hb'. rewrite Z.lor_spec, Z.shiftr_spec by lia. rewrite orb_true_iff, !Hbits by lia. split.
      * intros [(s & Hs & E)|(s & Hs & E)]; [exists s; split; auto; lia|].
        exists (s + i). split; [lia|]. rewrite <- E. f_equal. ring.
      * intros (s & Hs & E). destruct (Z.lt_ge_cases s i); [left; exists s; split; [lia|auto]|].
        right. exists (s - i). split; [lia|]. rewrite <- E. f_equal. ring.
    + cbn [wp]. destruct (Z.eqb_spec x 0) as [->|Hx0].
      * apply Z.bits_inj'. intros b Hb'. rewrite Z.bits_0.
        destruct (Z.testbit y b) eqn:E; auto. apply Hbits in E; auto.
        destruct E as (s & _ & E). now rewrite Z.bits_0 in E.
      * assert (Hlog : Z.log2 x < tdigits t).
        { apply Z.log2_lt_pow2; [lia|]. unfold tmax in Hx. lia. }
        pose proof (Z.log2_nonneg x).
        replace (2 ^ (Z.log2 x + 1) - 1) with (Z.ones (Z.log2 x + 1)) by (rewrite Z.ones_equiv; lia).
        apply Z.bits_inj'. intros b Hb'. apply eq_true_iff_eq. rewrite Hbits by auto.
        rewrite Z.testbit_ones_nonneg by lia. rewrite Z.ltb_lt. split.
        -- intros (s & Hs & E). destruct (Z.lt_ge_cases b (Z.log2 x + 1)); auto.
           rewrite Z.bits_above_log2 in E by lia. discriminate.
        -- intros Hl. exists (Z.log2 x - b). split; [lia|].
           replace (b + (Z.log2 x - b)) with (Z.log2 x) by ring. apply Z.bit_log2. lia.
  - cbn [fst snd]. split; [lia|]. split; [lia|]. intros b Hb'. split.
    + intros E. exists 0. split; [lia|]. now rewrite Z.add_0_r.
    + intros (s & Hs & E). replace s with 0 in E by lia. now rewrite Z.add_0_r in E.
  - cbn [fst]. assert (256 < 2 ^ 400) by (change 256 with (2 ^ 8); apply Z.pow_lt_mono_r; lia). lia.
Qed.

Definition is_pow2 (z : Z) : Prop := exists k, 0 <= k /\ z = 2 ^ k.

Lemma next_power_of_2_ok t x : In t [i32; u32; i64; u64; i128; u128] -> 0 <= x <= 2 ^ (tdigits t - 1) ->
  wp (next_power_of_2 t x) (fun r => is_pow2 r /\ x <= r /\ forall q, is_pow2 q -> x <= q -> r <= q).
Proof.
  intros Ht Hx.
  assert (Hb : 0 < bits t /\ 31 <= tdigits t <= 128).
  { simpl in Ht. destruct Ht as [<-|[<-|[<-|[<-|[<-|[<-|[]]]]]]]; vm_compute; intuition discriminate. }
  destruct Hb as [Hb Hd].
  assert (Hmin : tmin t <= 0).
  { unfold tmin. destruct (signed t); [|lia]. assert (0 < 2 ^ tdigits t) by (apply Z.pow_pos_nonneg; lia). lia. }
  assert (E2 : 2 ^ tdigits t = 2 * 2 ^ (tdigits t - 1)).
  { replace (tdigits t) with (1 + (tdigits t - 1)) at 1 by ring. rewrite Z.pow_add_r by lia. reflexivity. }
  assert (Hone : 1 < 2 ^ (tdigits t - 1)) by (apply Z.pow_gt_1; lia).
  assert (Pos : forall q, is_pow2 q -> 1 <= q).
  { intros q (k & Hk & ->). assert (0 < 2 ^ k) by (apply Z.pow_pos_nonneg; lia). lia. }
  unfold next_power_of_2. destruct (Z.eqb_spec x 0) as [->|Hx0].
  { cbn [wp]. split; [exists 0; split; [lia|reflexivity]|]. split; [lia|]. auto. }
  rewrite tar_ok by (auto; unfold in_t, tmax; lia). cbn [bind].
  rewrite fill_bits_ok by (auto; unfold tmax; lia). cbn [bind].
  destruct (Z.eqb_spec (x - 1) 0) as [E|E].
  { replace x with 1 in * by lia. change (0 + 1) with 1. rewrite tar_ok by (auto; unfold in_t, tmax; lia). cbn [wp].
    split; [exists 0; split; [lia|reflexivity]|]. split; [lia|]. auto. }
  pose proof (Z.log2_spec (x - 1) ltac:(lia)) as [L1 L2]. unfold Z.succ in L2.
  pose proof (Z.log2_nonneg (x - 1)).
  assert (Z.log2 (x - 1) < tdigits t - 1) by (apply Z.log2_lt_pow2; lia).
  assert (2 ^ (Z.log2 (x - 1) + 1) <= 2 ^ (tdigits t - 1)) by (apply Z.pow_le_mono_r; lia).
  assert (0 < 2 ^ (Z.log2 (x - 1) + 1)) by (apply Z.pow_pos_nonneg; lia).
  replace (2 ^ (Z.log2 (x - 1) + 1) - 1 + 1) with (2 ^ (Z.log2 (x - 1) + 1)) by ring.
  rewrite tar_ok by (auto; unfold in_t, tmax; lia). cbn [wp].
  split; [eexists; split; [|reflexivity]; lia|]. split; [lia|].
  intros q (k & Hk & ->) Hq. apply Z.pow_le_mono_r; [lia|].
  assert (Z.log2 (x - 1) < k) by (apply Z.log2_lt_pow2; lia). lia.
Qed.

Lemma prev_power_of_2_ok t x : In t [i32; u32; i64; u64; i128; u128] -> 1 <= x <= tmax t ->
  wp (prev_power_of_2 t x) (fun r => is_pow2 r /\ r <= x /\ forall q, is_pow2 q -> q <= x -> q <= r).
Proof.
  intros Ht Hx.
  assert (Hb : 0 < bits t /\ 31 <= tdigits t <= 128).
  { simpl in Ht. destruct Ht as [<-|[<-|[<-|[<-|[<-|[<-|[]]]]]]]; vm_compute; intuition discriminate. }
  destruct Hb as [Hb Hd].
  assert (Hmin : tmin t <= 0).
  { unfold tmin. destruct (signed t); [|lia]. assert (0 < 2 ^ tdigits t) by (apply Z.pow_pos_nonneg; lia). lia. }
  unfold prev_power_of_2. rewrite fill_bits_ok by (auto; lia). cbn [bind].
  destruct (Z.eqb_spec x 0); [lia|].
  pose proof (Z.log2_spec x ltac:(lia)) as [L1 L2]. unfold Z.succ in L2.
  pose proof (Z.log2_nonneg x).
  assert (E2 : 2 ^ (Z.log2 x + 1) = 2 * 2 ^ Z.log2 x) by (rewrite Z.pow_add_r by lia; change (2 ^ 1) with 2; ring).
  rewrite Z.shiftr_div_pow2 by lia. change (2 ^ 1) with 2.
  replace ((2 ^ (Z.log2 x + 1) - 1) / 2) with (2 ^ Z.log2 x - 1)
    by (apply Z.div_unique_pos with (r := 1); lia).
  replace (2 ^ (Z.log2 x + 1) - 1 - (2 ^ Z.log2 x - 1)) with (2 ^ Z.log2 x) by lia.
  rewrite tar_ok by (auto; unfold in_t; lia). cbn [wp].
  split; [eexists; split; [|reflexivity]; lia|]. split; [lia|].
  intros q (k & Hk & ->) Hq. apply Z.pow_le_mono_r; [lia|].
  apply Z.log2_le_pow2; lia.
Qed.

(** ** ceil_div, in_between, thread counts *)
Lemma ceil_div_ok t a b : In t [i32; u32; i64; u64; i128; u128] -> 0 <= a -> 0 < b -> a + b <= tmax t ->
  wp (ceil_div t a b) (fun q => a <= q * b /\ forall q', a <= q' * b -> q <= q').
Proof.
  intros Ht Ha Hb Hab.
  assert (Hbt : 0 < bits t /\ tmin t <= 0).
  { simpl in Ht. destruct Ht as [<-|[<-|[<-|[<-|[<-|[<-|[]]]]]]]; vm_compute; intuition discriminate. }
  destruct Hbt as [Hbt Hmin].
  unfold ceil_div. rewrite tar_ok by (auto; unfold in_t; lia). cbn [bind].
  rewrite tar_ok by (auto; unfold in_t; lia). cbn [bind].
  destruct (Z.eqb_spec b 0); [lia|]. cbn [negb assert_ bind wp].
  rewrite Z.quot_div_nonneg by lia.
  pose proof (Z.div_mod (a + b - 1) b ltac:(lia)). pose proof (Z.mod_pos_bound (a + b - 1) b ltac:(lia)).
  split; [nia|]. intros q' Hq'.
  assert ((a + b - 1) / b < q' + 1); [|lia]. apply Z.div_lt_upper_bound; nia.
Qed.

Lemma in_between_ok mn x mx : mn <= mx ->
  mn <= in_between mn x mx <= mx /\ (mn <= x <= mx -> in_between mn x mx = x) /\
  (x < mn -> in_between mn x mx = mn) /\ (mx < x -> in_between mn x mx = mx).
Proof.
  intros H. unfold in_between. destruct (Z.ltb_spec x mn); [lia|].
  destruct (Z.gtb_spec x mx); lia.
Qed.

Lemma ideal_num_threads_ok threads limit threshold : in_s 32 threads -> 0 <= limit ->
  let r := ideal_num_threads threads limit threshold in
  1 <= r /\ (1 <= threads -> r <= threads) /\
  (1 < r -> r * Z.max 1 threshold <= limit).
Proof.
  intros Ht Hl r. unfold r, ideal_num_threads.
  set (th := Z.max 1 threshold).
  assert (Hq : 0 <= Z.quot limit th) by (apply Z.quot_pos; lia).
  rewrite swrap_id; [|lia|unfold in_s, smin, smax in *; lia].
  split; [lia|]. split; [lia|].
  intros H. assert (Z.min threads (Z.quot limit th) <= Z.quot limit th) by lia.
  rewrite Z.quot_div_nonneg in * by lia.
  pose proof (Z.mul_div_le limit th ltac:(lia)). nia.
Qed.

(** ** fast_div *)
Lemma fast_div_eq_ok X x y : In X [i32; u32; i64; u64; i128; u128] ->
  in_t X x -> in_t X y -> 0 <= x -> 0 < y -> fast_div_eq X x y = Ok (x / y).
Proof.
  intros HX Hx Hy Hx0 Hy0.
  assert (D : bits X = 32 \/ bits X = 64 \/ bits X = 128).
  { simpl in HX. destruct HX as [<-|[<-|[<-|[<-|[<-|[<-|[]]]]]]]; vm_compute; auto. }
  assert (Hmin : tmin X <= 0).
  { simpl in HX. destruct HX as [<-|[<-|[<-|[<-|[<-|[<-|[]]]]]]]; vm_compute; intuition discriminate. }
  assert (Dv : in_t X (x / y)).
  { unfold in_t in *. assert (0 <= x / y) by (apply Z.div_pos; lia).
    assert (x / y <= x) by (apply Z.div_le_upper_bound; nia). lia. }
  unfold fast_div_eq. set (k := fastdiv_bits X).
  assert (Hk : k = 32 \/ k = 64) by (unfold k, fastdiv_bits; destruct (bits X / 2 <=? 32); auto).
  assert (U : forall z, 0 <= z -> in_t X z -> le_umax X z k = true -> uwrap k z = z).
  { intros z Hz Hin E. unfold le_umax in E. unfold uwrap in *. apply Z.leb_le in E.
    destruct (Z.leb_spec (bits X) k).
    - apply Z.mod_small. unfold in_t, tmax, tdigits in Hin.
      assert (2 ^ (if signed X then bits X - 1 else bits X) <= 2 ^ k) by (apply Z.pow_le_mono_r; destruct (signed X); lia). lia.
    - apply Z.mod_small. unfold umax in E. lia. }
  assert (N : native_div X x y = Ok (x / y)).
  { unfold native_div. destruct (Z.eqb_spec y 0); [lia|]. cbn [negb assert_ bind].
    rewrite Z.quot_div_nonneg by lia. apply tar_ok; auto. lia. }
  destruct (le_umax X x k) eqn:E1; [|exact N]. destruct (le_umax X y k) eqn:E2; [|exact N].
  cbn [andb]. rewrite !U by (auto; lia). destruct (Z.eqb_spec y 0); [lia|]. cbn [negb assert_ bind].
  rewrite tcast_id; auto. lia.
Qed.

Lemma fast_div_gt_ok X Y x y : In X [i64; u64; i128; u128] -> In Y [i32; u32; i64; u64] -> bits Y < bits X ->
  in_t X x -> in_t Y y -> 0 <= x -> 0 < y -> fast_div_gt X x y = Ok (x / y).
Proof.
  intros HX HY Hbits Hx Hy Hx0 Hy0.
  assert (D : bits X = 64 \/ bits X = 128).
  { simpl in HX. destruct HX as [<-|[<-|[<-|[<-|[]]]]]; vm_compute; auto. }
  assert (DY : bits Y = 32 \/ bits Y = 64).
  { simpl in HY. destruct HY as [<-|[<-|[<-|[<-|[]]]]]; vm_compute; auto. }
  assert (Hmin : tmin X <= 0).
  { simpl in HX. destruct HX as [<-|[<-|[<-|[<-|[]]]]]; vm_compute; intuition discriminate. }
  assert (Dv : in_t X (x / y)).
  { unfold in_t in *. assert (0 <= x / y) by (apply Z.div_pos; lia).
    assert (x / y <= x) by (apply Z.div_le_upper_bound; nia). lia. }
  unfold fast_div_gt. set (k := fastdiv_bits X).
  assert (Hk : (bits X = 64 /\ k = 32) \/ (bits X = 128 /\ k = 64)).
  { unfold k, fastdiv_bits. destruct D as [-> | ->]; [left|right]; split; reflexivity. }
  clearbody k.
  assert (N : native_div X x y = Ok (x / y)).
  { unfold native_div. destruct (Z.eqb_spec y 0); [lia|]. cbn [negb assert_ bind].
    rewrite Z.quot_div_nonneg by lia. apply tar_ok; auto. lia. }
  destruct (le_umax X x k) eqn:E1; [|exact N].
  assert (Ux : uwrap k x = x).
  { unfold le_umax in E1. apply Z.leb_le in E1. unfold uwrap. apply Z.mod_small.
    destruct (Z.leb_spec (bits X) k).
    - lia.
    - unfold umax in E1. lia. }
  assert (Uy : uwrap k y = y).
  { unfold uwrap. apply Z.mod_small. unfold in_t, tmax, tdigits in Hy.
    assert (2 ^ (if signed Y then bits Y - 1 else bits Y) <= 2 ^ k); [|lia].
    apply Z.pow_le_mono_r; [lia|].
    destruct (signed Y); lia. }
  rewrite Ux, Uy. destruct (Z.eqb_spec y 0); [lia|]. cbn [negb assert_ bind].
  rewrite tcast_id; auto. lia.
Qed.

Lemma fast_div_negative_wrong : fast_div_eq i64 (-5) 3 = Ok 1431655763.
Proof. vm_compute. reflexivity. Qed.

(** ** pi_bsearch *)
Lemma upper_bound_ok l first last x :
  0 <= first <= last -> last <= zlen l -> zlen l < 2 ^ 400 ->
  (forall i j u v, first <= i <= j -> j < last -> aget l i = Ok u -> aget l j = Ok v -> u <= v) ->
  wp (upper_bound l first last x) (fun r => first <= r <= last /\
     (forall i v, first <= i < r -> aget l i = Ok v -> v <= x) /\
     (forall i v, r <= i < last -> aget l i = Ok v -> x < v)).
Proof.
  intros Hf Hl H400 Hs. unfold upper_bound.
  apply (loop_rule _ (fun st => first <= fst st /\ 0 <= snd st /\ fst st + snd st <= last /\
     (forall i v, first <= i < fst st -> aget l i = Ok v -> v <= x) /\
     (forall i v, fst st + snd st <= i < last -> aget l i = Ok v -> x < v)) (fun st => snd st)).
  - intros [f n] (H1 & H2 & H3 & H4 & H5). cbn [fst snd] in *.
    destruct (Z.gtb_spec n 0) as [G|L].
    + pose proof (Z.div_mod n 2 ltac:(lia)). pose proof (Z.mod_pos_bound n 2 ltac:(lia)).
      destruct (aget_ex l (f + n / 2)) as [v Ev]; [lia|]. rewrite Ev. cbn [bind].
      destruct (Z.ltb_spec x v); cbn [wp fst snd].
      * split; [|lia]. repeat split; auto; try lia.
        intros i w Hi Ew. assert (v <= w) by (apply (Hs (f + n / 2) i); auto; lia). lia.
      * split; [|lia]. split; [lia|]. split; [lia|]. split; [lia|]. split.
        -- intros i w Hi Ew. destruct (Z.lt_ge_cases i f); [apply (H4 i); auto; lia|].
           assert (w <= v); [|lia]. apply (Hs i (f + n / 2)); auto; lia.
        -- intros i w Hi. apply H5. lia.
    + cbn [wp]. replace n with 0 in * by lia. rewrite Z.add_0_r in *. repeat split; auto; lia.
  - cbn [fst snd]. repeat split; try lia; intros; lia.
  - cbn [snd]. lia.
Qed.

Lemma prime_table_sorted N i j u v : 1 <= i <= j -> aget (prime_table N) i = Ok u ->
  aget (prime_table N) j = Ok v -> u <= v.
Proof.
  intros Hij Eu Ev. pose proof (aget_range _ _ _ Ev) as Hj. rewrite prime_table_len in Hj.
  destruct (prime_table_get N i ltac:(lia)) as (p & E1 & P1 & Q1 & _).
  destruct (prime_table_get N j ltac:(lia)) as (q & E2 & P2 & Q2 & _).
  rewrite E1 in Eu. rewrite E2 in Ev. inversion Eu; inversion Ev; subst u v.
  apply prime_pi_le; auto. lia.
Qed.

Lemma pi_le n : 0 <= n -> pi n <= n.
Proof.
  apply (natlike_ind (fun n => pi n <= n)).
  - vm_compute. discriminate.
  - intros x Hx IH. unfold Z.succ. rewrite pi_succ. destruct (primeb (x + 1)); lia.
Qed.

Lemma pi_le_max n : pi n <= Z.max 0 n.
Proof. destruct (Z.lt_ge_cases n 0); [rewrite pi_small; lia|]. pose proof (pi_le n). lia. Qed.

Lemma pi_bsearch_ok N x : N < 2 ^ 300 -> x <= N -> pi_bsearch (prime_table N) x = Ok (pi x).
Proof.
  intros HN Hx. apply wp_eq. unfold pi_bsearch.
  pose proof (pi_nonneg N). pose proof (pi_le_max N). pose proof (pi_nonneg x). pose proof (pi_mono x N Hx).
  assert (2 ^ 300 < 2 ^ 399) by (apply Z.pow_lt_mono_r; lia).
  assert (2 ^ 400 = 2 * 2 ^ 399) by reflexivity.
  destruct (Z.ltb_spec 0 (zlen (prime_table N))); [|rewrite prime_table_len in *; lia].
  cbn [assert_ bind]. apply wp_bind.
  eapply wp_mono; [apply (upper_bound_ok (prime_table N) 1 (zlen (prime_table N)) x); rewrite ?prime_table_len; try lia|].
  - intros i j u v Hi _. now apply prime_table_sorted.
  - cbv beta. rewrite prime_table_len. intros r (H1' & H2' & H3'). cbn [wp].
    destruct (Z.lt_trichotomy (r - 1) (pi x)) as [L|[E|G]]; auto; exfalso.
    + destruct (prime_table_get N r ltac:(lia)) as (p & E & Hp & Hpi & _).
      specialize (H3' r p ltac:(lia) E). apply (pi_lt_prime x p) in H3'; auto. lia.
    + destruct (prime_table_get N (r - 1) ltac:(lia)) as (p & E & Hp & Hpi & _).
      specialize (H2' (r - 1) p ltac:(lia) E). apply pi_mono in H2'. lia.
Qed.

(** ** nth_prime *)
Lemma nth_prime_ok n : (10 <= n -> nth_prime n = Fail Throw) /\
  (n < 10 -> exists p, nth_prime n = Ok p /\ prime p /\ pi p = Z.max 1 n).
Proof.
  split; intros H; unfold nth_prime.
  - destruct (Z.geb_spec n 10); [reflexivity|lia].
  - destruct (Z.geb_spec n 10); [lia|].
    assert (P : forall k p, primeb p = true -> pi p = k -> prime p /\ pi p = k) by (intros; split; auto; now apply primeb_spec).
    destruct (Z.ltb_spec n 2).
    + exists 2. rewrite Z.max_l by lia. split; [reflexivity|]. apply P; vm_compute; reflexivity.
    + rewrite Z.max_r by lia.
      assert (D : n = 2 \/ n = 3 \/ n = 4 \/ n = 5 \/ n = 6 \/ n = 7 \/ n = 8 \/ n = 9) by lia.
      destruct D as [-> | [-> | [-> | [-> | [-> | [-> | [-> | -> ]]]]]]];
      (eexists; split; [reflexivity|]; apply P; vm_compute; reflexivity).
Qed.

(** ** thread setting: any history of calls *)
Definition threads_after (calls : list (Z * Z)) : Z :=
  fold_left (fun _ (c : Z * Z) => set_num_threads (fst c) (snd c)) calls 0.

Lemma num_threads_range calls hw : (forall h n, In (h, n) calls -> 1 <= h <= hw) -> 1 <= hw ->
  1 <= get_num_threads hw (threads_after calls) <= hw.
Proof.
  intros Hc Hh. unfold threads_after.
  destruct calls as [|c0 cs0] using rev_ind.
  - simpl. unfold get_num_threads. simpl. lia.
  - rewrite fold_left_app. simpl. destruct c0 as [h n]. simpl.
    assert (1 <= h <= hw) by (apply (Hc h n); apply in_or_app; right; left; reflexivity).
    pose proof (in_between_ok 1 n h ltac:(lia)) as [R _].
    unfold set_num_threads, get_num_threads. destruct (Z.eqb_spec (in_between 1 n h) 0); simpl; lia.
Qed.

(** ** Packaged statements used by Properties/ImathProps.v *)
Lemma isqrt_all t r0 x : In t [i32; u32; i64; u64; i128; u128] ->
  0 <= r0 -> 0 <= x <= tmax t ->
  exists r, isqrt t r0 x = Ok r /\ 0 <= r /\ r * r <= x < (r + 1) * (r + 1).
Proof.
  intros Ht Hr Hx. exists (Z.sqrt x). split; [now apply isqrt_ok|].
  split; [apply Z.sqrt_nonneg|]. apply Z.sqrt_spec. lia.
Qed.
Lemma iroot_all t N r0 x :
  0 < bits t -> 1 < tdigits t <= 128 -> iroot_fits t N ->
  0 <= x <= tmax t -> 0 <= r0 <= 2 ^ ((tdigits t + N - 1) / N) ->
  exists r, iroot t N r0 x = Ok r /\ 0 <= r /\ r ^ N <= x < (r + 1) ^ N.
Proof. intros. apply wp_inv. now apply iroot_gen. Qed.
Lemma iroot_widths t N : In t [i32; u32; i64; u64; i128; u128] -> In N [2; 3; 4; 5; 6] ->
  0 < bits t /\ 1 < tdigits t <= 128 /\ iroot_fits t N.
Proof.
  intros Ht HN. simpl in Ht, HN.
  destruct HN as [<-|[<-|[<-|[<-|[<-|[]]]]]];
  destruct Ht as [<-|[<-|[<-|[<-|[<-|[<-|[]]]]]]];
  unfold iroot_fits; vm_compute; intuition discriminate.
Qed.
Lemma ceil_div_all t a b : In t [i32; u32; i64; u64; i128; u128] ->
  0 <= a -> 0 < b -> a + b <= tmax t ->
  exists q, ceil_div t a b = Ok q /\ a <= q * b /\ forall q', a <= q' * b -> q <= q'.
Proof. intros. apply wp_inv. now apply ceil_div_ok. Qed.
Lemma next_power_of_2_all t x : In t [i32; u32; i64; u64; i128; u128] ->
  0 <= x <= 2 ^ (tdigits t - 1) ->
  exists r, next_power_of_2 t x = Ok r /\
    (exists k, 0 <= k /\ r = 2 ^ k) /\ x <= r /\ forall k, 0 <= k -> x <= 2 ^ k -> r <= 2 ^ k.
Proof.
  intros Ht Hx. destruct (wp_inv _ _ (next_power_of_2_ok t x Ht Hx)) as (r & E & H1 & H2 & H3).
  exists r. split; auto. split; auto. split; auto. intros k Hk. apply H3. exists k. auto.
Qed.
Lemma prev_power_of_2_all t x : In t [i32; u32; i64; u64; i128; u128] ->
  1 <= x <= tmax t ->
  exists r, prev_power_of_2 t x = Ok r /\
    (exists k, 0 <= k /\ r = 2 ^ k) /\ r <= x /\ forall k, 0 <= k -> 2 ^ k <= x -> 2 ^ k <= r.
Proof.
  intros Ht Hx. destruct (wp_inv _ _ (prev_power_of_2_ok t x Ht Hx)) as (r & E & H1 & H2 & H3).
  exists r. split; auto. split; auto. split; auto. intros k Hk. apply H3. exists k. auto.
Qed.
Lemma fast_div_negative : exists x y, in_t i64 x /\ in_t i64 y /\ x < 0 /\ 0 < y /\
  exists r, fast_div_eq i64 x y = Ok r /\ r <> Z.quot x y /\ r <> x / y.
Proof.
  exists (-5), 3. split; [vm_compute; intuition discriminate|]. split; [vm_compute; intuition discriminate|].
  split; [lia|]. split; [lia|]. exists 1431655763. split; [apply fast_div_negative_wrong|].
  split; vm_compute; discriminate.
Qed.
Lemma num_threads_last calls hw n : 1 <= n <= hw ->
  get_num_threads hw (threads_after (calls ++ [(hw, n)])) = n.
Proof.
  intros H. unfold threads_after. rewrite fold_left_app. simpl.
  pose proof (in_between_ok 1 n hw ltac:(lia)) as (_ & R & _).
  unfold get_num_threads, set_num_threads. rewrite R by lia. destruct (Z.eqb_spec n 0); simpl; lia.
Qed.
