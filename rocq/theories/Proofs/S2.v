(** Correctness of the models of S2_trivial.cpp and S2_easy.cpp. *)
From Coq Require Import ZArith List Bool Lia Znumtheory.
From Verif.Base Require Import Res Word Zl Arr IType Par.
From Verif.Spec Require Import Primes LMOSpec S2Spec.
From Verif.Model Require Import Accum Imath Primesieve PiTable Tables Libdivide S2.
From Verif.Proofs Require Import Primes NT LMO Imath Primesieve Tables PiTable Phi Leaf Libdivide S2Leaf Accum Bounds EasyBound.
Import ListNotations.
Open Scope Z_scope.
Local Ltac Zify.zify_post_hook ::= idtac.

Lemma zdiv_ok a b : 0 <= a -> 0 < b -> zdiv a b = Ok (a / b).
Proof.
  intros Ha Hb. unfold zdiv. destruct (Z.eqb_spec b 0); [lia|]. cbn [negb]. unfold assert_. cbn [bind].
  now rewrite Z.quot_div_nonneg by lia.
Qed.
Lemma in_s64 n : - 2 ^ 63 <= n < 2 ^ 63 -> in_s 64 n.
Proof. intros H. unfold in_s, smin, smax. change (64 - 1) with 63. lia. Qed.
Lemma swrap64 n : - 2 ^ 63 <= n < 2 ^ 63 -> swrap 64 n = n.
Proof. intros H. apply swrap_id; [lia|]. now apply in_s64. Qed.
Lemma schk64 n : - 2 ^ 63 <= n < 2 ^ 63 -> schk 64 n = Ok n.
Proof. intros H. apply schk_ok. now apply in_s64. Qed.

Lemma prime_sum_bound n : 0 <= n -> 2 * prime_sum n <= n * (n + 1).
Proof.
  intros Hn. pattern n. apply natlike_ind; [| |exact Hn]; clear n Hn.
  - rewrite prime_sum_small by lia. lia.
  - intros n Hn IH. unfold Z.succ. rewrite prime_sum_succ. destruct (primeb (n + 1)); lia.
Qed.
Lemma ps_ar_ok y v : 1 <= y < 2 ^ 62 -> 0 <= v <= y * y \/ 0 <= v <= y * (y + 1) / 2 + 1 -> ps_ar y v = Ok v.
Proof.
  intros Hy Hv. unfold ps_ar.
  assert (Hv' : 0 <= v <= y * y + 1).
  { destruct Hv as [|[A B]]; [lia|]. split; auto. assert (y * (y + 1) / 2 <= y * y); [|lia]. apply Z.div_le_upper_bound; nia. }
  destruct (Z.leb_spec y (2 ^ 32 - 1)) as [L|G].
  - assert (y * y <= (2 ^ 32 - 1) * (2 ^ 32 - 1)) by (apply Z.mul_le_mono_nonneg; lia).
    change ((2 ^ 32 - 1) * (2 ^ 32 - 1)) with (2 ^ 64 - 2 ^ 33 + 1) in *. unfold uwrap. rewrite Z.mod_small by lia. reflexivity.
  - assert (y * y <= 2 ^ 62 * 2 ^ 62) by (apply Z.mul_le_mono_nonneg; lia). change (2 ^ 62 * 2 ^ 62) with (2 ^ 124) in *.
    apply schk_ok. unfold in_s, smin, smax. change (128 - 1) with 127. assert (2 ^ 124 + 1 < 2 ^ 127) by reflexivity. lia.
Qed.
Lemma ps_bound y n : 0 <= n <= y -> 0 <= prime_sum n <= y * (y + 1) / 2.
Proof.
  intros H. split; [apply prime_sum_nonneg|]. apply Z.div_le_lower_bound; [lia|]. pose proof (prime_sum_bound n ltac:(lia)).
  assert (n * (n + 1) <= y * (y + 1)) by (apply Z.mul_le_mono_nonneg; lia). lia.
Qed.

Lemma psum_incl lo hi lo' hi' f : lo <= lo' -> hi' <= hi -> (forall p, prime p -> lo <= p <= hi -> 0 <= f p) -> psum lo' hi' f <= psum lo hi f.
Proof.
  intros H1 H2 Hf. destruct (Z.le_gt_cases lo' hi').
  - rewrite (psum_split lo (lo' - 1) hi) by lia. replace (lo' - 1 + 1) with lo' by ring. rewrite (psum_split lo' hi' hi) by lia.
    assert (0 <= psum lo (lo' - 1) f) by (apply psum_nonneg; intros; apply Hf; auto; lia).
    assert (0 <= psum (hi' + 1) hi f) by (apply psum_nonneg; intros; apply Hf; auto; lia). lia.
  - rewrite psum_empty by lia. now apply psum_nonneg.
Qed.
Lemma psum_one p f : prime p -> psum p p f = f p.
Proof.
  intros Hp. replace (psum p p f) with (psum p (p - 1 + 1) f) by (f_equal; ring). rewrite psum_succ by lia. rewrite psum_empty by lia.
  replace (p - 1 + 1) with p by ring. assert (E : primeb p = true) by now apply primeb_spec. rewrite E. ring.
Qed.

(** *** Trivial leaves *)
Section Tables.
  Context (y : Z) (Hy : 1 <= y < 2 ^ 62) (pt : pitable) (ps : list Z).
  Hypothesis (Hpt : forall n, 0 <= n <= y -> pi_get pt n = Ok (pi n)).
  Hypothesis (Hps : forall k, 0 <= k <= pi y -> aget ps k = Ok (psum_table_value y k)).
  Lemma ps_pi n : 0 <= n <= y -> ps_get y ps (pi n) = Ok (prime_sum n).
  Proof.
    intros H. unfold ps_get. rewrite Hps, psum_table_pi; [|lia|split; [apply pi_nonneg|now apply pi_mono]].
    rewrite bind_Ok. apply ps_ar_ok; auto. right. pose proof (ps_bound y n H). lia.
  Qed.
  Lemma ps_diff m n : 0 <= m <= n -> n <= y -> ps_ar y (prime_sum n - prime_sum m) = Ok (prime_sum n - prime_sum m).
  Proof.
    intros H1 H2. apply ps_ar_ok; auto. right. pose proof (ps_bound y n ltac:(lia)). pose proof (ps_bound y m ltac:(lia)).
    pose proof (prime_sum_mono m n ltac:(lia)). lia.
  Qed.
  Lemma phi_of_sums_ok n p b : prime p -> pi p = b -> p <= n <= y ->
    phi_of_sums y ps (pi n) b = Ok (prime_sum n + 1 - prime_sum (p - 1)).
  Proof.
    intros Hp Hb Hn. pose proof (prime_ge_2 p Hp). unfold phi_of_sums. rewrite ps_pi by lia. rewrite bind_Ok.
    pose proof (ps_bound y n ltac:(lia)). pose proof (ps_bound y (p - 1) ltac:(lia)). pose proof (prime_sum_mono (p - 1) n ltac:(lia)).
    rewrite ps_ar_ok by (auto; lia). rewrite bind_Ok.
    replace (b - 1) with (pi (p - 1)) by (rewrite <- Hb, (pi_prime p Hp); ring). rewrite ps_pi by lia. rewrite bind_Ok.
    apply ps_ar_ok; auto. lia.
  Qed.

  Section Trivial.
    Context (x z : Z) (Hyx : y * y <= x) (Hz : z = x / y).
    Lemma trivial_nonneg p : prime p -> Z.sqrt z < p -> p <= y -> 0 <= trivial_term x y p /\ p <= Z.max (x / (p * p)) p <= y.
    Proof.
      intros Hp Hsq Hpy. pose proof (prime_ge_2 p Hp). pose proof (y_le_z x y z ltac:(lia) Hyx Hz) as Hyz.
      pose proof (Z.sqrt_spec z ltac:(lia)) as Hsz. cbv zeta in Hsz. pose proof (Z.sqrt_nonneg z).
      assert (Hzp : z < p * p).
      { assert (Z.succ (Z.sqrt z) * Z.succ (Z.sqrt z) <= p * p) by (apply Z.mul_le_mono_nonneg; lia). lia. }
      destruct (trivial_some x y z ltac:(lia) Hyx Hz p Hp Hzp ltac:(lia)) as [Hq _]. split; [|lia].
      unfold trivial_term. pose proof (prime_sum_mono (Z.max (x / (p * p)) p) y ltac:(lia)). apply Z.mul_nonneg_nonneg; lia.
    Qed.
    Lemma trivial_loop_ok start stop s0 : 1 <= start -> stop <= y -> Z.sqrt z < start ->
      Z.abs s0 + psum start (stop - 1) (trivial_term x y) <= smax 256 ->
      wp (trivial_loop pt ps x y stop start s0) (fun r => r = s0 + psum start (stop - 1) (trivial_term x y)).
    Proof.
      intros Hs Hst Hsq Hsm. unfold trivial_loop.
      assert (Hnn : forall p, prime p -> start <= p <= stop - 1 -> 0 <= trivial_term x y p).
      { intros p Hp Hr. apply trivial_nonneg; auto; lia. }
      apply (loop_rule _ (fun '(it, s2) => start - 1 <= it /\ (it = start - 1 \/ it < stop) /\ s2 = s0 + psum start it (trivial_term x y))
                         (fun '(it, _) => Z.max 0 (stop - it))).
      - intros [it s2] (H1 & H2 & ->). destruct (next_prime_spec it) as (N1 & N2 & N3).
        pose proof (prime_ge_2 _ N1) as N4. set (p := next_prime it) in *. cbv zeta.
        assert (Hno : forall q, prime q -> it < q < p -> False) by (intros q Hq Hr; specialize (N3 q Hq); lia).
        destruct (Z.ltb_spec p stop) as [L|G].
        + pose proof (y_le_z x y z ltac:(lia) Hyx Hz) as Hyz.
          pose proof (Z.sqrt_spec z ltac:(lia)) as Hsz. cbv zeta in Hsz. pose proof (Z.sqrt_nonneg z).
          assert (Hzp : z < p * p).
          { assert (Z.succ (Z.sqrt z) * Z.succ (Z.sqrt z) <= p * p) by (apply Z.mul_le_mono_nonneg; lia). lia. }
          destruct (trivial_some x y z ltac:(lia) Hyx Hz p N1 Hzp ltac:(lia)) as [Hq _].
          assert (0 <= x) by (pose proof (Z.square_nonneg y); lia).
          rewrite zdiv_ok by (auto; nia). rewrite bind_Ok. rewrite swrap64 by lia.
          rewrite (Hpt y) by lia. rewrite bind_Ok. rewrite Hpt by lia. rewrite bind_Ok.
          rewrite ps_pi by lia. rewrite bind_Ok. rewrite ps_pi by lia. rewrite bind_Ok.
          rewrite ps_diff by lia. rewrite bind_Ok.
          assert (I1 : psum start p (trivial_term x y) <= psum start (stop - 1) (trivial_term x y)) by (apply psum_incl; auto; lia).
          assert (I2 : trivial_term x y p <= psum start (stop - 1) (trivial_term x y)).
          { rewrite <- (psum_one p (trivial_term x y)) by auto. apply psum_incl; auto; lia. }
          assert (I3 : 0 <= psum start p (trivial_term x y)) by (apply psum_nonneg; intros; apply Hnn; auto; lia).
          assert (I4 : 0 <= trivial_term x y p) by (apply Hnn; auto; lia).
          assert (I5 : psum start p (trivial_term x y) = psum start it (trivial_term x y) + trivial_term x y p).
          { replace (psum start p (trivial_term x y)) with (psum start (p - 1 + 1) (trivial_term x y)) by (f_equal; ring). rewrite psum_succ by lia. replace (p - 1 + 1) with p by ring.
            assert (E : primeb p = true) by now apply primeb_spec. rewrite E. 
            rewrite (psum_hi start it (p - 1)) by (try lia; intros q Hq' _ Hr; elim (Hno q Hq'); lia). reflexivity. }
          pose proof (ps_bound y y ltac:(lia)) as B1. pose proof (prime_sum_nonneg (Z.max (x / (p * p)) p)) as B2.
          assert (B3 : y * (y + 1) / 2 <= 2 ^ 124). { apply Z.div_le_upper_bound; [lia|]. assert (y * (y + 1) <= 2 ^ 62 * 2 ^ 62) by (apply Z.mul_le_mono_nonneg; lia). change (2 ^ 62 * 2 ^ 62) with (2 ^ 124) in *. lia. }
          assert (B4 : 2 ^ 124 <= smax 256) by discriminate. assert (B5 : 2 ^ 62 <= 2 ^ 124) by discriminate. assert (B6 : 0 <= 2 ^ 127) by discriminate.
          pose proof (prime_sum_mono (Z.max (x / (p * p)) p) y ltac:(lia)) as B7.
          assert (I6 : (prime_sum y - prime_sum (Z.max (x / (p * p)) p)) * p = trivial_term x y p) by (unfold trivial_term; ring).
          rewrite t_mul_ok by (try apply width_256; try rewrite I6; lia). rewrite bind_Ok, I6.
          rewrite t_add_ok by (try apply width_256; lia). rewrite bind_Ok.
          cbn [wp]. split; [split; [lia|split; [lia|]]|lia]. lia.
        + cbn [wp]. destruct (Z.le_gt_cases start stop).
          * rewrite (psum_hi start it (stop - 1)); [reflexivity|lia|]. intros q Hq' _ Hr; elim (Hno q Hq'); lia.
          * now rewrite !psum_empty by lia.
      - split; [lia|]. split; [lia|]. rewrite psum_empty by lia. ring.
      - assert (2 ^ 62 < 2 ^ 400) by reflexivity. lia.
    Qed.
    Lemma trivial_tiles s0 ti n f : 0 <= ti -> 0 <= n ->
      sumr 0 n (fun i => psum (s0 + ti * i) (Z.min (s0 + ti * i + ti) y - 1) f) = psum s0 (Z.min (s0 + ti * n) y - 1) f.
    Proof.
      intros Hti Hn. pattern n. apply natlike_ind; [| |exact Hn]; clear n Hn.
      - rewrite sumr_empty by lia. symmetry. apply psum_empty. lia.
      - intros n Hn IH. unfold Z.succ. rewrite sumr_snoc by lia. rewrite IH.
        replace (s0 + ti * (n + 1)) with (s0 + ti * n + ti) by ring. assert (0 <= ti * n) by nia.
        destruct (Z.le_gt_cases y (s0 + ti * n)).
        + rewrite (psum_empty (s0 + ti * n)) by lia. rewrite !Z.min_r by lia. ring.
        + rewrite (psum_split s0 (s0 + ti * n - 1) (Z.min (s0 + ti * n + ti) y - 1)) by lia. rewrite (Z.min_l (s0 + ti * n) y) by lia. replace (s0 + ti * n - 1 + 1) with (s0 + ti * n) by ring. reflexivity.
    Qed.
  End Trivial.
End Tables.

Lemma trivial_ceil y start N : 0 <= y < 2 ^ 62 -> 1 <= start < 2 ^ 62 -> 1 <= N <= 2 ^ 31 ->
  exists ti, ceil_div i64 (y - start) N = Ok ti /\
    (start <= y -> 0 <= ti /\ y - start <= ti * N /\ ti <= y - start) /\
    (y < start -> ti <= 0 /\ - start <= ti * N).
Proof.
  intros Hy Hs HN. destruct (Z.le_gt_cases start y) as [L|G].
  - destruct (ceil_div_all i64 (y - start) N) as (q & E & Q1 & Q2); [cbn; tauto|lia|lia|change (tmax i64) with (2 ^ 63 - 1); lia|].
    exists q. split; [exact E|]. split; [|lia]. intros _. split; [|split; [lia|]].
    + destruct (Z.le_gt_cases 0 q); auto. nia.
    + apply Q2. nia.
  - unfold ceil_div. assert (T : tmin i64 = - 2 ^ 63 /\ tmax i64 = 2 ^ 63 - 1) by (split; reflexivity). 
    rewrite !tar_ok by (try reflexivity; unfold in_t; lia). rewrite !bind_Ok.
    rewrite tar_ok by (try reflexivity; unfold in_t; lia). rewrite bind_Ok.
    destruct (Z.eqb_spec N 0); [lia|]. cbn [negb]. unfold assert_. rewrite bind_Ok.
    eexists. split; [reflexivity|]. split; [lia|]. intros _.
    set (a := y - start + N - 1). assert (Ha : a <= N - 1) by (unfold a; lia). assert (Hb : - start <= a) by (unfold a; lia).
    pose proof (Z.quot_rem' a N). destruct (Z.le_gt_cases 0 a).
    + rewrite Z.quot_small by lia. lia.
    + pose proof (Z.rem_bound_pos_neg a N ltac:(lia) ltac:(lia)). split; nia.
Qed.

(** the terms of thread i *)
Definition trivial_part (x y s0 ti i : Z) : Z :=
  if s0 <=? y then psum (s0 + ti * i) (Z.min (s0 + ti * i + ti) y - 1) (trivial_term x y) else 0.
Lemma trivial_thread_ok y pt ps x z prime_c N i ti sA : 1 <= y < 2 ^ 62 ->
  (forall n, 0 <= n <= y -> pi_get pt n = Ok (pi n)) ->
  (forall k, 0 <= k <= pi y -> aget ps k = Ok (psum_table_value y k)) ->
  y * y <= x -> z = x / y -> z < 2 ^ 63 -> 1 <= prime_c < 2 ^ 32 -> 1 <= N <= 2 ^ 31 -> 0 <= i < N ->
  let s0 := Z.max prime_c (Z.sqrt z) + 1 in
  ceil_div i64 (y - s0) N = Ok ti -> Z.abs sA + trivial_part x y s0 ti i <= smax 256 ->
  wp (trivial_thread pt ps x y (Z.sqrt z) prime_c N i sA) (fun r => r = sA + trivial_part x y s0 ti i).
Proof.
  intros Hy Hpt Hps Hyx Hz Hz63 Hc HN Hi s0 Eti Hsm. unfold trivial_thread. cbv zeta. fold s0.
  pose proof (y_le_z x y z ltac:(lia) Hyx Hz) as Hyz. pose proof (Z.sqrt_nonneg z).
  assert (Hsq : Z.sqrt z < 2 ^ 32) by (apply Z.sqrt_lt_square; try lia; change (2 ^ 32 * 2 ^ 32) with (2 ^ 64); lia).
  assert (Hs0 : 1 <= s0 <= 2 ^ 32) by (unfold s0; lia).
  destruct (trivial_ceil y s0 N ltac:(lia) ltac:(lia) HN) as (ti' & E & T1 & T2). rewrite Eti in E. injection E as <-. rename Eti into E. rewrite E, bind_Ok.
  unfold trivial_part in *. destruct (Z.leb_spec s0 y) as [L|G].
  - destruct (T1 L) as (A1 & A2 & A3). 
    assert (Hm : 0 <= ti * i <= ti * N) by nia.
    assert (Hm2 : ti * (i + 1) < 2 ^ 62 + 2 ^ 31).
    { (* ti * (N - 1) < y - s0 + ... *)
      unfold ceil_div in E. assert (T : tmin i64 = - 2 ^ 63 /\ tmax i64 = 2 ^ 63 - 1) by (split; reflexivity).
      rewrite !tar_ok in E by (try reflexivity; unfold in_t; lia). rewrite !bind_Ok in E.
      rewrite tar_ok in E by (try reflexivity; unfold in_t; lia). rewrite bind_Ok in E.
      destruct (Z.eqb_spec N 0); [lia|]. cbn [negb] in E. unfold assert_ in E. rewrite bind_Ok in E. injection E as E.
      rewrite Z.quot_div_nonneg in E by lia. pose proof (Z.mul_div_le (y - s0 + N - 1) N ltac:(lia)). rewrite E in *. assert (ti * (i + 1) <= ti * N) by (apply Z.mul_le_mono_nonneg_l; lia). lia. }
    rewrite schk64 by lia. rewrite bind_Ok. rewrite schk64 by lia. rewrite bind_Ok. rewrite schk64 by lia. rewrite bind_Ok.
    eapply wp_mono; [apply trivial_loop_ok with (z := z); auto; try lia|].
    intros r ->. reflexivity.
  - destruct (T2 G) as (A1 & A2). assert (Hm : ti * N <= ti * i <= 0) by nia. assert (- 2 ^ 33 <= ti) by nia.
    rewrite schk64 by lia. rewrite bind_Ok. rewrite schk64 by lia. rewrite bind_Ok. rewrite schk64 by lia. rewrite bind_Ok.
    assert (F : wp (trivial_loop pt ps x y (Z.min (s0 + ti * i + ti) y) (s0 + ti * i) sA) (fun r => r = sA)).
    { unfold trivial_loop. apply (loop_rule _ (fun '(it, s2) => it = s0 + ti * i - 1 /\ s2 = sA) (fun _ => 0)).
      - intros [it s2] (-> & ->). pose proof (next_prime_gt (s0 + ti * i - 1)).
        destruct (Z.ltb_spec (next_prime (s0 + ti * i - 1)) (Z.min (s0 + ti * i + ti) y)); [lia|]. reflexivity.
      - auto.
      - reflexivity. }
    eapply wp_mono; [exact F|]. intros r ->. ring.
Qed.

Lemma trivial_bound x y z lo hi : 1 <= y < 2 ^ 62 -> y * y <= x -> z = x / y -> Z.sqrt z < lo -> hi <= y ->
  0 <= psum lo hi (trivial_term x y) <= smax 256.
Proof.
  intros Hy Hyx Hz Hlo Hhi. assert (Hnn : forall p, prime p -> lo <= p <= hi -> 0 <= trivial_term x y p <= (prime_sum y) * p).
  { intros p Hp Hr. pose proof (prime_ge_2 p Hp). split; [apply (trivial_nonneg y Hy x z); auto; lia|].
    unfold trivial_term. pose proof (prime_sum_nonneg (Z.max (x / (p * p)) p)). nia. }
  split; [apply psum_nonneg; intros; now apply Hnn|].
  apply Z.le_trans with (psum 2 y (fun p => prime_sum y * p)).
  - apply Z.le_trans with (psum lo hi (fun p => prime_sum y * p)); [apply psum_le; intros; now apply Hnn|].
    pose proof (Z.sqrt_nonneg z). rewrite <- (psum_2 1 y) by lia. apply psum_incl; try lia. intros p Hp Hr. pose proof (prime_ge_2 p Hp). pose proof (prime_sum_nonneg y). nia.
  - rewrite (psum_scal 2 y (prime_sum y) (fun p => p)), <- prime_sum_psum.
    pose proof (ps_bound y y ltac:(lia)). assert (y * (y + 1) / 2 <= 2 ^ 124). { apply Z.div_le_upper_bound; [lia|]. assert (y * (y + 1) <= 2 ^ 62 * 2 ^ 62) by (apply Z.mul_le_mono_nonneg; lia). change (2 ^ 62 * 2 ^ 62) with (2 ^ 124) in *. lia. }
    assert (prime_sum y * prime_sum y <= 2 ^ 124 * 2 ^ 124) by (apply Z.mul_le_mono_nonneg; lia).
    assert (2 ^ 124 * 2 ^ 124 <= smax 256) by discriminate. lia.
Qed.

Lemma S2_trivial_ok sched x y z c threads : valid_sched sched -> in_s 32 threads ->
  1 <= y < 2 ^ 62 -> y * y <= x -> z = x / y -> z < 2 ^ 63 -> 0 <= c < 10 -> (c = 0 -> y < 2) ->
  S2_trivial sched x y z c threads = Ok (S2_trivial_sum x y c).
Proof.
  intros HS Ht Hy Hyx Hz Hz63 Hc Hc0. unfold S2_trivial. apply wp_eq.
  assert (2 ^ 62 < 2 ^ 300) by reflexivity.
  apply wp_bind. eapply wp_mono; [apply generate_prime_sums_ok; lia|]. intros ps [_ Hps]. cbv zeta.
  assert (HN : 1 <= ideal_num_threads threads y (10 ^ 7) <= 2 ^ 31).
  { unfold ideal_num_threads. split; [lia|]. apply Z.max_lub; [lia|]. pose proof (swrap_range 32 (Z.min threads (Z.quot y (Z.max 1 (10 ^ 7)))) ltac:(lia)) as R.
    unfold in_s, smax in R. change (2 ^ (32 - 1)) with (2 ^ 31) in R. lia. }
  remember (ideal_num_threads threads y (10 ^ 7)) as N eqn:HNe. clear HNe.
  apply wp_bind. eapply wp_mono; [apply PiTable_lookup; lia|]. intros pt [_ Hpt].
  destruct (proj2 (nth_prime_ok c) ltac:(lia)) as (pc & Epc & Ppc & Pipc). rewrite Epc, bind_Ok.
  assert (Hpc32 : 1 <= pc < 2 ^ 32).
  { clear - Epc Hc. assert (In c [0;1;2;3;4;5;6;7;8;9]) as K by (cbn [In]; lia).
    cbn [In] in K. repeat (destruct K as [<-|K]; [vm_compute in Epc; injection Epc as <-; split; [discriminate|reflexivity]|]). elim K. }
  pose proof (Z.sqrt_nonneg z) as Hsq0.
  assert (Hsq : Z.sqrt z < 2 ^ 32) by (apply Z.sqrt_lt_square; [subst z; apply Z.div_pos; nia|lia|change (2 ^ 32 * 2 ^ 32) with (2 ^ 64); lia]).
  set (s0 := Z.max pc (Z.sqrt z) + 1).
  destruct (ceil_div i64 (y - s0) N) as [ti|e] eqn:Eti.
  - assert (Tot : sumr 0 N (trivial_part x y s0 ti) = psum s0 (y - 1) (trivial_term x y)).
    { unfold trivial_part. destruct (Z.leb_spec s0 y) as [L|G].
      - destruct (trivial_ceil y s0 N) as (ti' & E & T1 & _); [lia|unfold s0; pose proof (Z.sqrt_nonneg z); lia|lia|].
        rewrite Eti in E; injection E as <-. rewrite trivial_tiles by lia. rewrite Z.min_r by lia. reflexivity.
      - rewrite sumr_zero by auto. symmetry. apply psum_empty. lia. }
    rewrite (par_acc_ok _ _ (fun _ => True) (trivial_part x y s0 ti) (trivial_part x y s0 ti) (smax 256) 0 N); auto.
    + cbn [wp]. rewrite Z.add_0_l, Tot.
      assert (Hpc : forall p, prime p -> p <= y -> c < pi p <-> pc < p).
      { intros p Hp Hpy. pose proof (prime_ge_2 p Hp). destruct (Z.eq_dec c 0) as [E0|N0]; [specialize (Hc0 E0); lia|].
        rewrite <- (prime_pi_lt pc p) by auto. lia. }
      rewrite (S2_trivial_terms x y z c ltac:(lia) Hyx Hz pc) by (auto; lia). reflexivity.
    + intros a b Hab. apply t_add_ok; auto using width_256.
    + intros i sA [] Hi _ Hsm. apply wp_bind. eapply wp_mono; [apply (trivial_thread_ok y pt ps x z pc N i ti); auto|].
      cbv beta. intros r ->. cbn [wp fst snd]. auto.
    + intros i Hi. rewrite Z.abs_eq; [lia|]. unfold trivial_part. destruct (Z.leb_spec s0 y); [|lia].
      destruct (trivial_ceil y s0 N) as (ti' & E & T1 & _); [lia|unfold s0; pose proof (Z.sqrt_nonneg z); lia|lia|].
      rewrite Eti in E; injection E as <-. apply (trivial_bound x y z); auto; try lia.
    + rewrite Tot. change (Z.abs 0) with 0. apply (trivial_bound x y z); auto; unfold s0; lia.
  - exfalso.
    destruct (trivial_ceil y s0 N) as (ti' & E & _); [lia|unfold s0; lia|lia|]. congruence.
Qed.

(** *** Easy leaves *)
Lemma psum_index_range y lo hi f : 1 <= lo <= y -> hi <= y ->
  psum (lo + 1) hi f = sumr (pi lo + 1) (pi hi + 1) (fun j => f (pr y j)).
Proof.
  intros Hlo Hhi. destruct (Z.le_gt_cases lo hi) as [L|G].
  - pose proof (psum_split 2 lo hi f ltac:(lia) L) as E.
    rewrite (psum_index hi f (fun j => f (pr y j))) in E by (intros p Hp Hr; f_equal; apply pr_pi; auto; lia).
    rewrite (psum_index lo f (fun j => f (pr y j))) in E by (intros p Hp Hr; f_equal; apply pr_pi; auto; lia).
    pose proof (pi_mono lo hi L). pose proof (pi_nonneg lo).
    rewrite (sumr_split 1 (pi lo + 1) (pi hi + 1)) in E by lia. lia.
  - rewrite psum_empty by lia. pose proof (pi_mono hi lo ltac:(lia)). now rewrite sumr_empty by lia.
Qed.

Section EasyLoop.
  Context (w : Z) (Hw : width w) (quo : Z -> Z -> res Z) (x y z b : Z) (pt : pitable) (ps : list Z).
  Hypothesis (Hquo : forall a j, 0 <= a < 2 ^ 128 -> 1 <= j <= pi y -> quo a j = Ok (a / pr y j)).
  Hypothesis (Hy : 1 <= y < 2 ^ 62) (Hyx : y * y <= x) (Hz : z = x / y) (Hx : x < 2 ^ 128).
  Hypothesis (Hpt : forall n, 0 <= n <= y -> pi_get pt n = Ok (pi n)).
  Hypothesis (Hps : forall k, 0 <= k <= pi y -> aget ps k = Ok (psum_table_value y k)).
  Hypothesis (Hb : 1 <= b <= pi y).
  Let p := pr y b.
  Hypothesis (Hyp : y < p * p).
  Let x2 := x / p.
  Let mh := Z.max (y / p) p.
  Let mc := in_between mh (Z.sqrt x2) y.
  Let ms := in_between mh (z / p) y.
  Let l0 := pi (easy_hi x y p).
  Let f := fun j => easy_term x p (pr y j).

  Local Lemma Pp : prime p /\ pi p = b /\ 2 <= p <= y.
  Proof. unfold p. destruct (pr_spec y b Hb) as (A & B & C). pose proof (prime_ge_2 _ A). auto. Qed.
  Local Lemma x0 : 0 <= x. Proof. pose proof (Z.square_nonneg y). lia. Qed.
  Local Lemma mhy : p <= mh <= y.
  Proof. destruct Pp as (_ & _ & P). unfold mh. assert (y / p <= y) by (apply Z.div_le_upper_bound; nia). lia. Qed.
  Local Lemma x2pos : 0 <= x2. Proof. pose proof x0. destruct Pp as (_ & _ & P). apply Z.div_pos; lia. Qed.
  Local Lemma x2max : x2 < 2 ^ 128.
  Proof. pose proof x0. destruct Pp as (_ & _ & P). assert (x2 <= x); [|lia]. unfold x2. apply Z.div_le_upper_bound; [lia|]. nia. Qed.
  Local Lemma clamp a : mh <= in_between mh a y <= y /\ Z.min a y <= in_between mh a y /\ (in_between mh a y = mh \/ in_between mh a y <= a).
  Proof. pose proof mhy. unfold in_between. destruct (Z.ltb_spec a mh), (Z.gtb_spec a y); lia. Qed.
  Local Lemma x2_div q : 0 < q -> x2 / q = x / (p * q).
  Proof. intros Hq. destruct Pp as (_ & _ & P). unfold x2. rewrite Z.div_div by lia. reflexivity. Qed.
  Local Lemma ms_mc : ms <= mc.
  Proof.
    destruct Pp as (_ & _ & P). pose proof mhy. pose proof x2pos.
    assert (Hs : Z.min (z / p) y <= Z.sqrt x2).
    { destruct (Z.le_gt_cases y (Z.sqrt x2)); [lia|]. apply Z.min_le_iff. left.
      pose proof (Z.sqrt_spec x2 ltac:(lia)) as S2. cbv zeta in S2. pose proof (Z.sqrt_nonneg x2). set (s := Z.sqrt x2) in *.
      destruct (Z.le_gt_cases (z / p) s) as [|G]; auto. exfalso.
      assert (D : p * (s + 1) <= z) by (apply div_le_iff; lia). rewrite Hz in D.
      apply (proj1 (div_le_iff x y (p * (s + 1)) ltac:(lia))) in D.
      assert (E : (s + 1) * y <= x2) by (unfold x2; apply div_le_iff; lia).
      assert ((s + 1) * (s + 1) <= (s + 1) * y) by (apply Z.mul_le_mono_nonneg_l; lia). lia. }
    unfold ms, mc, in_between. destruct (Z.ltb_spec (z / p) mh), (Z.gtb_spec (z / p) y), (Z.ltb_spec (Z.sqrt x2) mh), (Z.gtb_spec (Z.sqrt x2) y); lia.
  Qed.
  Local Lemma hi_y : 0 <= easy_hi x y p <= y.
  Proof. pose proof x0. destruct Pp as (_ & _ & P). unfold easy_hi. assert (0 <= x / (p * p)) by (apply Z.div_pos; nia). lia. Qed.
  Local Lemma l0_pi : l0 <= pi y. Proof. unfold l0. apply pi_mono. apply hi_y. Qed.
  (** an index in range belongs to an easy leaf *)
  Local Lemma easy_idx j : pi ms < j <= l0 ->
    prime (pr y j) /\ pi (pr y j) = j /\ p < pr y j <= y /\ easy_lo y z p < pr y j <= easy_hi x y p.
  Proof.
    intros Hj. pose proof l0_pi. pose proof (pi_nonneg ms). pose proof mhy. destruct (pr_spec y j ltac:(lia)) as (A & B & C).
    assert (G : ms < pr y j). { destruct (Z.lt_ge_cases ms (pr y j)) as [|L]; auto. pose proof (pi_mono _ _ L). lia. }
    assert (L : pr y j <= easy_hi x y p). { apply (prime_pi_le (pr y j)); auto. fold l0. lia. }
    pose proof (clamp (z / p)) as K. fold ms in K. do 3 (split; [auto; lia|]). unfold easy_lo. fold mh. lia.
  Qed.
  Local Lemma easy_xn j : pi ms < j <= l0 ->
    let xn := x2 / pr y j in p <= xn < y /\ f j = (prime_sum xn + 1 - prime_sum (p - 1)) * (p * pr y j).
  Proof.
    intros Hj xn. destruct Pp as (P1 & P2 & P3). destruct (easy_idx j Hj) as (A & B & C & D).
    unfold xn. rewrite x2_div by lia. destruct (easy_value x y z ltac:(lia) Hyx Hz p (pr y j)) as [E _]; auto; try lia.
    split; [exact E|]. unfold f, easy_term. ring.
  Qed.
  Local Lemma easy_pos j : pi ms < j <= l0 -> 0 < f j /\ 0 < prime_sum (x2 / pr y j) + 1 - prime_sum (p - 1) <= f j.
  Proof.
    intros Hj. destruct Pp as (P1 & P2 & P3). destruct (easy_idx j Hj) as (A & B & C & D). destruct (easy_xn j Hj) as (E1 & ->).
    pose proof (prime_sum_mono (p - 1) (x2 / pr y j) ltac:(lia)). set (h := prime_sum (x2 / pr y j) + 1 - prime_sum (p - 1)) in *.
    assert (0 < p * pr y j) by (apply Z.mul_pos_pos; lia). split; [apply Z.mul_pos_pos; lia|]. split; [lia|]. rewrite <- (Z.mul_1_r h) at 1. apply Z.mul_le_mono_nonneg_l; lia.
  Qed.
  Context (s0 : Z).
  Hypothesis (Hsm : Z.abs s0 + sumr (pi ms + 1) (l0 + 1) f <= smax w).
  Local Lemma f_incl j k : pi ms + 1 <= j -> k <= l0 + 1 -> 0 <= sumr j k f <= sumr (pi ms + 1) (l0 + 1) f.
  Proof.
    intros H1 H2. assert (N : forall a b, pi ms + 1 <= a -> b <= l0 + 1 -> 0 <= sumr a b f).
    { intros a c Ha Hc. apply sumr_nonneg. intros i Hi. destruct (easy_pos i); lia. }
    split; [apply N; lia|]. destruct (Z.le_gt_cases j k).
    - rewrite (sumr_split (pi ms + 1) j (l0 + 1)) by lia. rewrite (sumr_split j k (l0 + 1)) by lia. pose proof (N (pi ms + 1) j ltac:(lia) ltac:(lia)). pose proof (N k (l0 + 1) ltac:(lia) ltac:(lia)). lia.
    - rewrite (sumr_empty j k) by lia. apply N; lia.
  Qed.
  Lemma easy_clustered_ok : wp (easy_clustered w quo y ps pt b p x2 mc (pi mc) l0 s0)
    (fun '(l, s2) => s2 = s0 + sumr (l + 1) (l0 + 1) f /\ l <= l0 /\ (l = pi mc \/ l = l0)).
  Proof.
    destruct Pp as (P1 & P2 & P3). pose proof ms_mc as Hmsc. pose proof (pi_mono _ _ Hmsc) as Hpmsc. pose proof l0_pi as Hl0.
    pose proof (clamp (Z.sqrt x2)) as Kc. fold mc in Kc. pose proof mhy as Hmh. pose proof x2pos as Hx2. pose proof x2max as Hx2m.
    pose proof (pi_nonneg mc) as Hpc0. pose proof (pi_nonneg ms) as Hps0.
    unfold easy_clustered.
    apply (loop_rule _ (fun '(l, s2) => s2 = s0 + sumr (l + 1) (l0 + 1) f /\ (pi mc <= l <= l0 \/ l = l0 /\ l0 <= pi mc))
                       (fun '(l, _) => Z.max 0 (l - pi mc))).
    - intros [l s2] (-> & Hl). destruct (Z.gtb_spec l (pi mc)) as [G|G].
      + assert (Hj : pi ms < l <= l0) by lia.
        destruct (easy_idx l Hj) as (Q1 & Q2 & Q3 & Q4). destruct (easy_xn l Hj) as (X1 & X2).
        rewrite Hquo by lia. rewrite bind_Ok. set (q := pr y l) in *. set (xn := x2 / q) in *. cbv zeta.
        rewrite swrap64 by lia. rewrite Hpt by lia. rewrite bind_Ok.
        rewrite (phi_of_sums_ok y Hy ps Hps xn p b P1 P2) by lia. rewrite bind_Ok.
        replace (b + (pi xn - b + 2) - 1) with (pi xn + 1) by ring.
        assert (Gq : mc < q). { destruct (Z.lt_ge_cases mc q) as [|L]; auto. pose proof (pi_mono _ _ L). lia. }
        pose proof (Z.sqrt_spec x2 Hx2) as SQ. cbv zeta in SQ. pose proof (Z.sqrt_nonneg x2) as SQ0.
        assert (Hxq : xn < q).
        { unfold xn. apply div_lt_iff; [lia|].
          assert (Z.succ (Z.sqrt x2) * Z.succ (Z.sqrt x2) <= q * q) by (apply Z.mul_le_mono_nonneg; lia). lia. }
        assert (Hpx : pi xn < l) by (rewrite <- Q2; apply pi_lt_prime; auto).
        rewrite Hquo by (pose proof (pi_nonneg xn); lia). rewrite bind_Ok.
        destruct (pr_spec y (pi xn + 1)) as (R1 & R2 & R3); [pose proof (pi_nonneg xn); lia|]. set (r := pr y (pi xn + 1)) in *.
        assert (Hr : xn < r). { destruct (Z.lt_ge_cases xn r) as [|L]; auto. pose proof (pi_mono _ _ L). lia. }
        assert (Hxr : x2 / r < q).
        { apply div_lt_iff; [lia|]. pose proof (Z.mul_succ_div_gt x2 q ltac:(lia)) as M. fold xn in M.
          assert (q * Z.succ xn <= q * r) by (apply Z.mul_le_mono_nonneg_l; lia). lia. }
        assert (0 <= x2 / r) by (apply Z.div_pos; lia).
        rewrite swrap64 by lia. set (xm := Z.max (x2 / r) mc). assert (Hxm : mc <= xm < q) by (unfold xm; lia).
        rewrite Hpt by lia. rewrite bind_Ok.
        rewrite <- Q2 at 1. rewrite (ps_pi y) by (auto; lia). rewrite bind_Ok.
        rewrite (ps_pi y) by (auto; lia). rewrite bind_Ok. rewrite (ps_diff y Hy) by lia. rewrite bind_Ok.
        assert (Hm1 : pi mc <= pi xm) by (apply pi_mono; lia). assert (Hm2 : pi xm < l) by (rewrite <- Q2; apply pi_lt_prime; auto; lia).
        assert (Hinc : (prime_sum xn + 1 - prime_sum (p - 1)) * p * (prime_sum q - prime_sum xm) = sumr (pi xm + 1) (l + 1) f).
        { rewrite <- Q2 at 1. symmetry. unfold f. rewrite <- (psum_index_range y xm q (easy_term x p)) by lia.
          rewrite (psum_ext _ _ _ (fun q' => ((prime_sum xn + 1 - prime_sum (p - 1)) * p) * q')).
          - rewrite psum_scal, !prime_sum_psum. rewrite (psum_split 2 xm q) by lia. ring.
          - intros q' Hq' Hr'. unfold easy_term. rewrite <- x2_div by lia.
            assert (E : pi (x2 / q') = pi xn).
            { assert (A1 : xn <= x2 / q') by (unfold xn; apply Z.div_le_compat_l; lia).
              assert (A2 : x2 / q' < r). { apply div_lt_iff; [lia|]. assert (A3 : x2 / r < q') by (unfold xm in Hr'; lia). apply (proj1 (div_lt_iff x2 r q' ltac:(lia))) in A3. lia. }
              pose proof (pi_mono _ _ A1). pose proof (pi_lt_prime _ r R1 A2). lia. }
            assert (A4 : x2 / q' <= y).
            { assert (A2 : x2 / q' < r). { apply div_lt_iff; [lia|]. assert (A3 : x2 / r < q') by (unfold xm in Hr'; lia). apply (proj1 (div_lt_iff x2 r q' ltac:(lia))) in A3. lia. } lia. }
            rewrite <- (psum_table_pi y (x2 / q')) by lia. rewrite E, psum_table_pi by lia. ring. }
        destruct (easy_pos l Hj) as (F1 & F2). fold q xn in F2. pose proof (f_incl (pi xm + 1) (l + 1) ltac:(lia) ltac:(lia)) as I1. pose proof (f_incl (pi xm + 1) (l0 + 1) ltac:(lia) ltac:(lia)) as I2.
        destruct (smax_pos w Hw) as [M1 _]. assert (M2 : 2 ^ 62 <= 2 ^ 127 - 1) by discriminate.
        set (h := prime_sum xn + 1 - prime_sum (p - 1)) in *.
        assert (D1 : 1 <= prime_sum q - prime_sum xm).
        { pose proof (prime_sum_mono xm (q - 1) ltac:(lia)). rewrite <- (Z.sub_add 1 q), prime_sum_succ. replace (q - 1 + 1) with q by ring.
          assert (E : primeb q = true) by now apply primeb_spec. rewrite E. lia. }
        assert (D2 : 0 < h * p) by (apply Z.mul_pos_pos; lia).
        assert (D3 : h * p <= h * p * (prime_sum q - prime_sum xm)) by (rewrite <- (Z.mul_1_r (h * p)) at 1; apply Z.mul_le_mono_nonneg_l; lia).
        assert (D4 : h <= h * p) by (rewrite <- (Z.mul_1_r h) at 1; apply Z.mul_le_mono_nonneg_l; lia).
        assert (D5 : prime_sum q - prime_sum xm <= h * p * (prime_sum q - prime_sum xm)) by (rewrite <- (Z.mul_1_l (prime_sum q - prime_sum xm)) at 1; apply Z.mul_le_mono_nonneg_r; lia).
        rewrite Hinc in *.
        rewrite t_mul_ok by (auto; lia). rewrite bind_Ok.
        rewrite t_mul_ok by (auto; rewrite ?Hinc; lia). rewrite bind_Ok, Hinc.
        rewrite (sumr_split (pi xm + 1) (l + 1) (l0 + 1)) in I2 by lia. pose proof (f_incl (l + 1) (l0 + 1) ltac:(lia) ltac:(lia)) as I3.
        rewrite t_add_ok by (auto; lia). rewrite bind_Ok.
        cbn [wp]. split; [split; [|lia]|lia].
        rewrite (sumr_split (pi xm + 1) (l + 1) (l0 + 1)) by lia. ring.
      + cbn [wp]. split; [reflexivity|]. lia.
    - split; [rewrite sumr_empty by lia; ring|]. lia.
    - assert (2 ^ 62 < 2 ^ 400) by reflexivity. pose proof (pi_le y ltac:(lia)). lia.
  Qed.

  Lemma easy_sparse_ok l s2 : s2 = s0 + sumr (l + 1) (l0 + 1) f -> l <= l0 -> (l = pi mc \/ l = l0) ->
    wp (easy_sparse w quo y (prime_table y) ps pt b p x2 (pi ms) (l, s2)) (fun r => r = s0 + sumr (pi ms + 1) (l0 + 1) f).
  Proof.
    intros Hs Hll Hl. destruct Pp as (P1 & P2 & P3). pose proof ms_mc as Hmsc. pose proof (pi_mono _ _ Hmsc) as Hpmsc. pose proof l0_pi as Hl0.
    pose proof x2pos as Hx2. pose proof x2max as Hx2m. pose proof (pi_nonneg ms) as Hps0. unfold easy_sparse.
    pose proof (pi_le y ltac:(lia)) as Hpy. assert (Hmcy : mc <= y) by (apply clamp).
    pose proof (pi_mono _ _ Hmcy) as Hmcp.
    apply (loop_rule _ (fun '(l, s2) => s2 = s0 + sumr (l + 1) (l0 + 1) f /\ l <= l0 /\ (pi ms <= l \/ l = l0))
                       (fun '(l, _) => Z.max 0 (l - pi ms))).
    - clear l s2 Hs Hl Hll. intros [l s2] (-> & Hly & Hl). destruct (Z.gtb_spec l (pi ms)) as [G|G].
      + destruct (easy_idx l ltac:(lia)) as (Q1 & Q2 & Q3 & Q4). destruct (easy_xn l ltac:(lia)) as (X1 & X2).
        rewrite Hquo by lia. rewrite bind_Ok. cbv zeta.
        rewrite swrap64 by lia. rewrite Hpt by lia. rewrite bind_Ok. rewrite pr_get by lia. rewrite bind_Ok.
        rewrite (phi_of_sums_ok y Hy ps Hps _ p b P1 P2) by lia. rewrite bind_Ok.
        rewrite ps_ar_ok; [|exact Hy|left; split; [apply Z.mul_nonneg_nonneg; lia|apply Z.mul_le_mono_nonneg; lia]]. rewrite bind_Ok.
        destruct (easy_pos l ltac:(lia)) as (F1 & F2). pose proof (f_incl l (l0 + 1) ltac:(lia) ltac:(lia)) as I1. pose proof (f_incl (l + 1) (l0 + 1) ltac:(lia) ltac:(lia)) as I2.
        rewrite (sumr_cons l) in I1 by lia. destruct (smax_pos w Hw) as [M1 _]. assert (M2 : 2 ^ 124 <= 2 ^ 127 - 1) by discriminate.
        assert (D1 : 0 < p * pr y l) by (apply Z.mul_pos_pos; lia).
        assert (D2 : p * pr y l <= y * y) by (apply Z.mul_le_mono_nonneg; lia).
        assert (D3 : y * y <= 2 ^ 62 * 2 ^ 62) by (apply Z.mul_le_mono_nonneg; lia). change (2 ^ 62 * 2 ^ 62) with (2 ^ 124) in D3.
        rewrite t_mul_ok by (auto; rewrite <- ?X2; lia). rewrite bind_Ok, <- X2.
        rewrite t_add_ok by (auto; lia). rewrite bind_Ok.
        cbn [wp]. split; [split; [|lia]|lia].
        replace (l - 1 + 1) with l by ring. rewrite (sumr_cons l) by lia. ring.
      + cbn [wp]. destruct (Z.eq_dec l (pi ms)) as [->|]; [reflexivity|]. rewrite !sumr_empty by lia. reflexivity.
    - split; [exact Hs|]. lia.
    - assert (2 ^ 62 < 2 ^ 400) by reflexivity. lia.
  Qed.
End EasyLoop.

Lemma easy_b_ok w quo x y z b pt ps s0 : width w ->
  (forall a j, 0 <= a < 2 ^ 128 -> 1 <= j <= pi y -> quo a j = Ok (a / pr y j)) -> 1 <= y < 2 ^ 62 -> y * y <= x -> z = x / y -> x < 2 ^ 127 ->
  (forall n, 0 <= n <= y -> pi_get pt n = Ok (pi n)) ->
  (forall k, 0 <= k <= pi y -> aget ps k = Ok (psum_table_value y k)) ->
  1 <= b <= pi y -> y < pr y b * pr y b ->
  Z.abs s0 + psum (easy_lo y z (pr y b) + 1) (easy_hi x y (pr y b)) (easy_term x (pr y b)) <= smax w ->
  wp (easy_b w quo (prime_table y) ps pt x y z b s0) (fun r => r =
    s0 + psum (easy_lo y z (pr y b) + 1) (easy_hi x y (pr y b)) (easy_term x (pr y b))).
Proof.
  intros Hw Hquo Hy Hyx Hz Hx Hpt Hps Hb Hyp Hsm. unfold easy_b.
  destruct (pr_spec y b Hb) as (P1 & P2 & P3). pose proof (prime_ge_2 _ P1) as P4.
  assert (Hx0 : 0 <= x) by (pose proof (Z.square_nonneg y); lia). pose proof (y_le_z x y z ltac:(lia) Hyx Hz) as Hyz.
  rewrite pr_get by lia. rewrite bind_Ok. set (p := pr y b) in *.
  rewrite zdiv_ok by lia. rewrite bind_Ok. set (x2 := x / p) in *.
  assert (Hx2 : 0 <= x2 < 2 ^ 126) by (unfold x2; split; [apply Z.div_pos; lia|apply Z.div_lt_upper_bound; [lia|]; assert (2 ^ 127 = 2 * 2 ^ 126) by reflexivity; assert (2 * 2 ^ 126 <= p * 2 ^ 126) by (apply Z.mul_le_mono_nonneg_r; lia); lia]).
  rewrite zdiv_ok by lia. rewrite bind_Ok. cbv zeta. rewrite zdiv_ok by lia. rewrite bind_Ok. rewrite zdiv_ok by lia. rewrite bind_Ok.
  assert (Hsq : 0 <= Z.sqrt x2 < 2 ^ 63).
  { split; [apply Z.sqrt_nonneg|]. apply Z.sqrt_lt_square; [lia|lia|]. change (2 ^ 63 * 2 ^ 63) with (2 ^ 126). lia. }
  rewrite swrap64 by lia.
  assert (Hyp1 : y / p <= y) by (apply Z.div_le_upper_bound; nia).
  assert (0 <= y / p) by (apply Z.div_pos; lia).
  assert (IB : forall a, 0 <= in_between (Z.max (y / p) p) a y <= y).
  { intros a. unfold in_between. destruct (Z.ltb_spec a (Z.max (y / p) p)), (Z.gtb_spec a y); lia. }
  replace (Z.min (x2 / p) y) with (easy_hi x y p) by (unfold easy_hi, x2; rewrite Z.div_div by lia; reflexivity).
  assert (Hhi : 0 <= easy_hi x y p <= y).
  { unfold easy_hi. assert (0 <= x / (p * p)) by (apply Z.div_pos; nia). lia. }
  rewrite Hpt by auto. rewrite bind_Ok. rewrite Hpt by auto. rewrite bind_Ok. rewrite Hpt by auto. rewrite bind_Ok.
  assert (Hx' : x < 2 ^ 128) by (assert (2 ^ 128 = 2 * 2 ^ 127) by reflexivity; lia).
  assert (Tot : sumr (pi (in_between (Z.max (y / p) p) (z / p) y) + 1) (pi (easy_hi x y p) + 1) (fun j => easy_term x p (pr y j))
    = psum (easy_lo y z p + 1) (easy_hi x y p) (easy_term x p)).
  { rewrite <- (psum_index_range y (in_between (Z.max (y / p) p) (z / p) y) (easy_hi x y p) (easy_term x p)).
    - unfold easy_lo, in_between. destruct (Z.ltb_spec (z / p) (Z.max (y / p) p)).
      + now rewrite (Z.max_l (Z.max (y / p) p)) by lia.
      + destruct (Z.gtb_spec (z / p) y).
        * rewrite !psum_empty by lia. reflexivity.
        * now rewrite (Z.max_r (Z.max (y / p) p)) by lia.
    - specialize (IB (z / p)). split; [|lia]. unfold in_between. destruct (Z.ltb_spec (z / p) (Z.max (y / p) p)), (Z.gtb_spec (z / p) y); lia.
    - lia. }
  rewrite <- Tot in *.
  apply wp_bind. eapply wp_mono; [apply (easy_clustered_ok w Hw quo x y z b pt ps); auto|].
  cbv beta. intros [l s2] (H1 & H2 & H3).
  eapply wp_mono; [apply (easy_sparse_ok w Hw quo x y z b pt ps) with (s0 := s0); auto|].
  cbv beta. intros r ->. reflexivity.
Qed.

Lemma sqrt_index y b : 1 <= y -> 1 <= b <= pi y -> pi (Z.sqrt y) < b <-> y < pr y b * pr y b.
Proof.
  intros Hy Hb. destruct (pr_spec y b Hb) as (P1 & P2 & P3). pose proof (prime_ge_2 _ P1).
  pose proof (Z.sqrt_spec y ltac:(lia)) as SQ. cbv zeta in SQ. pose proof (Z.sqrt_nonneg y).
  rewrite <- P2 at 1. split; intros H1.
  - assert (Z.sqrt y < pr y b). { destruct (Z.lt_ge_cases (Z.sqrt y) (pr y b)) as [|L]; auto. pose proof (pi_mono _ _ L). lia. }
    assert (Z.succ (Z.sqrt y) * Z.succ (Z.sqrt y) <= pr y b * pr y b) by (apply Z.mul_le_mono_nonneg; lia). lia.
  - apply pi_lt_prime; auto. destruct (Z.lt_ge_cases (Z.sqrt y) (pr y b)) as [|L]; auto.
    assert (pr y b * pr y b <= Z.sqrt y * Z.sqrt y) by (apply Z.mul_le_mono_nonneg; lia). lia.
Qed.

Lemma iroot3_u128 x r0 : 0 <= r0 <= 2 ^ 43 -> 0 <= x < 2 ^ 127 ->
  exists r, iroot u128 3 r0 x = Ok r /\ 0 <= r /\ r ^ 3 <= x < (r + 1) ^ 3.
Proof.
  intros Hr Hx. destruct (iroot_widths u128 3) as (H1 & H2 & H3); [cbn; tauto|cbn; tauto|].
  apply iroot_all; auto. change (tmax u128) with (2 ^ 128 - 1). assert (2 ^ 128 = 2 * 2 ^ 127) by reflexivity. lia.
Qed.

Lemma S2_easy_OpenMP_ok w quo ps root sched x y z c : width w -> S2_easy_sum x y c <= smax w ->
  (forall a j, 0 <= a < 2 ^ 128 -> 1 <= j <= pi y -> quo a j = Ok (a / pr y j)) ->
  (forall k, 0 <= k <= pi y -> aget ps k = Ok (psum_table_value y k)) ->
  valid_sched sched -> 0 <= root <= 2 ^ 43 ->
  1 <= y < 2 ^ 62 -> y * y <= x < (y + 1) ^ 3 -> x < 2 ^ 127 -> z = x / y -> 0 <= c ->
  wp (S2_easy_OpenMP w quo (prime_table y) ps root sched x y z c) (fun r => r = S2_easy_sum x y c).
Proof.
  intros Hw Hsm Hquo Hps HS Hroot Hy Hyx Hx Hz Hc. unfold S2_easy_OpenMP.
  assert (2 ^ 62 < 2 ^ 300) by reflexivity. assert (Hx0 : 0 <= x) by (pose proof (Z.square_nonneg y); lia).
  destruct (iroot3_u128 x root Hroot ltac:(lia)) as (r & Er & Hr0 & Hr). rewrite Er, bind_Ok. cbv zeta.
  assert (Hry : r <= y). { assert (r < y + 1); [|lia]. apply (Z.pow_lt_mono_l_iff r (y + 1) 3); lia. }
  rewrite swrap64 by lia.
  apply wp_bind. eapply wp_mono; [apply PiTable_lookup; lia|]. intros pt [_ Hpt].
  assert (Hsy : 0 <= Z.sqrt y <= y) by (split; [apply Z.sqrt_nonneg|apply Z.sqrt_le_lin; lia]).
  rewrite Hpt by lia. rewrite bind_Ok. rewrite Hpt by lia. rewrite bind_Ok.
  pose proof (pi_mono _ _ Hry) as Hpr. pose proof (pi_nonneg (Z.sqrt y)) as Hps0.
  set (g := fun b => psum (easy_lo y z (pr y b) + 1) (easy_hi x y (pr y b)) (easy_term x (pr y b))).
  assert (Tot : S2_easy_sum x y c = sumr (Z.max c (pi (Z.sqrt y)) + 1) (pi r + 1) g).
  { rewrite (S2_easy_terms x y z c ltac:(lia) ltac:(lia) Hz r Hry) by lia.
    rewrite (psum_index r _ (fun b => if c <? b then if pi (Z.sqrt y) <? b then g b else 0 else 0)).
    + set (m := Z.max c (pi (Z.sqrt y))). destruct (Z.le_gt_cases (pi r) m) as [L|G].
      * rewrite (sumr_empty (m + 1)) by lia. apply sumr_zero. intros b Hb.
        destruct (Z.ltb_spec c b); auto. destruct (Z.ltb_spec (pi (Z.sqrt y)) b); auto. lia.
      * rewrite (sumr_split 1 (m + 1) (pi r + 1)) by lia. rewrite (sumr_zero 1 (m + 1)).
        -- rewrite Z.add_0_l. apply sumr_ext. intros b Hb. destruct (Z.ltb_spec c b); [|lia]. destruct (Z.ltb_spec (pi (Z.sqrt y)) b); [reflexivity|lia].
        -- intros b Hb. destruct (Z.ltb_spec c b); auto. destruct (Z.ltb_spec (pi (Z.sqrt y)) b); auto. lia.
    + intros p Hp Hpr'. destruct (c <? pi p); auto. pose proof (pi_pos_prime p Hp).
      pose proof (pi_mono p y ltac:(lia)). pose proof (sqrt_index y (pi p) ltac:(lia) ltac:(lia)) as SI.
      unfold g. rewrite pr_pi in * by (auto; lia).
      destruct (Z.ltb_spec (pi (Z.sqrt y)) (pi p)), (Z.ltb_spec y (p * p)); auto; exfalso; lia. }
  rewrite (par_acc_ok _ _ (fun _ => True) g g (smax w) (Z.max c (pi (Z.sqrt y)) + 1) (pi r + 1)); auto.
  - cbn [wp]. rewrite Z.add_0_l. now symmetry.
  - intros a b Hab. now apply t_add_ok.
  - intros b s0 [] Hb _ Hs0. apply wp_bind. eapply wp_mono; [apply (easy_b_ok w quo x y z b pt ps); auto; try lia|].
    + apply sqrt_index; lia.
    + intros v ->. cbn [wp fst snd]. auto.
  - intros b Hb. rewrite Z.abs_eq; [lia|]. unfold g. destruct (pr_spec y b ltac:(lia)) as (P1 & P2 & P3).
    apply (easy_p x y z); auto; try lia. apply sqrt_index; lia.
  - rewrite <- Tot. change (Z.abs 0) with 0. lia.
Qed.
Lemma easy_width_ok x y : width (easy_width x y).
Proof. unfold easy_width. destruct (_ && _); [left|right]; reflexivity. Qed.
Lemma easy_fits x y c : 1 <= y -> y * y <= x < (y + 1) ^ 3 -> x < 2 ^ 127 -> S2_easy_sum x y c <= smax (easy_width x y).
Proof.
  intros Hy Hyx Hx. assert (H0 : 0 <= x) by (pose proof (Z.square_nonneg y); lia).
  destruct (S2_easy_bound x y (x / y) c ltac:(lia) ltac:(lia) eq_refl ltac:(lia)) as (A & [B|B]).
  - unfold easy_width. destruct ((y <=? 2 ^ 32 - 1) && (x <=? 2 ^ 64 - 1)) eqn:E.
    + apply andb_true_iff in E. destruct E as [_ E]. apply Z.leb_le in E. assert (x * x <= (2 ^ 64 - 1) * (2 ^ 64 - 1)) by (apply Z.mul_le_mono_nonneg; lia).
      assert ((2 ^ 64 - 1) * (2 ^ 64 - 1) + 4 * (2 ^ 64 - 1) + 1 <= 3 * smax 128) by discriminate. lia.
    + assert (x * x <= 2 ^ 127 * 2 ^ 127) by (apply Z.mul_le_mono_nonneg; lia).
      assert (2 ^ 127 * 2 ^ 127 + 4 * 2 ^ 127 + 1 <= 3 * smax 256) by discriminate. lia.
  - destruct (smax_pos (easy_width x y) (easy_width_ok x y)) as [M _]. assert (2 ^ 21 <= 2 ^ 127 - 1) by discriminate. lia.
Qed.

Lemma S2_easy_ok root sched x y z c : valid_sched sched -> 0 <= root <= 2 ^ 43 ->
  1 <= y < 2 ^ 62 -> y * y <= x < (y + 1) ^ 3 -> x < 2 ^ 127 -> z = x / y -> 0 <= c ->
  S2_easy root sched x y z c = Ok (S2_easy_sum x y c).
Proof.
  intros HS Hroot Hy Hyx Hx Hz Hc. unfold S2_easy. apply wp_eq. cbv zeta. unfold generate_primes.
  assert (2 ^ 62 < 2 ^ 300) by reflexivity.
  apply wp_bind. eapply wp_mono; [apply generate_prime_sums_ok; lia|]. intros ps [_ Hps].
  apply S2_easy_OpenMP_ok; auto using easy_width_ok; [apply easy_fits; auto; lia|].
  intros a j Ha Hj. unfold quo_primes. rewrite pr_get by lia. rewrite bind_Ok.
  destruct (pr_spec y j Hj) as (P1 & _). pose proof (prime_ge_2 _ P1). apply zdiv_ok; lia.
Qed.

(** the dividers *)
Lemma gen_dividers_ok (gen : Z -> res (Z * Z)) (f : Z -> Z * Z) l : (forall d, In d l -> gen d = Ok (f d)) ->
  gen_dividers gen l = Ok (map (fun d => Some (f d)) l).
Proof.
  induction l as [|d l IH]; intros H; cbn [gen_dividers map]; [reflexivity|].
  rewrite H by (now left). rewrite bind_Ok, IH by (intros; apply H; now right). reflexivity.
Qed.
Lemma nth_error_aget_map {A B} (g : A -> B) l k v : aget l k = Ok v -> aget (map g l) k = Ok (g v).
Proof.
  unfold aget. destruct (Z.ltb k 0) eqn:K0; [discriminate|]. intros H.
  destruct (nth_error l (Z.to_nat k)) eqn:E; [|discriminate]. injection H as <-. now rewrite (map_nth_error _ _ _ E).
Qed.

Section Divisors.
  Context (div128 : Z -> Z -> Z -> res (Z * Z)) (mullhi : Z -> Z -> res Z).
  Hypothesis Hdiv : forall u1 u0 v, 0 <= u1 < v -> 0 <= u0 < 2 ^ 64 -> v < 2 ^ 64 -> div128 u1 u0 v = div128_exact u1 u0 v.
  Hypothesis Hmul : forall x y, 0 <= x < 2 ^ 64 -> 0 <= y < 2 ^ 64 -> mullhi x y = Ok (x * y / 2 ^ 64).

  Lemma divider_ok d : 2 <= d < 2 ^ 64 -> exists v, u64_branchfree_gen div128 d = Ok v /\
    forall n, 0 <= n < 2 ^ 64 -> u64_branchfree_do mullhi n v = Ok (n / d).
  Proof.
    intros Hd. pose proof (fun n => branchfree_ok div128 mullhi Hdiv Hmul d n Hd) as H.
    destruct (u64_branchfree_gen div128 d) as [v|e].
    - exists v. split; auto.
    - specialize (H 0 ltac:(lia)). discriminate.
  Qed.

  Lemma libdivide_divisors_ok y : 1 <= y < 2 ^ 62 -> exists fd, libdivide_divisors div128 (prime_table y) = Ok fd /\
    forall a j, 0 <= a < 2 ^ 128 -> 1 <= j <= pi y -> quo_libdivide mullhi (prime_table y) fd a j = Ok (a / pr y j).
  Proof.
    intros Hy.
    set (f := fun d => match u64_branchfree_gen div128 d with Ok v => v | Fail _ => (0, 0) end).
    assert (Hf : forall d, 2 <= d < 2 ^ 64 -> u64_branchfree_gen div128 d = Ok (f d)).
    { intros d Hd. destruct (divider_ok d Hd) as (v & E & _). unfold f. now rewrite E. }
    assert (Hin : forall d, In d (primes_upto y) -> 2 <= d < 2 ^ 64).
    { intros d Hd. apply in_primes_upto in Hd. destruct Hd as [P Hd]. pose proof (prime_ge_2 _ P). lia. }
    exists (None :: map (fun d => Some (f d)) (primes_upto y)). split.
    - unfold libdivide_divisors, prime_table. cbn [tl]. rewrite (gen_dividers_ok _ f) by (intros d Hd; apply Hf; auto). reflexivity.
    - intros a j Ha Hj. unfold quo_libdivide. destruct (pr_spec y j Hj) as (P1 & P2 & P3). pose proof (prime_ge_2 _ P1) as P4.
      destruct (Z.leb_spec a (2 ^ 64 - 1)) as [L|L].
      + assert (E : aget (None :: map (fun d => Some (f d)) (primes_upto y)) j = Ok (Some (f (pr y j)))).
        { pose proof (pr_get y j ltac:(lia)) as E. unfold prime_table, aget in E. unfold aget.
          destruct (Z.ltb_spec j 0); [lia|]. replace (Z.to_nat j) with (S (Z.to_nat (j - 1))) in * by lia.
          cbn [nth_error] in *. destruct (nth_error (primes_upto y) (Z.to_nat (j - 1))) as [w|] eqn:N; [|discriminate].
          injection E as ->. now rewrite (map_nth_error (fun d => Some (f d)) _ _ N). }
        rewrite E, bind_Ok. destruct (divider_ok (pr y j) ltac:(lia)) as (v & E1 & E2). rewrite Hf in E1 by lia. injection E1 as ->.
        rewrite uw_small by lia. apply E2. lia.
      + unfold quo_primes. rewrite pr_get by lia. rewrite bind_Ok. apply zdiv_ok; lia.
  Qed.

  Lemma S2_easy_libdivide_ok root sched x y z c : valid_sched sched -> 0 <= root <= 2 ^ 43 ->
    1 <= y < 2 ^ 62 -> y * y <= x < (y + 1) ^ 3 -> x < 2 ^ 127 -> z = x / y -> 0 <= c ->
    S2_easy_libdivide div128 mullhi root sched x y z c = Ok (S2_easy_sum x y c).
  Proof.
    intros HS Hroot Hy Hyx Hx Hz Hc. unfold S2_easy_libdivide. apply wp_eq. cbv zeta. unfold generate_primes.
    assert (2 ^ 62 < 2 ^ 300) by reflexivity.
    apply wp_bind. eapply wp_mono; [apply generate_prime_sums_ok; lia|]. intros ps [_ Hps].
    destruct (libdivide_divisors_ok y Hy) as (fd & E & Hq). rewrite E, bind_Ok.
    apply S2_easy_OpenMP_ok; auto using easy_width_ok. apply easy_fits; auto; lia.
  Qed.
End Divisors.
Lemma S2_easy_libdivide_impl div128 mullhi root sched x y z c : div128_impl div128 -> mullhi_impl mullhi ->
  valid_sched sched -> 0 <= root <= 2 ^ 43 ->
  1 <= y < 2 ^ 62 -> y * y <= x < (y + 1) ^ 3 -> x < 2 ^ 127 -> z = x / y -> 0 <= c ->
  S2_easy_libdivide div128 mullhi root sched x y z c = Ok (S2_easy_sum x y c).
Proof. intros H1 H2. apply S2_easy_libdivide_ok; [now apply div128_impl_ok|now apply mullhi_impl_ok]. Qed.
