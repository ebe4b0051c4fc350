(** Correctness of the model of pi_deleglise_rivat_parallel1. *)
From Coq Require Import ZArith List Bool Lia Znumtheory.
From Verif.Base Require Import Res Word Zl IType Par.
From Verif.Spec Require Import Primes IntSpec LMOSpec PhiSumSpec S2Spec.
From Verif.Model Require Import Int256 Accum Imath PhiSum Tables PhiTiny Phi P2 S1 Libdivide S2 S2LoadBalancer S2Hard Oracles DelegliseRivat.
From Verif.Proofs Require Import Primes NT LMO Accum Bounds Imath PhiSum Tables PhiTiny Phi P2 S1 Leaf Libdivide S2Leaf S2 S2LoadBalancer S2Hard LMO1.
Import ListNotations.
Open Scope Z_scope.
Local Ltac Zify.zify_post_hook ::= idtac.

Definition variant_ok (v : easy_variant) : Prop :=
  match v with EasyPlain => True | EasyLibdivide d m => (d = div128_exact \/ d = div128_knuth) /\ (m = mullhi_128 \/ m = mullhi_32) end.

(** r is the integer k-th root of x *)
Definition is_root (k r x : Z) : Prop := 0 <= r /\ r ^ k <= x < (r + 1) ^ k.

(** The environment of a computation for x: y lies where the clamped tuning factor can
    put it, the load balancer gets sizes of at most sqrt(z). *)
Definition valid_dr (o : dr_oracles) (x : Z) : Prop :=
  valid_oracles (dr_base o) /\ 0 <= dr_root6 o <= 2 ^ 22 /\
  valid_sched (dr_triv o) /\ valid_sched (dr_easy_sched o) /\ 0 <= dr_easy_root o <= 2 ^ 43 /\ variant_ok (dr_easy o) /\
  forall r3 r6, is_root 3 r3 x -> is_root 6 r6 x -> r3 <= dr_y o r3 r6 <= r3 * r6 /\ oracles_ok (x / dr_y o r3 r6) (dr_hard o).

(** Where the sums of the words of the sieve of S2_hard fit uint64_t: every x below 2^88, and
    every x whose tuning factor keeps y and z = x / y small enough. *)
Definition dr_range (o : dr_oracles) (x : Z) : Prop :=
  x < 2 ^ 88 \/ forall r3 r6, is_root 3 r3 x -> is_root 6 r6 x -> dr_y o r3 r6 <= 2 ^ 48 /\ x / dr_y o r3 r6 <= 2 ^ 59 - 2 ^ 34.

Lemma pow_le_inv a b k : 0 < k -> 0 <= a -> 0 <= b -> a ^ k <= b ^ k -> a <= b.
Proof. intros. now apply (Z.pow_le_mono_l_iff a b k). Qed.

Lemma y_range x r3 r6 y : 2 <= x -> is_root 3 r3 x -> is_root 6 r6 x -> r3 <= y <= r3 * r6 -> 1 <= y /\ y * y <= x < (y + 1) ^ 3.
Proof.
  intros Hx (A0 & A1 & A2) (B0 & B1 & B2) Hy.
  assert (1 <= r3). { destruct (Z.eq_dec r3 0) as [->|]; [|lia]. change ((0 + 1) ^ 3) with 1 in A2. lia. }
  split; [lia|]. split.
  - apply (pow_le_inv _ _ 3); [lia|nia|lia|]. transitivity ((r3 * r6 * (r3 * r6)) ^ 3).
    + apply Z.pow_le_mono_l. split; [nia|]. apply Z.mul_le_mono_nonneg; lia.
    + replace ((r3 * r6 * (r3 * r6)) ^ 3) with (r3 ^ 3 * r3 ^ 3 * r6 ^ 6) by ring. replace (x ^ 3) with (x * x * x) by ring.
      assert (0 <= r3 ^ 3) by (apply Z.pow_nonneg; lia). assert (0 <= r6 ^ 6) by (apply Z.pow_nonneg; lia).
      apply Z.mul_le_mono_nonneg; [nia| |lia|lia]. apply Z.mul_le_mono_nonneg; lia.
  - eapply Z.lt_le_trans; [exact A2|]. apply Z.pow_le_mono_l. lia.
Qed.

Lemma z_bound x r3 y : 2 <= x < 2 ^ 85 -> is_root 3 r3 x -> r3 <= y -> 0 <= x / y <= 2 ^ 57.
Proof.
  intros Hx (A0 & A1 & A2) Hy. assert (1 <= r3). { destruct (Z.eq_dec r3 0) as [->|]; [|lia]. change ((0 + 1) ^ 3) with 1 in A2. lia. }
  assert (r3 < 340000000). { apply cube_lt; [lia|lia|]. eapply Z.le_lt_trans; [exact A1|]. eapply Z.lt_trans; [apply Hx|]. reflexivity. }
  split; [apply Z.div_pos; lia|]. assert (x / y < 2 ^ 57 + 1); [|lia]. apply Z.div_lt_upper_bound; [lia|].
  replace ((r3 + 1) ^ 3) with (r3 * (r3 * r3 + 3 * r3 + 3) + 1) in A2 by ring.
  assert (r3 * r3 + 3 * r3 + 4 <= 2 ^ 57 + 1). { assert (r3 * r3 <= 340000000 * 340000000) by (apply Z.mul_le_mono_nonneg; lia). lia. }
  assert (r3 * (r3 * r3 + 3 * r3 + 4) <= y * (2 ^ 57 + 1)) by (apply Z.mul_le_mono_nonneg; nia). lia.
Qed.

Lemma z_bound59 x r3 y : 2 <= x < 2 ^ 88 -> is_root 3 r3 x -> r3 <= y -> 0 <= x / y <= 2 ^ 59 - 2 ^ 34.
Proof.
  intros Hx (A0 & A1 & A2) Hy. assert (1 <= r3). { destruct (Z.eq_dec r3 0) as [->|]; [|lia]. change ((0 + 1) ^ 3) with 1 in A2. lia. }
  assert (r3 < 680000000). { apply cube_lt; [lia|lia|]. eapply Z.le_lt_trans; [exact A1|]. eapply Z.lt_trans; [apply Hx|]. reflexivity. }
  split; [apply Z.div_pos; lia|]. assert (x / y < 2 ^ 59 - 2 ^ 34 + 1); [|lia]. apply Z.div_lt_upper_bound; [lia|].
  replace ((r3 + 1) ^ 3) with (r3 * (r3 * r3 + 3 * r3 + 3) + 1) in A2 by ring.
  assert (r3 * r3 + 3 * r3 + 4 <= 2 ^ 59 - 2 ^ 34 + 1). { assert (r3 * r3 <= 680000000 * 680000000) by (apply Z.mul_le_mono_nonneg; lia). lia. }
  assert (r3 * (r3 * r3 + 3 * r3 + 4) <= y * (2 ^ 59 - 2 ^ 34 + 1)) by (apply Z.mul_le_mono_nonneg; nia). lia.
Qed.
Lemma exists_root k x : 0 < k -> 0 <= x -> exists r, is_root k r x.
Proof.
  intros Hk Hx. pattern x. apply natlike_ind; [| |exact Hx].
  - exists 0. split; [lia|]. rewrite Z.pow_0_l by lia. change (0 + 1) with 1. rewrite Z.pow_1_l by lia. lia.
  - intros n Hn (r & R0 & R1 & R2). destruct (Z.le_gt_cases ((r + 1) ^ k) (Z.succ n)) as [L|G]; [exists (r + 1)|exists r; split; lia].
    split; [lia|]. split; [exact L|]. assert ((r + 1) ^ k < (r + 1 + 1) ^ k) by (apply Z.pow_lt_mono_l; lia). lia.
Qed.
Lemma dr_range_ok o x r3 r6 : valid_dr o x -> dr_range o x -> 2 <= x -> is_root 3 r3 x -> is_root 6 r6 x ->
  x < 2 ^ 108 /\ dr_y o r3 r6 <= 2 ^ 48 /\ 0 <= x / dr_y o r3 r6 <= 2 ^ 59 - 2 ^ 34.
Proof.
  intros HV HR Hx R3 R6. destruct HV as (_ & _ & _ & _ & _ & _ & HY). destruct (HY r3 r6 R3 R6) as [Y _]. destruct (y_range x r3 r6 _ Hx R3 R6 Y) as (Y1 & Y2 & _).
  set (y := dr_y o r3 r6) in *. assert (Z0 : 0 <= x / y) by (apply Z.div_pos; lia). destruct HR as [H|H].
  - split; [eapply Z.lt_trans; [exact H|reflexivity]|]. split; [|apply (z_bound59 x r3); [lia|exact R3|lia]].
    destruct (Z.le_gt_cases y (2 ^ 48)); auto. assert (2 ^ 48 * 2 ^ 48 <= y * y) by (apply Z.mul_le_mono_nonneg; lia). assert (2 ^ 88 < 2 ^ 48 * 2 ^ 48) by reflexivity. lia.
  - destruct (H r3 r6 R3 R6) as [H1 H2]. fold y in H1, H2. split; [|lia]. pose proof (Z.mul_succ_div_gt x y ltac:(lia)) as G.
    assert (y * Z.succ (x / y) <= 2 ^ 48 * 2 ^ 59) by (apply Z.mul_le_mono_nonneg; lia). assert (2 ^ 48 * 2 ^ 59 < 2 ^ 108) by reflexivity. lia.
Qed.
Lemma dr_range_x o x : valid_dr o x -> dr_range o x -> x < 2 ^ 108.
Proof.
  intros HV HR. destruct (Z.lt_ge_cases x 2) as [L|G]; [assert (2 < 2 ^ 108) by reflexivity; lia|].
  destruct (exists_root 3 x ltac:(lia) ltac:(lia)) as (r3 & R3). destruct (exists_root 6 x ltac:(lia) ltac:(lia)) as (r6 & R6). now apply (dr_range_ok o x r3 r6).
Qed.

Lemma S2_easy_of_ok o x y z c : valid_sched (dr_easy_sched o) -> 0 <= dr_easy_root o <= 2 ^ 43 -> variant_ok (dr_easy o) ->
  1 <= y < 2 ^ 62 -> y * y <= x < (y + 1) ^ 3 -> x < 2 ^ 127 -> z = x / y -> 0 <= c -> S2_easy_of o x y z c = Ok (S2_easy_sum x y c).
Proof.
  intros HS HR HV Hy Hyx Hx Hz Hc. unfold S2_easy_of. destruct (dr_easy o) as [|d m].
  - now apply S2_easy_ok.
  - destruct HV as [V1 V2]. now apply S2_easy_libdivide_impl.
Qed.

Lemma DR_S2_ok o x y z c threads : valid_sched (dr_triv o) -> valid_sched (dr_easy_sched o) -> 0 <= dr_easy_root o <= 2 ^ 43 -> variant_ok (dr_easy o) ->
  oracles_ok z (dr_hard o) -> in_s 32 threads -> 1 <= y -> y * y <= x < (y + 1) ^ 3 -> x < 2 ^ 108 -> y <= 2 ^ 48 -> z = x / y -> z <= 2 ^ 59 - 2 ^ 34 -> c = Z.min 6 (pi y) ->
  DR_S2 o x y z c threads = Ok (swrap 256 (S2_sum x y c)).
Proof.
  intros H1 H2 H3 H4 H5 Ht Hy Hyx Hx Hy48 Hz Hzb Hc. unfold DR_S2. pose proof (pi_nonneg y).
  assert (Hzc : z <= 2 ^ 57 \/ 4 <= c).
  { destruct (Z.lt_ge_cases y 7) as [L|G]; [left|right; pose proof (pi_mono 7 y G) as PM; change (pi 7) with 4 in PM; lia].
    assert ((y + 1) ^ 3 <= 7 ^ 3) by (apply Z.pow_le_mono_l; lia). change (7 ^ 3) with 343 in *. assert (x / y <= x) by (apply Z.div_le_upper_bound; nia). lia. }
  assert (2 ^ 108 < 2 ^ 127) by reflexivity.
  rewrite S2_trivial_ok; auto; try lia.
  2:{ intros C0. destruct (Z.lt_ge_cases y 2); auto. pose proof (pi_mono 2 y ltac:(lia)) as M. change (pi 2) with 1 in M. lia. }
  rewrite bind_Ok. rewrite S2_easy_of_ok; auto; try lia. rewrite bind_Ok. rewrite S2_hard_ok; auto; try lia. rewrite bind_Ok. rewrite t_add_256, bind_Ok, t_add_256, swrap_add_l by lia. now rewrite S2_partition.
Qed.

Lemma formula_wrap a b t p : swrap 256 (swrap 256 a + swrap 256 b + t - 1 - p) = swrap 256 (a + b + t - 1 - p).
Proof.
  replace (swrap 256 a + swrap 256 b + t - 1 - p) with (swrap 256 a + (swrap 256 b + t - 1 - p)) by ring. rewrite swrap_add_l by lia.
  replace (a + (swrap 256 b + t - 1 - p)) with (swrap 256 b + (a + t - 1 - p)) by ring. rewrite swrap_add_l by lia. f_equal. ring.
Qed.
Lemma ps_wrap x : x < 2 ^ 127 -> swrap 256 (prime_sum x) = prime_sum x.
Proof.
  intros Hx. destruct (Z.lt_ge_cases x 0). { rewrite prime_sum_small by lia. reflexivity. }
  apply swrap_small; [apply width_256|]. pose proof (prime_sum_le x ltac:(lia)). pose proof (prime_sum_nonneg x).
  assert (x * x <= 2 ^ 127 * 2 ^ 127) by (apply Z.mul_le_mono_nonneg; lia). assert (2 ^ 127 * 2 ^ 127 <= smax 256) by discriminate. lia.
Qed.
Lemma ps_wrap_err x E : 0 <= x < 2 ^ 85 -> 0 <= E <= 2 ^ 128 -> swrap 256 (prime_sum x + E) = prime_sum x + E.
Proof.
  intros Hx HE. apply swrap_small; [apply width_256|]. pose proof (prime_sum_le x ltac:(lia)). pose proof (prime_sum_nonneg x).
  assert (x * x <= 2 ^ 85 * 2 ^ 85) by (apply Z.mul_le_mono_nonneg; lia). assert (2 ^ 85 * 2 ^ 85 + 2 ^ 128 <= smax 256) by discriminate. lia.
Qed.
Lemma c_two y P : 1 <= y -> 2 <= Z.min 6 (pi y) \/ y <= 3 \/ P.
Proof. intros Hy. destruct (Z.le_gt_cases y 3); [tauto|]. left. pose proof (pi_mono 3 y ltac:(lia)) as M. change (pi 3) with 2 in M. lia. Qed.

Lemma DR_core o x threads : valid_dr o x -> 1 <= threads < 2 ^ 31 -> 2 <= x -> x <= dr_limit o -> dr_range o x ->
  exists r3 r6, is_root 3 r3 x /\ is_root 6 r6 x /\ let y := dr_y o r3 r6 in let c := Z.min 6 (pi y) in 1 <= y /\ y * y <= x < (y + 1) ^ 3 /\
    forall E, S1.S1 (o_s1sched (dr_base o)) x y c = Ok (swrap 256 (S1_sum x y c + E)) -> pi_deleglise_rivat_parallel1 o x threads = Ok (swrap 256 (prime_sum x + E)).
Proof.
  intros HVd Hth Hx Hlim HRg. pose proof HVd as (HO & HR6 & HT & HE & HER & HV & HY). pose proof HO as (HO1 & HO2 & HO3 & HO4 & HO5).
  pose proof (dr_range_x o x HVd HRg) as X108. assert (C2 : 2 ^ 108 < 2 ^ 122) by reflexivity. assert (T1 : tmax i128 = 2 ^ 127 - 1) by reflexivity. assert (C3 : 2 ^ 122 < 2 ^ 127 - 1) by reflexivity.
  unfold pi_deleglise_rivat_parallel1. destruct (Z.ltb_spec x 2); [lia|].
  destruct (iroot_widths i128 6) as (W1 & W2 & W3); [cbn; tauto|cbn; tauto|].
  destruct (iroot_all i128 6 (dr_root6 o) x W1 W2 W3) as (r6 & E6 & Hr6); [lia|change ((tdigits i128 + 6 - 1) / 6) with 22; lia|].
  rewrite E6, bind_Ok. rewrite Z.gtb_ltb. destruct (Z.ltb_spec (dr_limit o) x); [lia|].
  destruct (iroot3_bounds x (o_root (dr_base o))) as (r3 & E3 & Hr3); [lia|lia|]. exists r3, r6. split; [exact Hr3|]. split; [exact Hr6|]. rewrite E3, bind_Ok. cbv zeta.
  destruct (HY r3 r6 Hr3 Hr6) as [HY1 HY2]. destruct (dr_range_ok o x r3 r6 HVd HRg Hx Hr3 Hr6) as (_ & Hy48 & Hz). set (y := dr_y o r3 r6) in *. destruct (y_range x r3 r6 y Hx Hr3 Hr6 HY1) as (Hy & Hyx).
  split; [exact Hy|]. split; [exact Hyx|]. intros E HE2. rewrite zdiv_ok by lia. rewrite bind_Ok. rewrite swrap64 by lia. rewrite get_c_ok by lia. rewrite bind_Ok.
  rewrite P2_ok; [|lia|lia|rewrite Z.max_l by lia; lia|lia|exact HO3|exact HO4]. rewrite bind_Ok.
  rewrite HE2, bind_Ok.
  rewrite (DR_S2_ok o x y (x / y) _ threads HT HE HER HV HY2); auto; try lia.
  2:{ unfold in_s. change (smin 32) with (- 2 ^ 31). change (smax 32) with (2 ^ 31 - 1). lia. }
  rewrite bind_Ok. rewrite prime_sum_tiny_ok by lia. rewrite bind_Ok. rewrite lmo_formula_ok. f_equal. pose proof (pi_nonneg y).
  assert (y <= x) by nia. pose proof (prime_sum_combine x y (Z.min 6 (pi y)) ltac:(lia) ltac:(lia) ltac:(lia)) as F.
  rewrite formula_wrap. f_equal. lia.
Qed.

Lemma DR_gen o x threads (R : Z -> Prop) : valid_dr o x -> 1 <= threads < 2 ^ 31 -> 2 <= x -> x <= dr_limit o -> dr_range o x ->
  (forall y, 1 <= y -> y * y <= x < (y + 1) ^ 3 -> exists E, R E /\ S1.S1 (o_s1sched (dr_base o)) x y (Z.min 6 (pi y)) = Ok (swrap 256 (S1_sum x y (Z.min 6 (pi y)) + E))) ->
  exists E, R E /\ pi_deleglise_rivat_parallel1 o x threads = Ok (swrap 256 (prime_sum x + E)).
Proof.
  intros HV Hth Hx Hlim H85 HS. destruct (DR_core o x threads HV Hth Hx Hlim H85) as (r3 & r6 & _ & _ & Hy & Hyx & H).
  destruct (HS _ Hy Hyx) as (E & HE & HE2). exists E. split; auto.
Qed.

Lemma c_small y : 0 <= Z.min 6 (pi y) <= pi (2 ^ 31 - 1).
Proof.
  pose proof (pi_nonneg y). split; [lia|]. assert (M1 : pi 13 = 6) by (vm_compute; reflexivity). assert (B13 : 13 <= 2 ^ 31 - 1) by discriminate. pose proof (pi_mono 13 (2 ^ 31 - 1) B13) as M. rewrite M1 in M. generalize dependent (pi (2 ^ 31 - 1)). intros; lia.
Qed.
Lemma y_small x y : 1 <= y -> y * y <= x -> x < 2 ^ 108 -> y < 2 ^ 63.
Proof.
  intros Hy Hyx Hx. destruct (Z.lt_ge_cases y (2 ^ 63)); auto. assert (2 ^ 63 * 2 ^ 63 <= y * y) by (apply Z.mul_le_mono_nonneg; lia).
  assert (2 ^ 108 < 2 ^ 63 * 2 ^ 63) by reflexivity. lia.
Qed.

Theorem DR_ok o x threads : valid_dr o x -> 1 <= threads < 2 ^ 31 -> x <= dr_limit o -> dr_range o x ->
  (forall n c, 1 <= n -> 0 <= c <= 6 -> window_free (x / n) c) -> pi_deleglise_rivat_parallel1 o x threads = Ok (prime_sum x).
Proof.
  intros HV Hth Hlim HRg HW. pose proof (dr_range_x o x HV HRg) as Hx85. destruct (Z.ltb_spec x 2) as [L|G].
  { unfold pi_deleglise_rivat_parallel1. destruct (Z.ltb_spec x 2); [|lia]. now rewrite prime_sum_small by lia. }
  destruct (DR_gen o x threads (fun E => E = 0) HV Hth G Hlim HRg) as (E & -> & R); [|now rewrite Z.add_0_r, ps_wrap in R by lia].
  intros y Hy Hyx. exists 0. split; auto. rewrite Z.add_0_r. pose proof HV as ((_ & _ & _ & _ & HS) & _). pose proof (y_small x y Hy ltac:(lia) Hx85). pose proof (c_small y). pose proof (pi_nonneg y).
  assert (2 ^ 108 < 2 ^ 124) by reflexivity. rewrite S1_ok; auto; try lia.
  - f_equal. symmetry. apply swrap_small; [apply width_256|]. eapply Z.le_trans; [apply S1_sum_abs; lia|]. apply S1_abs_256; lia.
  - apply c_two. lia.
  - intros n Hn. apply HW; lia.
Qed.

(** Without the condition on the multiplication there is no failure of any kind and the
    result is a function of x and y. *)
Definition DR_value (x y : Z) : Z :=
  let c := Z.min 6 (pi y) in
  swrap 256 (prime_sum x + (S1_val (fun n => match phi_sum_X 128 n c with Ok v => v | Fail _ => 0 end) x y c - S1_sum x y c)).

Lemma S1_value sched x y : valid_sched sched -> 1 <= y -> y * y <= x -> x < 2 ^ 108 -> let c := Z.min 6 (pi y) in
  S1.S1 sched x y c = Ok (swrap 256 (S1_val (fun n => match phi_sum_X 128 n c with Ok v => v | Fail _ => 0 end) x y c)).
Proof.
  intros HS Hy Hyx Hx85 c. pose proof (c_small y) as Hc. fold c in Hc. pose proof (y_small x y Hy Hyx Hx85).
  assert (S0 : smax 64 = 2 ^ 63 - 1) by reflexivity. assert (S1 : smax 128 = 2 ^ 127 - 1) by reflexivity. assert (2 ^ 108 < 2 ^ 124) by reflexivity. assert (2 ^ 124 < 2 ^ 127) by reflexivity.
  apply S1_ok_gen; auto; try lia.
  - apply c_two. lia.
  - intros n Hn. assert (0 <= x / n <= x). { split; [apply Z.div_pos; lia|]. apply Z.div_le_upper_bound; nia. }
    destruct (phi_sum_128_total (x / n) c) as (r & Er); [change (smin 64) with (- 2 ^ 63); lia|lia|].
    unfold phi_sum_X. change (128 =? 64) with false. cbv iota. now rewrite Er, bind_Ok.
Qed.

Theorem DR_total o x threads : valid_dr o x -> 1 <= threads < 2 ^ 31 -> 2 <= x -> x <= dr_limit o -> dr_range o x ->
  exists r3 r6, is_root 3 r3 x /\ is_root 6 r6 x /\ pi_deleglise_rivat_parallel1 o x threads = Ok (DR_value x (dr_y o r3 r6)).
Proof.
  intros HV Hth Hx Hlim Hx85. pose proof (dr_range_x o x HV Hx85) as X108. destruct (DR_core o x threads HV Hth Hx Hlim Hx85) as (r3 & r6 & R3 & R6 & Hy & Hyx & H). exists r3, r6. split; auto. split; auto.
  apply H. pose proof HV as ((_ & _ & _ & _ & HS) & _). rewrite S1_value by (auto; lia). apply f_equal. f_equal. ring.
Qed.

Lemma root_unique k a b x : 0 < k -> is_root k a x -> is_root k b x -> a = b.
Proof.
  intros Hk (A0 & A1 & A2) (B0 & B1 & B2).
  assert (a < b + 1) by (apply (Z.pow_lt_mono_l_iff a (b + 1) k); lia). assert (b < a + 1) by (apply (Z.pow_lt_mono_l_iff b (a + 1) k); lia). lia.
Qed.

(** above the limit *)
Theorem DR_throw o x threads : 0 <= dr_root6 o <= 2 ^ 22 -> 2 <= x <= tmax i128 -> dr_limit o < x -> pi_deleglise_rivat_parallel1 o x threads = Fail Throw.
Proof.
  intros HR6 Hx Hlim. unfold pi_deleglise_rivat_parallel1. destruct (Z.ltb_spec x 2); [lia|].
  destruct (iroot_widths i128 6) as (W1 & W2 & W3); [cbn; tauto|cbn; tauto|].
  destruct (iroot_all i128 6 (dr_root6 o) x W1 W2 W3) as (r6 & E6 & Hr6); [lia|change ((tdigits i128 + 6 - 1) / 6) with 22; lia|].
  rewrite E6, bind_Ok. rewrite Z.gtb_ltb. destruct (Z.ltb_spec (dr_limit o) x); [reflexivity|lia].
Qed.

(** the result does not depend on anything in the environment but y and the limit *)
Theorem DR_indep o1 o2 x t1 t2 : valid_dr o1 x -> valid_dr o2 x -> 1 <= t1 < 2 ^ 31 -> 1 <= t2 < 2 ^ 31 -> dr_range o1 x ->
  (forall r3 r6, dr_y o1 r3 r6 = dr_y o2 r3 r6) -> dr_limit o1 = dr_limit o2 ->
  pi_deleglise_rivat_parallel1 o1 x t1 = pi_deleglise_rivat_parallel1 o2 x t2.
Proof.
  intros V1 V2 H1 H2 Hx EY EL. assert (Hx2 : dr_range o2 x) by (destruct Hx as [Hx|Hx]; [left; exact Hx|right; intros r3 r6 R3 R6; rewrite <- EY; now apply Hx]). pose proof (dr_range_x o1 x V1 Hx) as X108. destruct (Z.ltb_spec x 2) as [L|G].
  { unfold pi_deleglise_rivat_parallel1. destruct (Z.ltb_spec x 2); [reflexivity|lia]. }
  assert (T1 : 2 ^ 108 <= tmax i128) by discriminate.
  destruct (Z.le_gt_cases x (dr_limit o1)) as [L|L].
  - destruct (DR_total o1 x t1 V1 H1 G L Hx) as (a3 & a6 & A1 & A2 & ->). destruct (DR_total o2 x t2 V2 H2 G ltac:(lia) Hx2) as (b3 & b6 & B1 & B2 & ->).
    rewrite (root_unique 3 b3 a3 x), (root_unique 6 b6 a6 x) by (auto; lia). now rewrite EY.
  - rewrite !DR_throw; auto; try lia; [apply V2|apply V1].
Qed.

Theorem DR_wrong o threads : valid_dr o first_bad -> 1 <= threads < 2 ^ 31 -> first_bad <= dr_limit o ->
  pi_deleglise_rivat_parallel1 o first_bad threads = Ok (prime_sum first_bad + 2 ^ 128).
Proof.
  intros HV Hth Hlim.
  destruct (DR_gen o first_bad threads (fun E => E = 2 ^ 128) HV Hth ltac:(discriminate) Hlim ltac:(left; reflexivity)) as (E & -> & R).
  2:{ rewrite ps_wrap_err in R; [exact R|split; [discriminate|reflexivity]|split; discriminate]. }
  intros y Hy Hyx. exists (2 ^ 128). split; auto. pose proof HV as ((_ & _ & _ & _ & HS) & _).
  assert (13 <= y).
  { assert (12 < y + 1). { apply cube_lt; [lia|lia|]. eapply Z.lt_trans; [|apply Hyx]. reflexivity. }
    destruct (Z.eq_dec y 12) as [->|]; [|lia]. exfalso. destruct Hyx as [_ H3]. revert H3. vm_compute. discriminate. }
  pose proof (pi_mono 13 y ltac:(lia)) as M. change (pi 13) with 6 in M. replace (Z.min 6 (pi y)) with 6 by lia.
  apply S1_ok_err; [exact HS| | | | |].
  - split; reflexivity.
  - split; [lia|]. apply (y_small first_bad); [lia|lia|reflexivity].
  - pose proof (c_small 13) as C. replace (Z.min 6 (pi 13)) with 6 in C by (vm_compute; reflexivity). split; [lia|apply C].
  - destruct phi_sum_128_wrong6 as (r & E & V). unfold phi_sum_X. change (128 =? 64) with false. cbv iota. rewrite E, bind_Ok. exact (f_equal (@Ok Z) V).
  - intros n Hn. apply window_free_small. apply Z.div_lt; [reflexivity|lia].
Qed.

(** behind the two failing arguments the next ones are right again *)
Lemma window_free_next x a : first_bad + 2 <= x < 2 * first_bad -> window_free x a.
Proof.
  unfold first_bad. intros Hx m p Hm Hmu Hp Hd _ [W1 W2]. pose proof (prime_ge_2 p Hp) as P2.
  assert (M2 : 2 <= m) by (apply Z.divide_pos_le in Hd; lia).
  change (2 ^ 128 - 2 ^ 64) with 340282366920938463444927863358058659840 in W1. change (2 ^ 128) with 340282366920938463463374607431768211456 in W2.
  assert (Q : 0 <= x / m) by (apply Z.div_pos; lia). pose proof (phi_sum_le (x / m) (pi p - 1) Q) as U.
  destruct (Z.eq_dec m 2) as [->|N2]; [|destruct (Z.eq_dec m 3) as [->|N3]].
  - assert (p = 2) by (apply Z.divide_pos_le in Hd; lia). subst p. change (pi 2 - 1) with 0 in W2. rewrite phi_sum_0 in W2 by lia.
    assert (L : 26087635650665564425 <= x / 2) by (apply Z.div_le_lower_bound; lia).
    assert (G : 26087635650665564425 * (26087635650665564425 + 1) / 2 <= x / 2 * (x / 2 + 1) / 2) by (apply Z.div_le_mono; [lia|]; apply Z.mul_le_mono_nonneg; lia).
    change (26087635650665564425 * (26087635650665564425 + 1) / 2) with 340282366920938463484267057077245572525 in G. lia.
  - assert (p = 3).
    { assert (p <= 3) by (apply Z.divide_pos_le in Hd; lia). destruct (Z.eq_dec p 2) as [->|]; [|lia]. exfalso. destruct Hd as [k Hk]. lia. }
    subst p. change (pi 3 - 1) with 1 in W1. rewrite phi_sum_1_eval in W1 by lia.
    assert (L : x / 3 < 34783514200887419232) by (apply Z.div_lt_upper_bound; lia). set (t := x / 3) in *. clearbody t.
    pose proof (Z.mul_div_le (t * (t + 1)) 2 ltac:(lia)) as D1. pose proof (Z.div_mod t 2 ltac:(lia)) as D2. pose proof (Z.mod_pos_bound t 2 ltac:(lia)) as D3. set (h := t / 2) in *.
    pose proof (Z.div_mod (h * (h + 1)) 2 ltac:(lia)) as D4. pose proof (Z.mod_pos_bound (h * (h + 1)) 2 ltac:(lia)) as D5.
    assert (H0 : 0 <= h <= 17391757100443709616) by lia. assert (HH : h * h <= 17391757100443709616 * 17391757100443709616) by (apply Z.mul_le_mono_nonneg; lia).
    assert (TT : t * (t + 1) <= (2 * h + 1) * (2 * h + 2)) by (apply Z.mul_le_mono_nonneg; lia).
    clear - D1 D4 D5 TT HH H0 W1. nia.
  - assert (L : x / m <= 26087635650665564423).
    { assert (4 <= m) by lia. apply Z.lt_succ_r. apply Z.div_lt_upper_bound; [lia|]. nia. }
    clear - U L W1 Q. nia.
Qed.
Lemma window_next x n c : first_bad + 2 <= x < 2 * first_bad -> 1 <= n -> window_free (x / n) c.
Proof.
  intros Hx Hn. destruct (Z.eq_dec n 1) as [->|]; [rewrite Z.div_1_r; now apply window_free_next|]. apply window_free_small.
  apply Z.div_lt_upper_bound; [lia|]. assert (0 < first_bad) by reflexivity. nia.
Qed.
Theorem DR_next o x threads : valid_dr o x -> 1 <= threads < 2 ^ 31 -> x <= dr_limit o -> first_bad + 2 <= x < 2 * first_bad ->
  pi_deleglise_rivat_parallel1 o x threads = Ok (prime_sum x).
Proof.
  intros HV Ht Hl Hx. apply DR_ok; auto; [left; eapply Z.lt_trans; [apply Hx|reflexivity]|]. intros n c Hn _. now apply window_next.
Qed.

(** the second failing argument *)
Lemma phi_sum_128_wrong6_next : exists r, phi_sum_128 (first_bad + 1) 6 = Ok r /\ sval r = phi_sum (first_bad + 1) 6 + 2 ^ 128.
Proof.
  eexists. split; [vm_compute; reflexivity|].
  change 6 with (zlen [13; 11; 7; 5; 3; 2]). rewrite (phi_sum_list_ok _ down_6) by discriminate. vm_compute. reflexivity.
Qed.
Theorem DR_wrong_next o threads : valid_dr o (first_bad + 1) -> 1 <= threads < 2 ^ 31 -> first_bad + 1 <= dr_limit o ->
  pi_deleglise_rivat_parallel1 o (first_bad + 1) threads = Ok (prime_sum (first_bad + 1) + 2 ^ 128).
Proof.
  intros HV Hth Hlim.
  destruct (DR_gen o (first_bad + 1) threads (fun E => E = 2 ^ 128) HV Hth ltac:(discriminate) Hlim ltac:(left; reflexivity)) as (E & -> & R).
  2:{ rewrite ps_wrap_err in R; [exact R|split; [discriminate|reflexivity]|split; discriminate]. }
  intros y Hy Hyx. exists (2 ^ 128). split; auto. pose proof HV as ((_ & _ & _ & _ & HS) & _).
  assert (13 <= y).
  { assert (12 < y + 1). { apply cube_lt; [lia|lia|]. eapply Z.lt_trans; [|apply Hyx]. reflexivity. }
    destruct (Z.eq_dec y 12) as [->|]; [|lia]. exfalso. destruct Hyx as [_ H3]. revert H3. vm_compute. discriminate. }
  pose proof (pi_mono 13 y ltac:(lia)) as M. change (pi 13) with 6 in M. replace (Z.min 6 (pi y)) with 6 by lia.
  apply S1_ok_err; [exact HS| | | | |].
  - split; reflexivity.
  - split; [lia|]. apply (y_small (first_bad + 1)); [lia|lia|reflexivity].
  - pose proof (c_small 13) as C. replace (Z.min 6 (pi 13)) with 6 in C by (vm_compute; reflexivity). split; [lia|apply C].
  - destruct phi_sum_128_wrong6_next as (r & E & V). unfold phi_sum_X. change (128 =? 64) with false. cbv iota. rewrite E, bind_Ok. exact (f_equal (@Ok Z) V).
  - intros n Hn. apply window_free_small. apply Z.div_lt_upper_bound; [lia|]. assert (1 < first_bad) by reflexivity. nia.
Qed.

(** up to twice the first failing argument there are exactly two failing ones *)
Theorem DR_exactly o x threads : valid_dr o x -> 1 <= threads < 2 ^ 31 -> x <= dr_limit o -> x < 2 * first_bad ->
  (pi_deleglise_rivat_parallel1 o x threads = Ok (prime_sum x) <-> x <> first_bad /\ x <> first_bad + 1).
Proof.
  intros HV Ht Hl Hx. assert (K : forall p, Ok (p + 2 ^ 128) <> Ok p).
  { intros p E. injection E. intros F. assert (0 < 2 ^ 128) by reflexivity. lia. }
  split.
  - intros E. split; intros ->.
    + rewrite DR_wrong in E by auto. exact (K _ E).
    + rewrite DR_wrong_next in E by auto. exact (K _ E).
  - intros [N1 N2]. destruct (Z.lt_ge_cases x first_bad) as [L|G]; [|apply DR_next; auto; lia].
    apply DR_ok; auto; [left; eapply Z.lt_trans; [exact L|reflexivity]|].
    intros n c Hn _. apply window_free_small. destruct (Z.lt_ge_cases x 0) as [X|X].
    + assert (x / n < 0) by (apply Z.div_lt_upper_bound; lia). assert (0 < first_bad) by reflexivity. lia.
    + apply Z.div_lt_upper_bound; [lia|]. nia.
Qed.

(** The limit keeps z below 2^62: alpha = p/q; [limit] is pow(2^61 * alpha, 3/2) and y is
    iroot<3>(x) * alpha, both up to a relative error of 1/1000 and truncation. *)
Theorem limit_z x p q r3 y limit : 2 <= x <= limit -> 0 < q <= p -> is_root 3 r3 x ->
  1000 * limit ^ 2 * q ^ 3 <= 1001 * 2 ^ 183 * p ^ 3 -> 1000 * (r3 * p) <= 1001 * ((y + 1) * q) -> r3 <= y ->
  0 <= x / y < 2 ^ 62.
Proof.
  intros Hx Hq (A0 & A1 & A2) HL HY Hr. assert (1 <= r3). { destruct (Z.eq_dec r3 0) as [->|]; [|lia]. change ((0 + 1) ^ 3) with 1 in A2. lia. }
  split; [apply Z.div_pos; lia|]. apply Z.div_lt_upper_bound; [lia|]. destruct (Z.lt_ge_cases x (y * 2 ^ 62)) as [|G]; auto. exfalso.
  assert (X62 : 2 ^ 62 <= x) by nia.
  assert (R : 1000000 <= r3). { assert (1000000 < r3 + 1); [|lia]. apply cube_lt; [lia|lia|]. eapply Z.lt_trans; [|exact A2]. eapply Z.lt_le_trans; [|exact X62]. reflexivity. }
  assert (I1 : 1000 * (r3 + 1) <= 1001 * r3) by lia. assert (I2 : 1000 * (y + 1) <= 1001 * y) by lia.
  (* p * r3 <= k (y * q), k = (1001/1000)^2 *)
  assert (I3 : 1000000 * (r3 * p) <= 1002001 * (y * q)) by nia.
  assert (C3 : (1000000 * (r3 * p)) ^ 3 <= (1002001 * (y * q)) ^ 3) by (apply Z.pow_le_mono_l; nia).
  assert (CX : 1000000000 * x <= 1003003001 * r3 ^ 3).
  { assert ((1000 * (r3 + 1)) ^ 3 <= (1001 * r3) ^ 3) by (apply Z.pow_le_mono_l; lia).
    replace ((1000 * (r3 + 1)) ^ 3) with (1000000000 * (r3 + 1) ^ 3) in * by ring. replace ((1001 * r3) ^ 3) with (1003003001 * r3 ^ 3) in * by ring. lia. }
  assert (LX : 1000 * x ^ 2 * q ^ 3 <= 1001 * 2 ^ 183 * p ^ 3).
  { eapply Z.le_trans; [|exact HL]. apply Z.mul_le_mono_nonneg_r; [apply Z.pow_nonneg; lia|]. apply Z.mul_le_mono_nonneg_l; [lia|]. apply Z.pow_le_mono_l. lia. }
  assert (Q3 : 0 < q ^ 3) by (apply Z.pow_pos_nonneg; lia). assert (P3 : 0 < p ^ 3) by (apply Z.pow_pos_nonneg; lia). assert (R3 : 0 < r3 ^ 3) by (apply Z.pow_pos_nonneg; lia).
  assert (Y3 : 0 < y ^ 3) by (apply Z.pow_pos_nonneg; lia).
  replace ((1000000 * (r3 * p)) ^ 3) with (10 ^ 18 * (r3 ^ 3 * p ^ 3)) in C3 by ring.
  replace ((1002001 * (y * q)) ^ 3) with (1002001 ^ 3 * (y ^ 3 * q ^ 3)) in C3 by ring.
  (* multiply LX by r3^3 and use C3 *)
  assert (S1 : 1000 * x ^ 2 * q ^ 3 * r3 ^ 3 <= 1001 * 2 ^ 183 * (r3 ^ 3 * p ^ 3)). { replace (1001 * 2 ^ 183 * (r3 ^ 3 * p ^ 3)) with (1001 * 2 ^ 183 * p ^ 3 * r3 ^ 3) by ring. apply Z.mul_le_mono_nonneg_r; [lia|exact LX]. }
  assert (S2 : 10 ^ 18 * (1000 * x ^ 2 * q ^ 3 * r3 ^ 3) <= 1001 * 2 ^ 183 * (1002001 ^ 3 * (y ^ 3 * q ^ 3))).
  { transitivity (1001 * 2 ^ 183 * (10 ^ 18 * (r3 ^ 3 * p ^ 3))).
    - replace (1001 * 2 ^ 183 * (10 ^ 18 * (r3 ^ 3 * p ^ 3))) with (10 ^ 18 * (1001 * 2 ^ 183 * (r3 ^ 3 * p ^ 3))) by ring. apply Z.mul_le_mono_nonneg_l; [discriminate|exact S1].
    - apply Z.mul_le_mono_nonneg_l; [discriminate|exact C3]. }
  assert (S3 : 10 ^ 18 * (1000 * x ^ 2 * r3 ^ 3) <= 1001 * 2 ^ 183 * (1002001 ^ 3 * y ^ 3)).
  { apply (Z.mul_le_mono_pos_r _ _ (q ^ 3)); [exact Q3|]. eapply Z.le_trans; [|eapply Z.le_trans; [exact S2|]]; apply Z.eq_le_incl; ring. }
  assert (S4 : 10 ^ 18 * 1000 * (10 ^ 9 * x ^ 3) <= 1003003001 * (1001 * 2 ^ 183 * (1002001 ^ 3 * y ^ 3))).
  { transitivity (10 ^ 18 * 1000 * (x ^ 2 * (1003003001 * r3 ^ 3))).
    - apply Z.mul_le_mono_nonneg_l; [discriminate|]. replace (10 ^ 9 * x ^ 3) with (x ^ 2 * (1000000000 * x)) by ring. apply Z.mul_le_mono_nonneg_l; [apply Z.pow_nonneg; lia|exact CX].
    - replace (10 ^ 18 * 1000 * (x ^ 2 * (1003003001 * r3 ^ 3))) with (1003003001 * (10 ^ 18 * (1000 * x ^ 2 * r3 ^ 3))) by ring. apply Z.mul_le_mono_nonneg_l; [discriminate|exact S3]. }
  assert (S5 : (y * 2 ^ 62) ^ 3 <= x ^ 3) by (apply Z.pow_le_mono_l; nia).
  replace ((y * 2 ^ 62) ^ 3) with (2 ^ 186 * y ^ 3) in S5 by (replace (2 ^ 186) with ((2 ^ 62) ^ 3) by reflexivity; ring).
  assert (K : 1003003001 * 1001 * 2 ^ 183 * 1002001 ^ 3 < 10 ^ 18 * 1000 * 10 ^ 9 * 2 ^ 186) by reflexivity.
  remember (y ^ 3) as Y. remember (x ^ 3) as X. clear - S4 S5 K Y3. nia.
Qed.

Lemma DR_below_2 o x threads : x < 2 -> pi_ o x threads = Ok 0.
Proof. intros. unfold pi_, pi_deleglise_rivat, pi_deleglise_rivat_parallel1. destruct (Z.ltb_spec x 2); [reflexivity|lia]. Qed.

Lemma DR_succeeds o x threads : valid_dr o x -> 1 <= threads < 2 ^ 31 -> dr_range o x -> x <= dr_limit o -> exists v, pi_ o x threads = Ok v.
Proof.
  intros HV Ht Hx Hl. destruct (Z.lt_ge_cases x 2); [exists 0; now apply DR_below_2|].
  destruct (DR_total o x threads HV Ht) as (r3 & r6 & _ & _ & E); auto. eexists. exact E.
Qed.

Lemma DR_outcome o x threads : valid_dr o x -> 1 <= threads < 2 ^ 31 -> dr_range o x -> (exists v, pi_ o x threads = Ok v) \/ pi_ o x threads = Fail Throw.
Proof.
  intros HV Ht Hx. destruct (Z.le_gt_cases x (dr_limit o)); [left; now apply DR_succeeds|].
  destruct (Z.lt_ge_cases x 2); [left; exists 0; now apply DR_below_2|right]. assert (2 ^ 108 < tmax i128) by reflexivity. pose proof (dr_range_x o x HV Hx).
  apply DR_throw; [apply HV|lia|lia].
Qed.

Lemma DR_no_UB o x threads : valid_dr o x -> 1 <= threads < 2 ^ 31 -> dr_range o x -> pi_ o x threads <> Fail UB.
Proof. intros HV Ht Hx. destruct (DR_outcome o x threads HV Ht Hx) as [(v & ->)| ->]; discriminate. Qed.

(** the same environment with other measurements in the load balancers of P2 and S2_hard *)
Definition with_measurements (o : dr_oracles) (speed : Z -> comparison) (ob : Z -> lb_obs) : dr_oracles :=
  let b := dr_base o in
  {| dr_base := {| o_root := o_root b; o_leg := o_leg b; o_p2leg := o_p2leg b; o_p2speed := speed; o_p2sched := o_p2sched b; o_s1sched := o_s1sched b |}; dr_root6 := dr_root6 o; dr_y := dr_y o; dr_limit := dr_limit o; dr_triv := dr_triv o; dr_easy := dr_easy o;
     dr_easy_root := dr_easy_root o; dr_easy_sched := dr_easy_sched o;
     dr_hard := {| ho_order := ho_order (dr_hard o); ho_few := ho_few (dr_hard o); ho_size := ho_size (dr_hard o); ho_leaf := ho_leaf (dr_hard o); ho_obs := ob; ho_sched := ho_sched (dr_hard o) |} |}.

Lemma DR_measurements o sp ob x threads : valid_dr o x -> valid_dr (with_measurements o sp ob) x -> 1 <= threads < 2 ^ 31 -> dr_range o x ->
  pi_ (with_measurements o sp ob) x threads = pi_ o x threads /\ pi_ o x threads <> Fail Fuel.
Proof.
  intros HV HV2 Ht Hx. split; [now apply DR_indep|]. destruct (DR_outcome o x threads HV Ht Hx) as [(v & ->)| ->]; discriminate.
Qed.

Lemma alpha_range x r3 r6 p q : 0 <= r3 -> 0 < q -> q <= p <= r6 * q -> is_root 3 r3 x -> is_root 6 r6 x -> r3 <= r3 * p / q <= r3 * r6.
Proof.
  intros H3 Hq Hp _ _. split.
  - apply Z.div_le_lower_bound; [lia|nia].
  - apply Z.div_le_upper_bound; [lia|nia].
Qed.
