(** The complete computations with y, the load balancer and smallest_hard_leaf_ computed
    from doubles. *)
From Coq Require Import ZArith List Bool Lia Permutation.
From Flocq Require Import IEEE754.BinarySingleNaN.
From Verif.Base Require Import Res Word Zl IType Par.
From Verif.Spec Require Import Primes PhiSumSpec LMOSpec.
From Verif.Model Require Import Double Imath S2LoadBalancer S2Hard Oracles LMO LMOParallel DelegliseRivat Tuning.
From Verif.Proofs Require Import Primes Imath Phi PhiSum LMO1 S2 S2LoadBalancer S2Hard DelegliseRivat LMO25 LMOPar Tuning.
Import ListNotations.
Open Scope Z_scope.
Local Ltac Zify.zify_post_hook ::= idtac.

(** The environment apart from what is computed from doubles: the schedules of the parallel
    loops, the estimates of the roots *)
Definition valid_rest (o : dr_oracles) : Prop :=
  valid_oracles (dr_base o) /\ 0 <= dr_root6 o <= 2 ^ 22 /\
  valid_sched (dr_triv o) /\ valid_sched (dr_easy_sched o) /\ 0 <= dr_easy_root o <= 2 ^ 43 /\ variant_ok (dr_easy o) /\
  (forall n, 1 <= n -> Permutation (ho_order (dr_hard o) n) (zrange 0 n)) /\ forall r, valid_sched (ho_sched (dr_hard o) r).
Definition valid_rest_lmo (o : lmo_oracles) : Prop := valid_oracles (lo_base o) /\ 0 <= lo_root6 o <= 2 ^ 22 /\ 0 <= lo_root3 o <= 2 ^ 21.
Definition valid_rest_par (o : par_oracles) : Prop := valid_rest_lmo (po_lmo o) /\ forall r, valid_sched (po_sched o r).

Lemma roots_pos x r3 r6 : 2 <= x -> is_root 3 r3 x -> is_root 6 r6 x -> 1 <= r3 /\ 1 <= r6.
Proof.
  intros Hx (A0 & A1 & A2) (B0 & B1 & B2). split.
  - destruct (Z.eq_dec r3 0) as [->|]; [|lia]. change ((0 + 1) ^ 3) with 1 in A2. lia.
  - destruct (Z.eq_dec r6 0) as [->|]; [|lia]. change ((0 + 1) ^ 6) with 1 in B2. lia.
Qed.
Lemma roots_53 x r3 r6 : 2 <= x < 2 ^ 106 -> is_root 3 r3 x -> is_root 6 r6 x -> r3 * r6 <= 2 ^ 53.
Proof.
  intros Hx R3 R6. destruct (roots_pos x r3 r6 ltac:(lia) R3 R6) as [P3 P6]. destruct (y_range x r3 r6 (r3 * r6) ltac:(lia) R3 R6 ltac:(nia)) as (Hy & Hyx & _).
  destruct (Z.le_gt_cases (r3 * r6) (2 ^ 53)) as [|G]; auto. exfalso. assert (2 ^ 53 * 2 ^ 53 <= r3 * r6 * (r3 * r6)) by (apply Z.mul_le_mono_nonneg; lia).
  assert (2 ^ 53 * 2 ^ 53 = 2 ^ 106) by reflexivity. lia.
Qed.
Lemma roots_quot x r3 r6 : 2 <= x < 2 ^ 106 -> is_root 3 r3 x -> is_root 6 r6 x -> x <= r3 * r6 * 2 ^ 60.
Proof.
  intros Hx R3 R6. destruct (roots_pos x r3 r6 ltac:(lia) R3 R6) as [P3 P6]. destruct R3 as (A0 & A1 & A2), R6 as (B0 & B1 & B2).
  destruct (Z.le_gt_cases x (r3 * r6 * 2 ^ 60)) as [|G]; auto. exfalso.
  assert (X3 : x <= 8 * r3 ^ 3). { replace (8 * r3 ^ 3) with ((2 * r3) ^ 3) by ring. assert ((r3 + 1) ^ 3 <= (2 * r3) ^ 3) by (apply Z.pow_le_mono_l; lia). lia. }
  assert (X6 : x <= 64 * r6 ^ 6). { replace (64 * r6 ^ 6) with ((2 * r6) ^ 6) by ring. assert ((r6 + 1) ^ 6 <= (2 * r6) ^ 6) by (apply Z.pow_le_mono_l; lia). lia. }
  assert (Q1 : x * x * x <= 2 ^ 12 * (r3 * r6) ^ 6).
  { replace (2 ^ 12 * (r3 * r6) ^ 6) with (8 * r3 ^ 3 * (8 * r3 ^ 3) * (64 * r6 ^ 6)) by ring. apply Z.mul_le_mono_nonneg; try nia. }
  assert (Q2 : (r3 * r6 * 2 ^ 60) ^ 6 <= x ^ 6) by (apply Z.pow_le_mono_l; nia).
  assert (Q3 : 2 ^ 348 * (x * x * x) <= x ^ 6).
  { apply Z.le_trans with (2 := Q2). replace ((r3 * r6 * 2 ^ 60) ^ 6) with (2 ^ 348 * (2 ^ 12 * (r3 * r6) ^ 6)) by (rewrite !Z.pow_mul_l; change ((2 ^ 60) ^ 6) with (2 ^ 348 * 2 ^ 12); ring).
    apply Z.mul_le_mono_nonneg_l; [discriminate|exact Q1]. }
  assert (Q4 : x ^ 6 = x * x * x * (x * x * x)) by ring. assert (Q5 : 0 < x * x * x) by nia.
  assert (Q6 : 2 ^ 348 <= x * x * x) by nia.
  assert (x * x * x <= 2 ^ 106 * 2 ^ 106 * 2 ^ 106). { apply Z.mul_le_mono_nonneg; try nia. }
  assert (2 ^ 106 * 2 ^ 106 * 2 ^ 106 < 2 ^ 348) by reflexivity. lia.
Qed.

(** y, for every alpha except NaN *)
Lemma tuned_dr m user x r3 r6 : 2 <= x < 2 ^ 106 -> is_root 3 r3 x -> is_root 6 r6 x -> libm_ok m x -> is_nan user = false ->
  exists y, tuned_y r3 (get_alpha_deleglise_rivat m user x r6) = Ok y /\ r3 <= y <= r3 * r6.
Proof.
  intros Hx R3 R6 HM HN. destruct (roots_pos x r3 r6 ltac:(lia) R3 R6) as [P3 P6]. pose proof (roots_53 x r3 r6 Hx R3 R6).
  apply tuned_y_ok; [lia|lia|lia|]. apply alpha_dr_ok; auto. nia.
Qed.
Lemma tuned_lmo m user x r3 r6 : 2 <= x < 2 ^ 106 -> is_root 3 r3 x -> is_root 6 r6 x -> libm_ok m x -> is_nan user = false ->
  exists y, tuned_y r3 (get_alpha_lmo m user x r6) = Ok y /\ r3 <= y <= r3 * r6.
Proof.
  intros Hx R3 R6 HM HN. destruct (roots_pos x r3 r6 ltac:(lia) R3 R6) as [P3 P6]. pose proof (roots_53 x r3 r6 Hx R3 R6).
  apply tuned_y_ok; [lia|lia|lia|]. apply alpha_lmo_ok; auto. nia.
Qed.
Lemma leaf_ok x y r3 r6 : 2 <= x < 2 ^ 106 -> is_root 3 r3 x -> is_root 6 r6 x -> r3 <= y <= r3 * r6 -> exists v, lbf_leaf x y r3 r6 = Ok v /\ 0 <= v <= 2 ^ 60.
Proof.
  intros Hx R3 R6 Hy. destruct (roots_pos x r3 r6 ltac:(lia) R3 R6) as [P3 P6]. pose proof (roots_53 x r3 r6 Hx R3 R6). pose proof (roots_quot x r3 r6 Hx R3 R6).
  apply lbf_leaf_ok; lia.
Qed.

(** *** Deleglise-Rivat *)
Theorem measured_valid e o x threads : valid_rest o -> libm_ok (me_libm e) x -> is_nan (me_alpha e) = false ->
  2 <= x < 2 ^ 88 -> x <= dr_limit o -> exists o', valid_dr o' x /\ dr_limit o' = dr_limit o /\ pi_measured e o x threads = pi_ o' x threads.
Proof.
  intros (HO & HR6 & HT & HE & HER & HV & HP & HS) HM HN Hx Hl. pose proof HO as (HO1 & _).
  assert (C1 : 2 ^ 88 < 2 ^ 106) by reflexivity. assert (C2 : 2 ^ 106 < 2 ^ 127 - 1) by reflexivity. assert (T1 : tmax i128 = 2 ^ 127 - 1) by reflexivity. assert (C3 : 2 ^ 106 < 2 ^ 122) by reflexivity.
  unfold pi_measured. destruct (Z.ltb_spec x 2); [lia|].
  destruct (iroot_widths i128 6) as (W1 & W2 & W3); [cbn; tauto|cbn; tauto|].
  destruct (iroot_all i128 6 (dr_root6 o) x W1 W2 W3) as (r6 & E6 & Hr6); [lia|change ((tdigits i128 + 6 - 1) / 6) with 22; lia|].
  rewrite E6, bind_Ok. rewrite Z.gtb_ltb. destruct (Z.ltb_spec (dr_limit o) x); [lia|].
  destruct (iroot3_bounds x (o_root (dr_base o))) as (r3 & E3 & Hr3); [lia|lia|]. rewrite E3, bind_Ok.
  destruct (tuned_dr (me_libm e) (me_alpha e) x r3 r6 ltac:(lia) Hr3 Hr6 HM HN) as (y & -> & Hy). rewrite bind_Ok.
  destruct (leaf_ok x y r3 r6 ltac:(lia) Hr3 Hr6 Hy) as (leaf & -> & _). rewrite bind_Ok.
  match goal with |- exists o', _ /\ _ /\ pi_ ?o1 _ _ = _ => exists o1 end. split; [|split; reflexivity].
  unfold valid_dr. cbn [dr_base dr_root6 dr_triv dr_easy dr_easy_root dr_easy_sched dr_y dr_hard].
  repeat (split; [assumption|]). intros a3 a6 A3 A6. rewrite (root_unique 3 a3 r3 x), (root_unique 6 a6 r6 x) by (auto; lia). split; [exact Hy|].
  pose proof (z_bound59 x r3 y ltac:(lia) Hr3 ltac:(lia)) as Hz. assert (Z.sqrt (x / y) < 2 ^ 32) by (apply Z.sqrt_lt_square; lia). pose proof (Z.sqrt_nonneg (x / y)).
  unfold oracles_ok, hard_measured. cbn [ho_order ho_size ho_obs ho_sched]. split; [exact HP|]. split.
  - unfold lbf_first_size. match goal with |- context [lbf_size ?s ?d] => destruct (lbf_size_ok s d) as (v & -> & V); [lia|] end. exact V.
  - split; [|exact HS]. intros r. apply lbf_obs_ok. lia.
Qed.

Theorem measured_ok e o x threads : valid_rest o -> libm_ok (me_libm e) x -> is_nan (me_alpha e) = false -> 1 <= threads < 2 ^ 31 -> x <= dr_limit o -> x < 2 ^ 88 ->
  (forall n c, 1 <= n -> 0 <= c <= 6 -> window_free (x / n) c) -> pi_measured e o x threads = Ok (prime_sum x).
Proof.
  intros HV HM HN Ht Hl Hx HW. destruct (Z.lt_ge_cases x 2) as [L|G].
  - unfold pi_measured. destruct (Z.ltb_spec x 2); [|lia]. now rewrite prime_sum_small by lia.
  - destruct (measured_valid e o x threads HV HM HN ltac:(lia) Hl) as (o' & V & E & ->). apply DR_ok; auto; [now rewrite E|now left].
Qed.

(** alpha_ = NaN (through set_alpha, or "--alpha=nan" where the standard library reads it): the
    conversion of line 66 is undefined *)
Theorem measured_nan e o x threads : valid_rest o -> me_alpha e = d_nan -> 2 <= x < 2 ^ 88 -> x <= dr_limit o -> pi_measured e o x threads = Fail UB.
Proof.
  intros (HO & HR6 & _) HN Hx Hl. pose proof HO as (HO1 & _).
  assert (C1 : 2 ^ 88 < 2 ^ 106) by reflexivity. assert (C2 : 2 ^ 106 < 2 ^ 127 - 1) by reflexivity. assert (T1 : tmax i128 = 2 ^ 127 - 1) by reflexivity. assert (C3 : 2 ^ 106 < 2 ^ 122) by reflexivity.
  unfold pi_measured. destruct (Z.ltb_spec x 2); [lia|].
  destruct (iroot_widths i128 6) as (W1 & W2 & W3); [cbn; tauto|cbn; tauto|].
  destruct (iroot_all i128 6 (dr_root6 o) x W1 W2 W3) as (r6 & E6 & Hr6); [lia|change ((tdigits i128 + 6 - 1) / 6) with 22; lia|].
  rewrite E6, bind_Ok. rewrite Z.gtb_ltb. destruct (Z.ltb_spec (dr_limit o) x); [lia|].
  destruct (iroot3_bounds x (o_root (dr_base o))) as (r3 & E3 & Hr3); [lia|lia|]. rewrite E3, bind_Ok. rewrite HN.
  now rewrite (proj1 (tuned_y_nan (me_libm e) x r3 r6)).
Qed.

(** *** Lagarias-Miller-Odlyzko *)
Theorem lmo_measured_valid f e o x : valid_rest_lmo o -> libm_ok (me_libm e) x -> is_nan (me_alpha e) = false -> 2 <= x < 2 ^ 62 ->
  exists o', valid_lmo o' x /\ lmo_measured f e o x = f o' x.
Proof.
  intros (HO & HR6 & HR3) HM HN Hx.
  assert (C1 : 2 ^ 62 < 2 ^ 106) by reflexivity. assert (C2 : 2 ^ 106 < 2 ^ 127 - 1) by reflexivity. assert (T1 : tmax i128 = 2 ^ 127 - 1) by reflexivity. assert (C3 : 2 ^ 106 < 2 ^ 122) by reflexivity.
  assert (T2 : tmax i64 = 2 ^ 63 - 1) by reflexivity.
  unfold lmo_measured. destruct (Z.ltb_spec x 2); [lia|].
  destruct (iroot_widths i128 6) as (W1 & W2 & W3); [cbn; tauto|cbn; tauto|].
  destruct (iroot_all i128 6 (lo_root6 o) x W1 W2 W3) as (r6 & E6 & R6); [lia|change ((tdigits i128 + 6 - 1) / 6) with 22; lia|]. rewrite E6, bind_Ok.
  destruct (iroot_widths i64 3) as (U1 & U2 & U3); [cbn; tauto|cbn; tauto|].
  destruct (iroot_all i64 3 (lo_root3 o) x U1 U2 U3) as (r3 & E3 & R3); [lia|change ((tdigits i64 + 3 - 1) / 3) with 21; lia|]. rewrite E3, bind_Ok.
  destruct (tuned_lmo (me_libm e) (me_alpha e) x r3 r6 ltac:(lia) R3 R6 HM HN) as (y & -> & Hy). rewrite bind_Ok.
  match goal with |- exists o', _ /\ f ?o1 _ = _ => exists o1 end. split; [|reflexivity].
  unfold valid_lmo. cbn [lo_base lo_root6 lo_root3 lo_y]. repeat (split; [assumption|]). intros a3 a6 A3 A6.
  rewrite (root_unique 3 a3 r3 x), (root_unique 6 a6 r6 x) by (auto; lia). cbv zeta. split; [exact Hy|]. apply (lmo_y_range x y r3 r6); auto; lia.
Qed.
Theorem par_measured_valid e o x threads : valid_rest_par o -> libm_ok (me_libm e) x -> is_nan (me_alpha e) = false -> 2 <= x < 2 ^ 62 ->
  exists o', valid_par o' x /\ par_measured e o x threads = pi_lmo_parallel1 o' x threads.
Proof.
  intros ((HO & HR6 & HR3) & HS) HM HN Hx.
  assert (C1 : 2 ^ 62 < 2 ^ 106) by reflexivity. assert (C2 : 2 ^ 106 < 2 ^ 127 - 1) by reflexivity. assert (T1 : tmax i128 = 2 ^ 127 - 1) by reflexivity. assert (C3 : 2 ^ 106 < 2 ^ 122) by reflexivity.
  unfold par_measured. destruct (Z.ltb_spec x 2); [lia|]. cbv zeta.
  destruct (iroot_widths i128 6) as (W1 & W2 & W3); [cbn; tauto|cbn; tauto|].
  destruct (iroot_all i128 6 (lo_root6 (po_lmo o)) x W1 W2 W3) as (r6 & E6 & R6); [lia|change ((tdigits i128 + 6 - 1) / 6) with 22; lia|]. rewrite E6, bind_Ok.
  destruct (iroot_widths i128 3) as (U1 & U2 & U3); [cbn; tauto|cbn; tauto|].
  destruct (iroot_all i128 3 (lo_root3 (po_lmo o)) x U1 U2 U3) as (r3 & E3 & R3); [lia|change ((tdigits i128 + 3 - 1) / 3) with 43; lia|]. rewrite E3, bind_Ok.
  destruct (tuned_lmo (me_libm e) (me_alpha e) x r3 r6 ltac:(lia) R3 R6 HM HN) as (y & -> & Hy). rewrite bind_Ok.
  destruct (leaf_ok x y r3 r6 ltac:(lia) R3 R6 Hy) as (leaf & -> & _). rewrite bind_Ok.
  match goal with |- exists o', _ /\ pi_lmo_parallel1 ?o1 _ _ = _ => exists o1 end. split; [|reflexivity].
  unfold valid_par, valid_lmo. cbn [po_lmo po_size po_obs po_sched lo_base lo_root6 lo_root3 lo_y].
  split; [|split; [exact HS|]].
  - repeat (split; [assumption|]). intros a3 a6 A3 A6.
    rewrite (root_unique 3 a3 r3 x), (root_unique 6 a6 r6 x) by (auto; lia). cbv zeta. split; [exact Hy|]. apply (lmo_y_range x y r3 r6); auto; lia.
  - intros a3 a6 A3 A6. cbv zeta. pose proof (par_z x r3 y ltac:(lia) R3 ltac:(lia)) as Hz. assert (Z.sqrt (x / y + 1) < 2 ^ 32) by (apply Z.sqrt_lt_square; [|lia|]; [|lia]; destruct (roots_pos x r3 r6 ltac:(lia) R3 R6); assert (0 <= x / y) by (apply Z.div_pos; lia); lia).
    pose proof (Z.sqrt_nonneg (x / y + 1)). split.
    + unfold lbf_first_size. match goal with |- context [lbf_size ?s ?d] => destruct (lbf_size_ok s d) as (v & -> & V); [lia|] end. exact V.
    + intros r. apply lbf_obs_ok. lia.
Qed.
Theorem lmo_measured_ok e o x : valid_rest_lmo o -> libm_ok (me_libm e) x -> is_nan (me_alpha e) = false -> x < 2 ^ 62 ->
  lmo_measured pi_lmo2 e o x = Ok (swrap 64 (prime_sum x)) /\ lmo_measured pi_lmo3 e o x = Ok (swrap 64 (prime_sum x)) /\
  lmo_measured pi_lmo4 e o x = Ok (swrap 64 (prime_sum x)) /\ lmo_measured pi_lmo5 e o x = Ok (swrap 64 (prime_sum x)).
Proof.
  intros HV HM HN Hx. assert (C : 2 ^ 62 < 2 ^ 63) by reflexivity. destruct (Z.lt_ge_cases x 2) as [L|G].
  - unfold lmo_measured. destruct (Z.ltb_spec x 2); [|lia]. rewrite prime_sum_small by lia. repeat split; reflexivity.
  - destruct (lmo_measured_valid pi_lmo2 e o x HV HM HN ltac:(lia)) as (o2 & V2 & ->). destruct (lmo_measured_valid pi_lmo3 e o x HV HM HN ltac:(lia)) as (o3 & V3 & ->).
    destruct (lmo_measured_valid pi_lmo4 e o x HV HM HN ltac:(lia)) as (o4 & V4 & ->). destruct (lmo_measured_valid pi_lmo5 e o x HV HM HN ltac:(lia)) as (o5 & V5 & ->).
    split; [exact (pi_lmo2_ok o2 x V2 ltac:(lia))|]. split; [exact (pi_lmo3_ok o3 x V3 ltac:(lia))|]. split; [exact (pi_lmo4_ok o4 x V4 ltac:(lia))|exact (pi_lmo5_ok o5 x V5 ltac:(lia))].
Qed.
Theorem par_measured_ok e o x threads : valid_rest_par o -> libm_ok (me_libm e) x -> is_nan (me_alpha e) = false -> x < 2 ^ 62 -> 1 <= threads < 2 ^ 31 ->
  par_measured e o x threads = Ok (prime_sum x).
Proof.
  intros HV HM HN Hx Ht. assert (C : 2 ^ 62 < 2 ^ 63) by reflexivity. destruct (Z.lt_ge_cases x 2) as [L|G].
  - unfold par_measured. destruct (Z.ltb_spec x 2); [|lia]. now rewrite prime_sum_small by lia.
  - destruct (par_measured_valid e o x threads HV HM HN ltac:(lia)) as (o' & V & ->). exact (pi_lmo_parallel1_ok o' x threads V ltac:(lia) Ht).
Qed.
