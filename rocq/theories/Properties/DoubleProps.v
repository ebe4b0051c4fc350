(** Properties C54 and C55: the parts computed with floating point numbers, in IEEE 754
    double precision arithmetic (Flocq).  These theorems use the axioms of the real numbers
    of the standard library. *)
From Coq Require Import ZArith List Bool Lia Reals Permutation.
From Flocq Require Import IEEE754.BinarySingleNaN.
From Verif.Base Require Import Res Word Zl IType Par.
From Verif.Spec Require Import Primes PhiSumSpec TilingSpec.
From Verif.Model Require Import Double Imath S2LoadBalancer S2Hard Oracles LMO LMOParallel DelegliseRivat Tuning.
From Verif.Proofs Require Import Double PhiSum LMO1 S2 S2LoadBalancer DelegliseRivat Tuning Measured.
From Verif.Properties Require Import PhiProps LMOProps DRProps.
Import ListNotations.
Open Scope Z_scope.

(** *** C54: for every value of alpha_ except NaN, finite or infinite, and every answer of
    log and pow that is finite and below 2^100, y lies between iroot<3>(x) and
    iroot<3>(x) * iroot<6>(x), and the conversion to int64_t is defined.
    Partial: x < 2^106; above it the claim is false (C54_y_refuted). *)
Theorem C54_y_partial : forall m user x r3 r6, 2 <= x < 2 ^ 106 -> is_root 3 r3 x -> is_root 6 r6 x -> libm_ok m x -> is_nan user = false ->
  (exists y, tuned_y r3 (get_alpha_deleglise_rivat m user x r6) = Ok y /\ r3 <= y <= r3 * r6) /\
  (exists y, tuned_y r3 (get_alpha_lmo m user x r6) = Ok y /\ r3 <= y <= r3 * r6).
Proof. intros m user x r3 r6 H1 H2 H3 H4 H5. exact (conj (tuned_dr m user x r3 r6 H1 H2 H3 H4 H5) (tuned_lmo m user x r3 r6 H1 H2 H3 H4 H5)). Qed.
(** r3 * r6 is rounded up here, y exceeds the square root of x *)
Theorem C54_y_refuted : exists user x r3 r6 y, is_root 3 r3 x /\ is_root 6 r6 x /\ is_nan user = false /\
  (forall m, tuned_y r3 (get_alpha_deleglise_rivat m user x r6) = Ok y) /\ r3 * r6 < y /\ x < y * y.
Proof.
  exists (d_of_Z (10 ^ 9)), (208067 ^ 6), (208067 ^ 2), 208067, (208067 ^ 3 + 1).
  split; [unfold is_root; vm_compute; intuition discriminate|]. split; [unfold is_root; vm_compute; intuition discriminate|].
  split; [vm_compute; reflexivity|]. split; [intros m; vm_compute; reflexivity|]. split; vm_compute; reflexivity.
Qed.
(** alpha_ = NaN is not rejected: neither comparison of in_between holds, the conversion of
    NaN to int64_t is undefined *)
Theorem C54_nan_refuted : forall m x r3 r6, tuned_y r3 (get_alpha_deleglise_rivat m d_nan x r6) = Fail UB /\ tuned_y r3 (get_alpha_lmo m d_nan x r6) = Fail UB.
Proof. exact tuned_y_nan. Qed.

Definition C54_libm : libm := {| m_log := fun _ => d_of_Z 7; m_pow := fun _ _ => d_of_Z 49 |}.
Example C54_libm_ok : forall x, libm_ok C54_libm x.
Proof.
  intros x. unfold libm_ok. cbn [m_log m_pow C54_libm]. assert (S : forall n, 0 <= n <= 100 -> small 100 (d_of_Z n)).
  { intros n Hn. destruct (of_Z_exact n) as [F E]; [assert (100 < 2 ^ 53) by reflexivity; lia|]. split; [exact F|]. rewrite E, <- abs_IZR. apply IZR_le. assert (100 < 2 ^ 100) by reflexivity. lia. }
  split; [apply S; lia|]. split; apply S; lia.
Qed.
Example C54_witness : is_root 3 100 1000000 /\ is_root 6 10 1000000 /\
  tuned_y 100 (get_alpha_deleglise_rivat C54_libm (d_lit 25 1) 1000000 10) = Ok 250 /\
  tuned_y 100 (get_alpha_deleglise_rivat C54_libm (d_inf false) 1000000 10) = Ok 1000 /\
  tuned_y 100 (get_alpha_lmo C54_libm (d_of_Z (-1)) 1000000 10) = Ok 100.
Proof. unfold is_root. vm_compute. intuition discriminate. Qed.

(** The complete computations, y, segment sizes and few_leaves being computed from doubles:
    nothing is assumed of the measured times (they may be NaN) nor, beyond libm_ok, of log and pow. *)
Theorem C54_pi_partial : forall e o x threads, valid_rest o -> libm_ok (me_libm e) x -> is_nan (me_alpha e) = false -> 1 <= threads < 2 ^ 31 ->
  x <= dr_limit o -> x < 52175271301331128848 -> pi_measured e o x threads = Ok (prime_sum x).
Proof.
  intros e o x threads HV HM HN Ht Hl Hx. apply measured_ok; auto; [eapply Z.lt_trans; [exact Hx|reflexivity]|].
  intros n c Hn _. apply window_free_small. unfold first_bad.
  destruct (Z.le_gt_cases 0 x).
  - assert (x / n <= x) by (apply Z.div_le_upper_bound; nia). lia.
  - assert (x / n < 0) by (apply Z.div_lt_upper_bound; lia). lia.
Qed.
Theorem C54_pi_window_partial : forall e o x threads, valid_rest o -> libm_ok (me_libm e) x -> is_nan (me_alpha e) = false -> 1 <= threads < 2 ^ 31 ->
  x <= dr_limit o -> x < 2 ^ 88 -> (forall n c, 1 <= n -> 0 <= c <= 6 -> window_free (x / n) c) -> pi_measured e o x threads = Ok (prime_sum x).
Proof. exact measured_ok. Qed.
Theorem C54_lmo_partial : forall e o x, valid_rest_lmo o -> libm_ok (me_libm e) x -> is_nan (me_alpha e) = false -> x < 2 ^ 62 ->
  lmo_measured pi_lmo2 e o x = Ok (swrap 64 (prime_sum x)) /\ lmo_measured pi_lmo3 e o x = Ok (swrap 64 (prime_sum x)) /\
  lmo_measured pi_lmo4 e o x = Ok (swrap 64 (prime_sum x)) /\ lmo_measured pi_lmo5 e o x = Ok (swrap 64 (prime_sum x)).
Proof. exact lmo_measured_ok. Qed.
Theorem C54_lmo_parallel1_partial : forall e o x threads, valid_rest_par o -> libm_ok (me_libm e) x -> is_nan (me_alpha e) = false -> x < 2 ^ 62 -> 1 <= threads < 2 ^ 31 ->
  par_measured e o x threads = Ok (prime_sum x).
Proof. exact par_measured_ok. Qed.
Theorem C54_pi_nan_refuted : forall e o x threads, valid_rest o -> me_alpha e = d_nan -> 2 <= x < 2 ^ 88 -> x <= dr_limit o -> pi_measured e o x threads = Fail UB.
Proof. exact measured_nan. Qed.

(** an environment whose clock reports NaN, an infinity and zero *)
Definition C54_env (user : double) : measured :=
  {| me_libm := C54_libm; me_alpha := user; me_timings := fun r => if Z.odd r then [d_nan; d_inf false] else [d_of_Z 0; d_lit 3 1] |}.
Example C54_witness_rest : forall big lib, valid_rest (DR_o big lib) /\ valid_rest_lmo (C02_lmo_oracles big).
Proof.
  intros big lib. destruct (C01_witness_oracles big lib 2) as (H1 & H2 & H3 & H4 & H5 & H6 & H7). split.
  - repeat (split; [assumption|]). destruct (H7 1 1) as (_ & A & _ & _ & B); [unfold is_root; vm_compute; intuition discriminate|unfold is_root; vm_compute; intuition discriminate|]. exact (conj A B).
  - split; [exact C02_witness_oracles|]. split; split; discriminate.
Qed.
Example C54_witness_pi : pi_measured (C54_env (d_lit 25 1)) (DR_o true true) 1000 3 = Ok 76127.
Proof.
  rewrite C54_pi_partial; [apply (f_equal Ok), C02_sum_1000|apply C54_witness_rest|apply C54_libm_ok|vm_compute; reflexivity|lia|discriminate|reflexivity].
Qed.
Example C54_witness_lmo5 : lmo_measured pi_lmo5 (C54_env (d_of_Z (-1))) (C02_lmo_oracles false) 1000 = Ok 76127.
Proof.
  destruct (C54_lmo_partial (C54_env (d_of_Z (-1))) (C02_lmo_oracles false) 1000) as (_ & _ & _ & ->);
    [apply (C54_witness_rest false false)|apply C54_libm_ok|vm_compute; reflexivity|reflexivity|]. rewrite C02_sum_1000. reflexivity.
Qed.
Print Assumptions C54_y_partial. Print Assumptions C54_y_refuted. Print Assumptions C54_nan_refuted. Print Assumptions C54_pi_partial. Print Assumptions C54_pi_window_partial.
Print Assumptions C54_lmo_partial. Print Assumptions C54_lmo_parallel1_partial. Print Assumptions C54_pi_nan_refuted.

(** *** C55: whatever was measured and whatever log answers, also NaN and infinities, the
    conversions of the load balancer are defined and stay in their ranges *)
Theorem C55_size : forall sqrtz divisor, 0 <= sqrtz <= 2 ^ 53 -> exists v, lbf_size sqrtz divisor = Ok v /\ 0 <= v <= sqrtz.
Proof. exact lbf_size_ok. Qed.
Theorem C55_segments : forall pivot rsd s, 1 <= s <= 2 ^ 53 -> exists v, lbf_segments pivot rsd s = Ok v /\ 1 <= v <= 2 * s.
Proof. exact lbf_segments_ok. Qed.
Theorem C55_leaf : forall x y r3 r6, 2 <= x < 2 ^ 106 -> is_root 3 r3 x -> is_root 6 r6 x -> r3 <= y <= r3 * r6 -> exists v, lbf_leaf x y r3 r6 = Ok v /\ 0 <= v <= 2 ^ 60.
Proof. exact leaf_ok. Qed.
(** hence the intervals of the threads tile [1, limit) *)
Theorem C55_plan : forall m x y z leaf threads timings limit, 0 <= z < 2 ^ 64 -> 1 <= limit <= 2 ^ 60 -> exists plan,
  (size <- lbf_first_size m x (Z.sqrt z) ;; min_size <- lb_min_size size ;;
   lb_plan (Z.sqrt z) leaf (lbf_obs m y (Z.sqrt z) threads timings) limit threads min_size) = Ok plan /\
  tiles 1 limit (concat (map snd plan)) /\ Forall (round_ok limit) plan.
Proof. exact lbf_plan_ok. Qed.
Example C55_witness : lbf_segments d_nan (d_of_Z 1) 10 = Ok 1 /\ lbf_segments (d_inf false) (d_of_Z 1) 10 = Ok 20 /\
  lbf_size 100 d_nan = Ok 100 /\ lbf_size 100 (d_inf false) = Ok 0 /\ lbf_leaf 1000000 300 100 10 = Ok 192 /\
  (let o := lbf_obs C54_libm 100 100 4 (fun k => [d_of_Z k; d_lit 3 1; d_lit 1 2]) 3 in (ob_increase o, ob_decrease o, ob_fast o, ob_segments o 10, ob_size o)) = (false, true, false, 9, 14).
Proof. vm_compute. intuition reflexivity. Qed.
Print Assumptions C55_size. Print Assumptions C55_segments. Print Assumptions C55_leaf. Print Assumptions C55_plan.
