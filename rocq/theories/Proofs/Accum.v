(** The arithmetic of the result types is exact as long as the results fit. *)
From Coq Require Import ZArith List Bool Lia Permutation.
From Verif.Base Require Import Res Word Zl Par.
From Verif.Spec Require Import IntSpec.
From Verif.Model Require Import Int256 Accum.
From Verif.Proofs Require Import Int256 Int256c.
Import ListNotations.
Open Scope Z_scope.
Local Ltac Zify.zify_post_hook ::= idtac.

Definition width (w : Z) : Prop := w = 128 \/ w = 256.
Lemma width_128 : width 128. Proof. now left. Qed.
Lemma width_256 : width 256. Proof. now right. Qed.
Lemma width_next w : width (next_larger w).
Proof. unfold next_larger. destruct (w =? 64); [left|right]; reflexivity. Qed.
Lemma smax_pos w : width w -> 2 ^ 127 - 1 <= smax w /\ smin w = - smax w - 1.
Proof. intros [->| ->]; unfold smax, smin; cbn; split; try lia; reflexivity. Qed.
Lemma in_s_abs w v : Z.abs v <= smax w -> in_s w v.
Proof. unfold in_s, smin, smax. lia. Qed.

Lemma of_Z256_add a b : sval (add256 (of_Z256 a) (of_Z256 b)) = swrap 256 (a + b).
Proof.
  rewrite add256_sval by apply of_Z256_wf. rewrite !of_Z256_sval. apply swrap_congr.
  rewrite Z.add_mod, !swrap_mod, <- Z.add_mod by (try lia; apply Z.pow_nonzero; lia). reflexivity.
Qed.
Lemma of_Z256_sub a b : sval (sub256 (of_Z256 a) (of_Z256 b)) = swrap 256 (a - b).
Proof.
  rewrite sub256_sval by apply of_Z256_wf. rewrite !of_Z256_sval. apply swrap_congr.
  rewrite Zminus_mod, !swrap_mod, <- Zminus_mod by lia. reflexivity.
Qed.

Lemma t_add_ok w a b : width w -> Z.abs (a + b) <= smax w -> t_add w a b = Ok (a + b).
Proof.
  intros [->| ->] H; unfold t_add.
  - change (128 =? 128) with true. cbv iota. apply schk_ok, in_s_abs, H.
  - change (256 =? 128) with false. cbv iota. rewrite of_Z256_add, swrap_id by (auto using in_s_abs; lia). reflexivity.
Qed.
Lemma t_sub_ok w a b : width w -> Z.abs (a - b) <= smax w -> t_sub w a b = Ok (a - b).
Proof.
  intros [->| ->] H; unfold t_sub.
  - change (128 =? 128) with true. cbv iota. apply schk_ok, in_s_abs, H.
  - change (256 =? 128) with false. cbv iota. rewrite of_Z256_sub, swrap_id by (auto using in_s_abs; lia). reflexivity.
Qed.
(** negative operands must stay above the range that the multiplication treats wrongly *)
Lemma t_mul_ok w a b : width w -> - 2 ^ 127 <= a <= smax w -> - 2 ^ 127 <= b <= smax w -> Z.abs (a * b) <= smax w ->
  t_mul w a b = Ok (a * b).
Proof.
  intros Hw Ha Hb H. destruct (smax_pos w Hw) as [M1 M2]. destruct Hw as [->| ->]; unfold t_mul.
  - change (128 =? 128) with true. cbv iota. apply schk_ok, in_s_abs, H.
  - change (256 =? 128) with false. cbv iota.
    assert (Ea : sval (of_Z256 a) = a) by (rewrite of_Z256_sval; apply swrap_id; [lia|]; unfold in_s; lia).
    assert (Eb : sval (of_Z256 b) = b) by (rewrite of_Z256_sval; apply swrap_id; [lia|]; unfold in_s; lia).
    rewrite mul256_sval, Ea, Eb.
    + rewrite swrap_id by (auto using in_s_abs; lia). reflexivity.
    + apply of_Z256_wf.
    + apply of_Z256_wf.
    + unfold mul_bad. rewrite Ea, Eb. intros [_ [B|B]]; change (2 ^ 128) with (2 * 2 ^ 127) in B; change (2 ^ 64) with 18446744073709551616 in B; change (2 ^ 127) with 170141183460469231731687303715884105728 in *; lia.
Qed.

(** Sums of absolute values *)
Lemma sumr_abs lo hi f : Z.abs (sumr lo hi f) <= sumr lo hi (fun i => Z.abs (f i)).
Proof. unfold sumr. induction (zrange lo hi) as [|i l IH]; [reflexivity|]. rewrite !lsum_cons. lia. Qed.
Lemma lsum_abs {A} (f : A -> Z) l : Z.abs (lsum f l) <= lsum (fun i => Z.abs (f i)) l.
Proof. induction l as [|i l IH]; [reflexivity|]. rewrite !lsum_cons. lia. Qed.

(** Wrapped values: int256_t wraps around, int128_t must not overflow. *)
Definition fits (W m : Z) : Prop := W = 256 \/ m <= smax W.
Lemma fits_mono W m m' : m <= m' -> fits W m' -> fits W m.
Proof. intros H [->|]; [now left|right; lia]. Qed.
Lemma swrap_small W a : width W -> Z.abs a <= smax W -> swrap W a = a.
Proof. intros [->| ->] H; apply swrap_id; auto using in_s_abs; lia. Qed.
Lemma t_add_sw W a b : width W -> fits W (Z.abs a + Z.abs b) -> t_add W (swrap W a) (swrap W b) = Ok (swrap W (a + b)).
Proof.
  intros HW [->|H].
  - unfold t_add. change (256 =? 128) with false. cbv iota. rewrite of_Z256_add. f_equal. apply swrap_congr.
    rewrite Z.add_mod, !swrap_mod, <- Z.add_mod by (try lia; apply Z.pow_nonzero; lia). reflexivity.
  - rewrite !swrap_small by (auto; lia). apply t_add_ok; auto. lia.
Qed.
Lemma t_sub_sw W a b : width W -> fits W (Z.abs a + Z.abs b) -> t_sub W (swrap W a) (swrap W b) = Ok (swrap W (a - b)).
Proof.
  intros HW [->|H].
  - unfold t_sub. change (256 =? 128) with false. cbv iota. rewrite of_Z256_sub. f_equal. apply swrap_congr.
    rewrite Zminus_mod, !swrap_mod, <- Zminus_mod by lia. reflexivity.
  - rewrite !swrap_small by (auto; lia). apply t_sub_ok; auto. lia.
Qed.
Lemma swrap_0 W : width W -> swrap W 0 = 0.
Proof. intros [->| ->]; reflexivity. Qed.
Lemma swrap_idem W a : width W -> swrap W (swrap W a) = swrap W a.
Proof. intros [->| ->]; apply swrap_id; try lia; apply swrap_range; lia. Qed.
(** int256_t: every operation is defined; the product is some function of the operands *)
Lemma t_mul_256 a b : exists r, t_mul 256 a b = Ok r /\ swrap 256 r = r.
Proof.
  unfold t_mul. change (256 =? 128) with false. cbv iota. eexists. split; [reflexivity|]. apply swrap_id; [lia|]. apply sval_range.
Qed.
Lemma t_add_256 a b : t_add 256 a b = Ok (swrap 256 (a + b)).
Proof. unfold t_add. change (256 =? 128) with false. cbv iota. now rewrite of_Z256_add. Qed.
Lemma t_sub_256 a b : t_sub 256 a b = Ok (swrap 256 (a - b)).
Proof. unfold t_sub. change (256 =? 128) with false. cbv iota. now rewrite of_Z256_sub. Qed.
Lemma swrap_eq_mod n a b : 0 <= n -> swrap n a = swrap n b -> a mod 2 ^ n = b mod 2 ^ n.
Proof. intros Hn H. rewrite <- (swrap_mod n a), <- (swrap_mod n b), H by lia. reflexivity. Qed.
Lemma swrap_add_l n a b : 0 <= n -> swrap n (swrap n a + b) = swrap n (a + b).
Proof. intros Hn. apply swrap_congr. rewrite Zplus_mod, swrap_mod, <- Zplus_mod by lia. reflexivity. Qed.
Lemma swrap_add_r n a b : 0 <= n -> swrap n (a + swrap n b) = swrap n (a + b).
Proof. intros Hn. rewrite Z.add_comm, swrap_add_l, Z.add_comm by lia. reflexivity. Qed.
Lemma swrap_sub_l n a b : 0 <= n -> swrap n (swrap n a - b) = swrap n (a - b).
Proof. intros Hn. apply swrap_congr. rewrite Zminus_mod, swrap_mod, <- Zminus_mod by lia. reflexivity. Qed.
Lemma swrap_sub_r n a b : 0 <= n -> swrap n (a - swrap n b) = swrap n (a - b).
Proof. intros Hn. apply swrap_congr. rewrite Zminus_mod, swrap_mod, <- Zminus_mod by lia. reflexivity. Qed.
Lemma lmo_formula_ok s1 s2 t p2 : lmo_formula s1 s2 t p2 = Ok (swrap 256 (s1 + s2 + t - 1 - p2)).
Proof.
  unfold lmo_formula. rewrite t_add_256. cbn [bind]. rewrite t_add_256. cbn [bind]. rewrite t_sub_256. cbn [bind]. rewrite t_sub_256. f_equal.
  rewrite swrap_add_l, (swrap_sub_l 256 (s1 + s2 + t) 1), (swrap_sub_l 256 (s1 + s2 + t - 1) p2) by lia. reflexivity.
Qed.
Lemma t_mul_pos v k : 0 <= v <= smax 256 -> - 2 ^ 127 <= k <= 2 ^ 127 -> v * Z.abs k <= smax 256 -> t_mul 256 v k = Ok (v * k).
Proof.
  intros Hv Hk H. assert (2 ^ 127 <= smax 256) by discriminate. assert (0 <= 2 ^ 127) by discriminate.
  apply t_mul_ok; [apply width_256|lia|lia|]. rewrite Z.abs_mul, (Z.abs_eq v) by lia. exact H.
Qed.
