(** PhiTiny computes phi(x, a) for a <= 6. *)
From Coq Require Import ZArith List Bool Lia Znumtheory.
From Verif.Base Require Import Res Word Zl Arr.
From Verif.Spec Require Import Primes LMOSpec.
From Verif.Model Require Import PhiTiny.
From Verif.Proofs Require Import Primes NT PhiSum.
Import ListNotations.
Open Scope Z_scope.

Lemma phi_step p x : prime p -> phi x (pi p) = phi x (pi p - 1) - phi (x / p) (pi p - 1).
Proof. intros H. unfold phi. rewrite (Phi_rec (fun _ => 1)) by (auto; split; intros; ring). ring. Qed.
Lemma phi_x0 x a : x < 1 -> phi x a = 0.
Proof. intros. unfold phi. now apply Phi_small. Qed.
Lemma phi_le_x x a : 0 <= x -> phi x a <= x.
Proof.
  intros Hx. unfold phi, Phi. rewrite <- (phi_0 x Hx) at 2. unfold phi. rewrite Phi_le0 by lia.
  apply sumr_le. intros i Hi. destruct (roughb a i); lia.
Qed.
Lemma phi_one y x : 1 <= x <= y -> phi x (pi y) = 1.
Proof. intros. unfold phi. now rewrite Phi_one. Qed.
Lemma phi_ge1 x a : 1 <= x -> 1 <= phi x a.
Proof.
  intros Hx. unfold phi, Phi. rewrite sumr_cons by lia. rewrite roughb_1.
  assert (0 <= sumr (1 + 1) (x + 1) (fun n => if roughb a n then 1 else 0)); [|lia].
  apply sumr_nonneg. intros i Hi. destruct (roughb a i); lia.
Qed.

(** periodicity *)
Definition periodic (pp t a : Z) : Prop := forall k r, 0 <= k -> 0 <= r -> phi (k * pp + r) a = k * t + phi r a.
Lemma periodic_step p pp t a : prime p -> pi p = a + 1 -> 0 < pp ->
  periodic pp t a -> periodic (pp * p) (t * (p - 1)) (a + 1).
Proof.
  intros Hp Ha Hpp IH k r Hk Hr. pose proof (prime_ge_2 p Hp).
  rewrite <- Ha, !phi_step by auto. replace (pi p - 1) with a by lia.
  replace (k * (pp * p) + r) with ((k * pp) * p + r) by ring. rewrite Z.div_add_l by lia.
  replace (k * pp * p + r) with ((k * p) * pp + r) by ring.
  rewrite !IH by (try apply Z.div_pos; nia). ring.
Qed.

Definition tpp (a : Z) : Z := nth (Z.to_nat a) tiny_products 0.
Definition ttot (a : Z) : Z := nth (Z.to_nat a) tiny_totients 0.
Lemma six a : 0 <= a <= 6 -> a = 0 \/ a = 1 \/ a = 2 \/ a = 3 \/ a = 4 \/ a = 5 \/ a = 6. Proof. lia. Qed.
Lemma tiny_periodic a : 0 <= a <= 6 -> periodic (tpp a) (ttot a) a.
Proof.
  assert (P0 : periodic 1 1 0). { intros k r Hk Hr. rewrite !phi_0 by lia. ring. }
  assert (Pb : forall p, primeb p = true -> prime p) by (intros; now apply primeb_spec).
  assert (P1 : periodic (1 * 2) (1 * 1) (0 + 1)) by (apply (periodic_step 2 1 1 0); [now apply Pb|reflexivity|lia|exact P0]).
  assert (P2 : periodic (2 * 3) (1 * 2) (1 + 1)) by (apply (periodic_step 3 2 1 1); [now apply Pb|reflexivity|lia|exact P1]).
  assert (P3 : periodic (6 * 5) (2 * 4) (2 + 1)) by (apply (periodic_step 5 6 2 2); [now apply Pb|reflexivity|lia|exact P2]).
  assert (P4 : periodic (30 * 7) (8 * 6) (3 + 1)) by (apply (periodic_step 7 30 8 3); [now apply Pb|reflexivity|lia|exact P3]).
  assert (P5 : periodic (210 * 11) (48 * 10) (4 + 1)) by (apply (periodic_step 11 210 48 4); [now apply Pb|reflexivity|lia|exact P4]).
  assert (P6 : periodic (2310 * 13) (480 * 12) (5 + 1)) by (apply (periodic_step 13 2310 480 5); [now apply Pb|reflexivity|lia|exact P5]).
  intros H. destruct (six a H) as [-> |[-> |[-> |[-> |[-> |[-> | ->]]]]]]; assumption.
Qed.
Lemma tpp_bound a : 0 <= a <= 6 -> 1 <= tpp a <= 30030 /\ 1 <= ttot a <= tpp a.
Proof. intros H. destruct (six a H) as [-> |[-> |[-> |[-> |[-> |[-> | ->]]]]]]; vm_compute; repeat split; discriminate. Qed.
Lemma tiny_get a : 0 <= a <= 6 -> aget tiny_products a = Ok (tpp a) /\ aget tiny_totients a = Ok (ttot a).
Proof. intros H. destruct (six a H) as [-> |[-> |[-> |[-> |[-> |[-> | ->]]]]]]; split; reflexivity. Qed.

Definition row_ok (tabs : list (list Z)) (a : Z) : Prop :=
  exists row, aget tabs a = Ok row /\ arr row (tpp a) (fun x => phi x a).
Lemma tiny_phi_ok chk tabs x a : 0 <= a <= 6 -> 0 <= x -> row_ok tabs a ->
  (forall z, 0 <= z <= x -> chk z = Ok z) -> tiny_phi chk tabs x a = Ok (phi x a).
Proof.
  intros Ha Hx (row & Er & Hrow) Hchk. unfold tiny_phi. destruct (tiny_get a Ha) as [-> ->]. cbn [bind].
  destruct (tpp_bound a Ha) as [B1 B2].
  rewrite Er. cbn [bind]. rewrite Z.rem_mod_nonneg, Z.quot_div_nonneg by lia.
  pose proof (Z.mod_pos_bound x (tpp a) ltac:(lia)) as R.
  rewrite (arr_get _ _ _ _ Hrow) by lia. cbn [bind].
  assert (E : phi x a = x / tpp a * ttot a + phi (x mod tpp a) a).
  { rewrite (Z.div_mod x (tpp a)) at 1 by lia. rewrite (Z.mul_comm (tpp a)). apply tiny_periodic; auto; [apply Z.div_pos; lia|lia]. }
  pose proof (phi_nonneg (x mod tpp a) a). pose proof (phi_le_x x a Hx).
  assert (0 <= x / tpp a * ttot a) by (apply Z.mul_nonneg_nonneg; [apply Z.div_pos|]; lia).
  rewrite Hchk by lia. cbn [bind]. rewrite Hchk; [|lia]. now rewrite <- E.
Qed.

Definition tiny_good (tabs : list (list Z)) : Prop := forall a, 0 <= a <= 6 -> row_ok tabs a.
Lemma PhiTiny_init_ok : wp PhiTiny_init tiny_good.
Proof.
  unfold PhiTiny_init. change (tiny_max_a + 1) with 7.
  apply (for_rule 1 7 _ (fun a tabs => zlen tabs = 7 /\ forall b, 0 <= b < a -> row_ok tabs b)).
  - reflexivity.
  - split; [reflexivity|]. intros b Hb. replace b with 0 by lia. exists [0]. split; [reflexivity|].
    split; [reflexivity|]. intros k Hk. change (tpp 0) with 1 in Hk. replace k with 0 by lia. now rewrite phi_x0.
  - intros a tabs Ha [Hl Ht]. destruct (tiny_get a ltac:(lia)) as [-> _]. cbn [bind].
    destruct (tpp_bound a ltac:(lia)) as [B1 B2].
    assert (Hp : exists p, aget tiny_primes a = Ok p /\ prime p /\ pi p = a /\ 2 <= p).
    { assert (Pb : forall p, primeb p = true -> prime p) by (intros; now apply primeb_spec).
      assert (C : a = 1 \/ a = 2 \/ a = 3 \/ a = 4 \/ a = 5 \/ a = 6) by lia.
      destruct C as [-> |[-> |[-> |[-> |[-> | ->]]]]]; eexists; (split; [reflexivity|]); (split; [apply Pb; reflexivity|]); split; try reflexivity; lia. }
    destruct Hp as (p & Ep & Hp & Pp & Gp).
    apply wp_bind. apply (for_rule 0 (tpp a) _ (fun x row => arr row (tpp a) (fun k => if k <? x then phi k a else 0))).
    + assert (tpp a < 2 ^ 400) by (eapply Z.le_lt_trans; [apply B1|reflexivity]). lia.
    + eapply arr_ext; [apply arr_make; lia|]. intros k Hk. cbn beta. destruct (Z.ltb_spec k 0); auto; lia.
    + intros x row Hx Hrow.
      assert (CK : forall z x, 0 <= x < 30030 -> 0 <= z <= x -> schk 32 z = Ok z).
      { intros z x0 H1 H2. apply schk_ok. unfold in_s, smin, smax. change (32 - 1) with 31. change (2 ^ 31) with 2147483648. lia. }
      rewrite (tiny_phi_ok (schk 32) tabs x (a - 1)); [|lia|lia|apply Ht; lia|intros z; apply CK; lia].
      cbn [bind]. rewrite Ep. cbn [bind]. rewrite Z.quot_div_nonneg by lia.
      assert (D : 0 <= x / p <= x) by (split; [apply Z.div_pos; lia|apply Z.div_le_upper_bound; nia]).
      rewrite (tiny_phi_ok (schk 32) tabs (x / p) (a - 1)); [|lia|lia|apply Ht; lia|intros z; apply CK; lia].
      cbn [bind]. rewrite <- Pp at 1 2. rewrite <- phi_step, Pp by auto.
      pose proof (phi_nonneg x a). pose proof (phi_le_x x a ltac:(lia)).
      rewrite (CK _ x) by lia. cbn [bind]. rewrite swrap_id.
      2: lia.
      2:{ unfold in_s, smin, smax. change (2 ^ (16 - 1)) with 32768. lia. }
      eapply arr_set; [exact Hrow|lia|]. intros l' H'. eapply arr_ext; [exact H'|]. intros k Hk. cbn beta.
      destruct (Z.eqb_spec k x) as [->|]; [destruct (Z.ltb_spec x (x + 1)); auto; lia|].
      destruct (Z.ltb_spec k x), (Z.ltb_spec k (x + 1)); auto; lia.
    + intros row Hrow. apply wp_aset; [lia|]. intros tabs' Hl' Hg. split; [congruence|].
      intros b Hb. unfold row_ok. rewrite Hg. destruct (Z.eqb_spec b a) as [->|Nb].
      * exists row. split; auto. eapply arr_ext; [exact Hrow|]. intros k Hk. cbn beta. destruct (Z.ltb_spec k (Z.max 0 (tpp a))); auto; lia.
      * apply Ht. lia.
  - intros tabs [_ H]. intros a Ha. apply H. lia.
Qed.

Lemma phi_tiny_ok tabs x a : tiny_good tabs -> 0 <= a <= 6 -> 0 <= x <= smax 64 -> phi_tiny tabs x a = Ok (phi x a).
Proof.
  intros Ht Ha Hx. unfold phi_tiny. destruct (Z.leb_spec x (umax 32)) as [L|L].
  - unfold uwrap. assert (H32 : forall z, 0 <= z <= x -> z mod 2 ^ 32 = z).
    { intros z Hz. apply Z.mod_small. unfold umax in L. lia. }
    rewrite H32 by lia. apply tiny_phi_ok; auto; [lia|]. intros z Hz. now rewrite H32.
  - apply tiny_phi_ok; auto; [lia|]. intros z Hz. apply schk_ok. unfold in_s, smin. unfold smax in *.
    change (2 ^ (64 - 1)) with 9223372036854775808 in *. lia.
Qed.

Lemma get_c_ok y : 0 <= y -> get_c y = Ok (Z.min 6 (pi y)).
Proof.
  intros Hy. unfold get_c. destruct (Z.leb_spec 0 y); [|lia]. cbn [assert_ bind].
  destruct (Z.leb_spec 13 y).
  - change tiny_max_a with 6. f_equal. pose proof (pi_mono 13 y ltac:(lia)). change (pi 13) with 6 in *. lia.
  - assert (C : y = 0 \/ y = 1 \/ y = 2 \/ y = 3 \/ y = 4 \/ y = 5 \/ y = 6 \/ y = 7 \/ y = 8 \/ y = 9 \/ y = 10 \/ y = 11 \/ y = 12) by lia.
    repeat (destruct C as [-> | C]; [reflexivity|]). rewrite C. reflexivity.
Qed.
