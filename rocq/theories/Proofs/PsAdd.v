(** Adding a sieving prime to EratSmall, EratMedium and EratBig. *)
From Coq Require Import ZArith List Lia Bool Znumtheory.
From Verif.Base Require Import Res Word Zl Each.
From Verif.Model Require Import PsTables PsMath PsErat.
From Verif.Spec Require Import PsSpec.
From Verif.Proofs Require Import PsWheel PsCross PsSmall PsFirst PsMedium PsBig PsMathP.
Import ListNotations.
Open Scope Z_scope.
Local Ltac Zify.zify_post_hook ::= idtac.

(** p has nothing to remove from here to stop *)
Definition spent (M L stop p : Z) : Prop := forall q, cop M q = true -> p <= q -> L + 6 < p * q -> stop < p * q.

Lemma add_mi M size L p mi wi q n : 7 <= p <= 5 * 2 ^ 22 -> at_mult M size L p mi wi q -> first_q M L p q ->
  (q = p \/ p * q <= L + 6 + 10 * p) -> p * p <= L + 30 * n + 6 -> n <= 2 ^ 22 -> mi < 2 ^ 23.
Proof.
  intros Hp (_ & _ & _ & E) _ C HP Hn. pose proof (off_bound _ (bitpos_range (p * q))). destruct C as [->|C]; lia.
Qed.

Theorem esmall_add_rule L e ps p n (Q : esmall -> Prop) :
  7 <= p <= 5 * 2 ^ 22 -> cop 30 p = true -> L mod 30 = 0 -> 0 <= L -> L + 6 < 2 ^ 64 -> 0 <= es_stop e < 2 ^ 64 ->
  p * p <= L + 30 * n + 6 -> n <= 2 ^ 22 -> small_state L e ps ->
  (spent 30 L (es_stop e) p -> Q e) ->
  (forall e', es_on e' = es_on e -> es_stop e' = es_stop e -> es_l1 e' = es_l1 e -> small_state L e' (ps ++ [p]) -> Q e') ->
  wp (esmall_add p L e) Q.
Proof.
  intros Hp Cp HL HL0 HL6 Hst HPP Hn (S1 & S2) HN HS. unfold esmall_add. apply wp_bind.
  apply (first_multiple_rule 30 8 wheel30_init (es_stop e) p L); auto; try exact D30; try exact H30; try exact qs30_len; try exact init30_ok; try lia.
  intros mi wi q HA HF Hq HC. cbn [wp]. apply HS; auto. split; cbn [es_primes].
    + apply Forall2_app; auto. constructor; [|constructor]. apply stored_set; try lia; [exists q; auto|]. eapply add_mi with (q := q); eauto.
    + apply Forall_app. split; auto. constructor; [lia|constructor].
Qed.

Theorem emedium_add_rule L e ps p n (Q : emedium -> Prop) :
  7 <= p <= 5 * 2 ^ 22 -> cop 30 p = true -> L mod 30 = 0 -> 0 <= L -> L + 6 < 2 ^ 64 -> 0 <= em_stop e < 2 ^ 64 ->
  p * p <= L + 30 * n + 6 -> n <= 2 ^ 22 -> med_state L (em_buckets e) ps ->
  (spent 30 L (em_stop e) p -> Q e) ->
  (forall e', em_on e' = em_on e -> em_stop e' = em_stop e -> med_state L (em_buckets e') (ps ++ [p]) -> Q e') ->
  wp (emedium_add p L e) Q.
Proof.
  intros Hp Cp HL HL0 HL6 Hst HPP Hn HM HN HS. unfold emedium_add. apply wp_bind.
  apply (first_multiple_rule 30 8 wheel30_init (em_stop e) p L); auto; try exact D30; try exact H30; try exact qs30_len; try exact init30_ok; try lia.
  intros mi wi q HA HF Hq HC. apply wp_bind.
    assert (Hmi : mi < 2 ^ 23) by (eapply add_mi with (q := q); eauto).
    assert (ST : stored 30 8 L (sp_set (p / 30) mi wi) p) by (apply stored_set; try lia; exists q; auto).
    assert (EW : sp_wi (sp_set (p / 30) mi wi) = wi).
    { assert (T : track 30 8 L p mi wi) by (exists q; auto). apply track_mi in T. apply sp_set_wi; [lia|]. destruct HA as (? & _). lia. }
    rewrite <- EW at 1. eapply med_state_push; eauto. intros bs' H'. cbn [wp]. apply HS; auto.
Qed.

Theorem ebig_add_rule L S e ps p (Q : ebig -> Prop) :
  30 <= p < 2 ^ 32 -> cop 30 p = true -> cop 210 p = true -> L mod 30 = 0 -> 0 <= L -> L + 6 < 2 ^ 64 -> 0 <= eb_stop e < 2 ^ 64 ->
  p * p <= L + 30 * S + 6 -> (S - 1 + p / 30 * 10 + 10) / S < zlen (eb_buckets e) -> big_state L S e ps ->
  (spent 210 L (eb_stop e) p -> Q e) ->
  (forall e', eb_on e' = eb_on e -> eb_stop e' = eb_stop e -> eb_log2 e' = eb_log2 e -> zlen (eb_buckets e') = zlen (eb_buckets e) -> big_state L S e' (ps ++ [p]) -> Q e') ->
  wp (ebig_add p L e) Q.
Proof.
  intros Hp Cp Cp2 HL HL0 HL6 Hst HPP Hn (B1 & B2 & B3 & B4 & B5 & B6 & B7 & B8) HN HS. unfold ebig_add. apply wp_bind.
  assert (SB : 0 < S <= 2 ^ 22) by (rewrite B4; split; [apply Z.pow_pos_nonneg; lia|apply Z.pow_le_mono_r; lia]).
  apply (first_multiple_rule 210 48 wheel210_init (eb_stop e) p L); auto; try exact D210; try exact H210; try exact qs210_len; try exact init210_ok; try lia.
  intros mi wi q HA HF Hq HC. apply wp_bind. specialize (HC Cp2).
    assert (M0 : 0 <= mi) by (eapply track_mi; exists q; eauto).
    assert (M1 : mi <= S - 1 + p / 30 * 10 + 10).
    { destruct HA as (_ & _ & _ & E). pose proof (off_bound _ (bitpos_range (p * q))). pose proof (Z.div_mod p 30 ltac:(lia)).
      pose proof (Z.mod_pos_bound p 30 ltac:(lia)). assert (0 <= p / 30) by (apply Z.div_pos; lia). destruct HC as [->|HC]; lia. }
    unfold big_store. rewrite (shiftr_div S) by (auto; lia). rewrite B2, (land_mod S (eb_log2 e)) by (auto; lia).
    assert (ST : big_stored L S (mi / S) (sp_set (p / 30) (mi mod S) wi) p q) by (apply big_stored_set; auto; lia).
    apply push_at_rule; auto.
    { split; [apply Z.div_pos; lia|]. eapply Z.le_lt_trans; [|exact Hn]. apply Z.div_le_mono; lia. }
    intros bs' Hl Hne Hm. cbn [wp]. apply HS; auto. unfold big_state. cbn [eb_buckets eb_mod eb_log2].
    split; [auto|]. split; [auto|]. split; [auto|]. split; [auto|]. split; [lia|]. split; [|split].
    + intros p' Hp'. rewrite Hl. apply in_app_iff in Hp'. destruct Hp' as [Hp'|[<-|[]]]; [now apply B6|]. split; [lia|auto].
    + intros k s Hk. apply Hm in Hk. destruct Hk as [Hk|[-> ->]].
      * destruct (B7 k s Hk) as (p' & q' & ? & ? & ?). exists p', q'. split; [apply in_app_iff; auto|]. auto.
      * exists p, q. split; [apply in_app_iff; right; now left|]. auto.
    + intros p' Hp'. apply in_app_iff in Hp'. destruct Hp' as [Hp'|[<-|[]]].
      * destruct (B8 p' Hp') as (k & s & q' & ? & ? & ?). exists k, s, q'. split; [apply Hm; auto|]. auto.
      * exists (mi / S), (sp_set (p / 30) (mi mod S) wi), q. split; [apply Hm; auto|]. auto.
Qed.

(** The array of chains made by EratBig::init is long enough. *)
Theorem ebig_init_state L stop k maxp : 0 <= k <= 22 -> 0 <= maxp < 2 ^ 32 ->
  let S := 2 ^ k in let e := ebig_init stop S maxp in
  big_state L S e [] /\ eb_on e = true /\ eb_stop e = stop /\ (forall p, 0 <= p <= maxp -> (S - 1 + p / 30 * 10 + 10) / S < zlen (eb_buckets e)).
Proof.
  intros Hk Hm S e. assert (SB : 0 < S <= 2 ^ 22) by (unfold S; split; [apply Z.pow_pos_nonneg; lia|apply Z.pow_le_mono_r; lia]).
  assert (EL : ilog2 S = k) by (rewrite ilog2_eq by lia; unfold S; apply Z.log2_pow2; lia).
  assert (0 <= maxp / 30) by (apply Z.div_pos; lia).
  assert (LEN : zlen (eb_buckets e) = (S - 1 + (maxp / 30 * 10 + 10)) / S + 1).
  { unfold e, ebig_init. cbn [eb_buckets]. unfold max_factor. rewrite EL, (shiftr_div S) by (auto; lia). rewrite amake_len; auto.
    assert (0 <= (S - 1 + (maxp / 30 * 10 + 10)) / S) by (apply Z.div_pos; lia). lia. }
  assert (EB : forall k, 0 <= k < zlen (eb_buckets e) -> aget (eb_buckets e) k = Ok []).
  { intros i Hi. unfold e, ebig_init in Hi |- *. cbn [eb_buckets] in Hi |- *. apply amake_get. rewrite amake_len in Hi; [auto|].
    unfold max_factor. rewrite EL, (shiftr_div S) by (auto; lia). assert (0 <= (S - 1 + (maxp / 30 * 10 + 10)) / S) by (apply Z.div_pos; lia). lia. }
  assert (NM : forall i s, ~ mem (eb_buckets e) i s).
  { intros i s (c & b & E & Hb & _). pose proof (aget_range _ _ _ E). rewrite EB in E by auto. injection E as <-. contradiction. }
  split; [|split; [reflexivity|split; [reflexivity|]]].
  - unfold big_state. split; [|split; [reflexivity|split; [|split; [|split; [|split; [|split]]]]]].
    + intros i c b E Hb. pose proof (aget_range _ _ _ E). rewrite EB in E by auto. injection E as <-. contradiction.
    + unfold e, ebig_init. cbn [eb_log2]. lia.
    + unfold e, ebig_init. cbn [eb_log2]. now rewrite EL.
    + rewrite LEN. assert (0 <= (S - 1 + (maxp / 30 * 10 + 10)) / S) by (apply Z.div_pos; lia). lia.
    + intros p [].
    + intros i s H'. now apply NM in H'.
    + intros p [].
  - intros p Hp. rewrite LEN. assert (p / 30 <= maxp / 30) by (apply Z.div_le_mono; lia).
    assert ((S - 1 + p / 30 * 10 + 10) / S <= (S - 1 + (maxp / 30 * 10 + 10)) / S) by (apply Z.div_le_mono; lia). lia.
Qed.
