(** EratSmall::crossOff clears the multiples of its primes. *)
From Coq Require Import ZArith List Lia Bool Znumtheory.
From Verif.Base Require Import Res Word Zl Each.
From Verif.Model Require Import PsTables PsMath PsErat.
From Verif.Spec Require Import PsSpec.
From Verif.Proofs Require Import PsWheel PsCross.
Import ListNotations.
Open Scope Z_scope.
Local Ltac Zify.zify_post_hook ::= idtac.

(** *** Packing *)
Lemma pack_idx mi wi : 0 <= mi < 2 ^ 23 -> 0 <= wi < 2 ^ 9 -> uwrap 32 (Z.lor mi (uwrap 64 (Z.shiftl wi 23))) = mi + wi * 2 ^ 23.
Proof.
  intros H1 H2. unfold uwrap. rewrite Z.shiftl_mul_pow2 by lia. rewrite (Z.mod_small (wi * _)) by lia.
  assert (E : Z.lor mi (wi * 2 ^ 23) = mi + wi * 2 ^ 23).
  { rewrite <- Z.lxor_lor; [symmetry; apply Z.add_nocarry_lxor|].
    all: apply Z.bits_inj'; intros k Hk; rewrite Z.land_spec, Z.bits_0, <- Z.shiftl_mul_pow2, Z.shiftl_spec by lia;
      destruct (Z.lt_ge_cases k 23); [rewrite (Z.testbit_neg_r wi) by lia; now rewrite andb_false_r|].
    all: destruct (Z.eq_dec mi 0) as [->|]; [now rewrite Z.testbit_0_l|].
    all: rewrite (Z.bits_above_log2 mi); auto; try lia; assert (Z.log2 mi < 23) by (apply Z.log2_lt_pow2; lia); lia. }
  rewrite E. apply Z.mod_small. lia.
Qed.
Lemma sp_set_mi sp mi wi : 0 <= mi < 2 ^ 23 -> 0 <= wi < 2 ^ 9 -> sp_mi (sp_set sp mi wi) = mi.
Proof.
  intros H1 H2. unfold sp_mi, sp_set. cbn [sp_idx]. rewrite pack_idx by auto. change (2 ^ 23 - 1) with (Z.ones 23).
  rewrite Z.land_ones by lia. rewrite Z.mod_add by lia. apply Z.mod_small. lia.
Qed.
Lemma sp_set_wi sp mi wi : 0 <= mi < 2 ^ 23 -> 0 <= wi < 2 ^ 9 -> sp_wi (sp_set sp mi wi) = wi.
Proof.
  intros H1 H2. unfold sp_wi, sp_set. cbn [sp_idx]. rewrite pack_idx by auto. rewrite Z.shiftr_div_pow2 by lia.
  rewrite Z.div_add by lia. rewrite Z.div_small by lia. lia.
Qed.
Lemma sp_set_sp sp mi wi : 0 <= sp < 2 ^ 32 -> sp_sp (sp_set sp mi wi) = sp.
Proof. intros H. unfold sp_set. cbn [sp_sp]. unfold uwrap. apply Z.mod_small. lia. Qed.

(** *** The invariant of stored primes *)
Definition stored (M size L : Z) (s : sprime) (p : Z) : Prop :=
  7 <= p < 2 ^ 32 /\ sp_sp s = p / 30 /\ track M size L p (sp_mi s) (sp_wi s).

Lemma sp_mi_range s : 0 <= sp_mi s < 2 ^ 23.
Proof. unfold sp_mi. change (2 ^ 23 - 1) with (Z.ones 23). rewrite Z.land_ones by lia. apply Z.mod_pos_bound. lia. Qed.
Lemma track_mi M size L p mi w : track M size L p mi w -> 0 <= mi.
Proof. intros (q & (_ & _ & _ & E) & (_ & _ & H & _)). pose proof (off_bound _ (bitpos_range (p * q))). lia. Qed.
Lemma stored_set M size L p mi wi : 8 * size <= 2 ^ 9 -> 7 <= p < 2 ^ 32 -> track M size L p mi wi -> mi < 2 ^ 23 ->
  stored M size L (sp_set (p / 30) mi wi) p.
Proof.
  intros Hs Hp T Hm. assert (0 <= wi < 2 ^ 9) by (destruct T as (q & (? & _) & _); lia).
  pose proof (track_mi _ _ _ _ _ _ T). assert (0 <= p / 30 < 2 ^ 32) by (split; [apply Z.div_pos; lia|apply Z.div_lt_upper_bound; lia]).
  unfold stored. rewrite sp_set_mi, sp_set_wi, sp_set_sp by lia. auto.
Qed.

(** Neighbouring quotients of a wheel differ by at most 10. *)
Definition gaps_okb (M : Z) : bool := forallb (fun r => existsb (fun d => cop M (r - d)) (zrange 1 11)) (zrange 0 M).
Lemma gaps30 : gaps_okb 30 = true. Proof. vm_compute. reflexivity. Qed.
Lemma gaps210 : gaps_okb 210 = true. Proof. vm_compute. reflexivity. Qed.
Lemma prev_cop M q0 q : 0 < M -> gaps_okb M = true -> cop M q0 = true -> q0 < q -> exists t, cop M t = true /\ q0 <= t < q /\ q <= t + 10.
Proof.
  intros HM G C H. unfold gaps_okb in G. rewrite forallb_forall in G. specialize (G (q mod M)). rewrite in_zrange in G.
  specialize (G ltac:(apply Z.mod_pos_bound; lia)). apply existsb_exists in G. destruct G as (d & Hd & Cd). apply in_zrange in Hd.
  rewrite <- cop_mod, Zminus_mod_idemp_l, cop_mod in Cd by lia.
  destruct (Z.le_gt_cases q0 (q - d)).
  - exists (q - d). split; auto. lia.
  - exists q0. split; auto. lia.
Qed.
(** the next multiple behind the crossed part is not far *)
Lemma next_bound M L1 p q0 q : 0 < M -> gaps_okb M = true -> 0 < p -> cop M q0 = true -> q0 <= q ->
  (forall t, cop M t = true -> q0 <= t < q -> p * t <= L1) -> q = q0 \/ p * q <= L1 + 10 * p.
Proof.
  intros HM G Hp C Hq H. destruct (Z.eq_dec q q0); auto. right.
  destruct (prev_cop M q0 q) as (t & Ct & Ht & Hd); auto; try lia. specialize (H t Ct Ht). nia.
Qed.

Definition cut (M p lo hi m : Z) : bool := strikes M p m && (lo + 6 <? m) && (m <? hi + 7).

Lemma cinv_start M size L p base mi w n end_ B sieve : zlen sieve = n -> holds sieve L B -> track M size (L + 30 * base) p mi w ->
  exists q0, first_q M (L + 30 * base) p q0 /\ cinv M size L p q0 n end_ B sieve (base + mi) w q0.
Proof.
  intros Hn HB (q0 & HA & HF). exists q0. split; auto. split; auto. split.
  { apply at_mult_shift with (k := base). now replace (base + mi - base) with mi by lia. }
  split; [lia|]. split; [intros; lia|]. eapply holds_ext; eauto. intros. cbv beta. now rewrite hitq_none, andb_true_r.
Qed.

Lemma cinv_finish M size L p base q0 n end_ B sieve pos w q : 0 < M -> (30 | M) -> zlen (qs M) = size -> gaps_okb M = true ->
  0 < p -> 0 <= base <= end_ -> 0 <= L ->
  first_q M (L + 30 * base) p q0 -> cinv M size L p q0 n end_ B sieve pos w q -> end_ <= pos ->
  track M size (L + 30 * end_) p (pos - end_) w /\
  holds sieve L (fun m => B m && negb (cut M p (L + 30 * base) (L + 30 * end_) m)) /\
  (q = q0 \/ 30 * (pos - end_) < 10 * p).
Proof.
  intros HM HD Hs HG Hp Hb HL HF I He. pose proof I as (I1 & I2 & I3 & I4 & I5).
  destruct (at_mult_cop _ _ _ _ _ _ _ HM HD Hs I2) as [C _].
  assert (E : L + 30 * end_ + 6 < p * q).
  { destruct I2 as (_ & _ & _ & E). pose proof (off_bound _ (bitpos_range (p * q))). lia. }
  assert (HF' : first_q M (L + 30 * end_) p q) by (eapply first_q_next; eauto; lia).
  split; [|split].
  - exists q. split; auto. apply at_mult_shift with (k := end_) in I2. exact I2.
  - eapply holds_ext; [exact I5|]. intros i j Hi Hj. cbv beta. unfold cut.
    rewrite (hitq_finish M (L + 30 * base) (L + 30 * end_)); auto.
  - destruct (next_bound M (L + 30 * end_ + 6) p q0 q) as [->|HN]; auto; [apply HF|]. right.
    destruct I2 as (_ & _ & _ & E2). pose proof (off_bound _ (bitpos_range (p * q))). lia.
Qed.

Lemma small_prime_rule L base end_ n B s p sieve (Q : _ -> Prop) :
  L mod 30 = 0 -> 0 <= L < 2 ^ 64 -> 0 <= base <= end_ -> end_ <= n -> n <= 2 ^ 40 -> p <= 5 * 2 ^ 22 ->
  zlen sieve = n -> holds sieve L B -> stored 30 8 (L + 30 * base) s p ->
  (forall s' sieve', zlen sieve' = n -> stored 30 8 (L + 30 * end_) s' p ->
     holds sieve' L (fun m => B m && negb (cut 30 p (L + 30 * base) (L + 30 * end_) m)) -> Q (s', sieve')) ->
  wp (small_prime base end_ s sieve) Q.
Proof.
  intros HL HLr Hb He Hn Hpm Hlen HB (Hp & Hsp & HT) HQ.
  destruct (cinv_start 30 8 L p base (sp_mi s) (sp_wi s) n end_ B sieve Hlen HB HT) as (q0 & HF & I0).
  assert (Hp0 : 0 < p) by lia.
  assert (Hq0 : L + 6 < p * q0) by (destruct HF as (_ & _ & ? & _); lia).
  unfold small_prime. rewrite Hsp. apply wp_bind.
  apply (loop_ghost _ (fun m '(sieve, pos, w) => exists q, base <= pos /\ cinv 30 8 L p q0 n end_ B sieve pos w q /\ m = Z.max 0 (L + 30 * end_ + 40 - p * q)))
    with (n := Z.max 0 (L + 30 * end_ + 40 - p * q0)).
  - intros m [[sv pos] w] (q & Hpos & I & ->). apply wp_bind.
    enough (G : forall (Q : list Z * Z -> Prop), (forall sv' pos' q', q <= q' -> base <= pos' -> cinv 30 8 L p q0 n end_ B sv' pos' w q' -> Q (sv', pos')) ->
      wp (if w mod 8 =? 0 then unrolled (w / 8) (p / 30) (Z.max end_ (base + (p / 30 * 28 + 27)) - (p / 30 * 28 + 27)) sv pos else Ok (sv, pos)) Q).
    { apply G. clear G. intros sv' pos' q' Hq' Hpos' I'. cbv beta.
      eapply line_rule; eauto using small_rows_ok.
      - intros Hge. cbn [wp].
        destruct (cinv_finish 30 8 L p base q0 n end_ B sv' pos' w q') as (T & HH & HN); auto using H30, D30, qs30_len, gaps30; try lia.
        apply HQ; auto; [apply I'|].
        apply stored_set; auto; try lia.
        destruct HN as [->|HN]; [|lia].
        (* the first multiple lies behind *)
        destruct HT as (q1 & A1 & F1). pose proof (sp_mi_range s).
        assert (q1 = q0). { destruct F1 as (F1a & F1b & F1c & F1d), HF as (Fa & Fb & Fc & Fd). specialize (F1d q0 Fb Fa Fc). specialize (Fd q1 F1b F1a F1c). lia. }
        subst q1. destruct A1 as (_ & _ & _ & A1). destruct I' as (_ & (_ & _ & _ & A2) & _). lia.
      - intros sv2 pos2 w2 q2 Hq2 Hlt I2. cbn [wp]. exists (Z.max 0 (L + 30 * end_ + 40 - p * q2)).
        assert (P1 : p * q' <= L + 30 * end_ + 6).
        { destruct I' as (_ & (_ & _ & _ & E) & _). pose proof (off_bound _ (bitpos_range (p * q'))). lia. }
        assert (p * q <= p * q') by nia. assert (p * q' < p * q2) by nia.
        split; [lia|]. exists q2. split; [|split; auto].
        assert (p * q2 = L + 30 * pos2 + off (bitpos (p * q2))) by apply I2.
        assert (p * q' = L + 30 * pos' + off (bitpos (p * q'))) by apply I'.
        pose proof (off_bound _ (bitpos_range (p * q'))). pose proof (off_bound _ (bitpos_range (p * q2))). lia. }
    intros Q' HQ'. destruct (Z.eqb_spec (w mod 8) 0) as [E|E].
    + assert (Hw : 0 <= w < 64) by (destruct I as (_ & (? & _) & _); lia).
      assert (Ew : w = 8 * (w / 8)) by (pose proof (Z.div_mod w 8); lia).
      assert (Hk : 0 <= w / 8 < 8) by (split; [apply Z.div_pos; lia|apply Z.div_lt_upper_bound; lia]).
      eapply (unrolled_rule L p q0 n end_ B HL Hp0 ltac:(lia) Hq0 (w / 8) base sv pos q); auto; try lia.
      { now rewrite <- Ew. }
      rewrite <- Ew. exact HQ'.
    + cbn [wp]. apply (HQ' _ _ q); auto. lia.
  - exists q0. pose proof (sp_mi_range s). split; [lia|]. auto.
  - lia.
Qed.

(** *** All primes, all chunks *)
Lemma cut_split M p a b c m : a <= b <= c -> cut M p a c m = cut M p a b m || cut M p b c m.
Proof.
  intros H. unfold cut. destruct (strikes M p m); cbn [andb]; auto.
  destruct (Z.ltb_spec (a + 6) m), (Z.ltb_spec (b + 6) m), (Z.ltb_spec m (c + 7)), (Z.ltb_spec m (b + 7)); cbn; auto; lia.
Qed.
Definition cuts (M : Z) (ps : list Z) (lo hi m : Z) : bool := existsb (fun p => cut M p lo hi m) ps.
Lemma cuts_app M l l' lo hi m : cuts M (l ++ l') lo hi m = cuts M l lo hi m || cuts M l' lo hi m.
Proof. apply existsb_app. Qed.
Lemma cuts_split M ps a b c m : a <= b <= c -> cuts M ps a c m = cuts M ps a b m || cuts M ps b c m.
Proof.
  intros H. induction ps as [|p ps IH]; cbn [cuts existsb]; auto. rewrite (cut_split M p a b c) by auto.
  unfold cuts in IH. rewrite IH. destruct (cut M p a b m), (cut M p b c m); cbn; auto; now rewrite ?orb_true_r.
Qed.
Lemma cuts_eq M ps lo hi m : cuts M ps lo hi m = struck M ps m && (lo + 6 <? m) && (m <? hi + 7).
Proof.
  unfold cuts, struck, cut. induction ps as [|p ps IH]; cbn [existsb]; auto. rewrite IH.
  destruct (strikes M p m), (lo + 6 <? m), (m <? hi + 7); cbn; auto; now rewrite ?orb_false_r, ?andb_false_r.
Qed.

Lemma Forall2_len {A B} (R : A -> B -> Prop) l l' : Forall2 R l l' -> length l = length l'.
Proof. induction 1; cbn; auto. Qed.
Lemma Forall2_split {A B} (R : A -> B -> Prop) l a rest bs : Forall2 R (l ++ a :: rest) bs ->
  exists b1 b b2, bs = b1 ++ b :: b2 /\ Forall2 R l b1 /\ R a b.
Proof.
  intros H. apply Forall2_app_inv_l in H. destruct H as (b1 & b2 & H1 & H2 & ->). inversion H2; subst. eauto 8.
Qed.

Lemma small_chunk_rule L base end_ n B l ps sieve (Q : _ -> Prop) :
  L mod 30 = 0 -> 0 <= L < 2 ^ 64 -> 0 <= base <= end_ -> end_ <= n -> n <= 2 ^ 40 -> Forall (fun p => p <= 5 * 2 ^ 22) ps ->
  zlen sieve = n -> holds sieve L B -> Forall2 (stored 30 8 (L + 30 * base)) l ps ->
  (forall l' sieve', zlen sieve' = n -> Forall2 (stored 30 8 (L + 30 * end_)) l' ps ->
     holds sieve' L (fun m => B m && negb (cuts 30 ps (L + 30 * base) (L + 30 * end_) m)) -> Q (l', sieve')) ->
  wp (each_map (small_prime base end_) l sieve) Q.
Proof.
  intros HL HLr Hb He Hn Hpm Hlen HB HS HQ.
  apply each_map_rule with (Inv := fun done done' sieve => zlen sieve = n /\ exists pd, (exists pr, ps = pd ++ pr) /\
    Forall2 (stored 30 8 (L + 30 * base)) done pd /\ Forall2 (stored 30 8 (L + 30 * end_)) done' pd /\
    holds sieve L (fun m => B m && negb (cuts 30 pd (L + 30 * base) (L + 30 * end_) m))).
  - split; auto. exists []. repeat split; auto; [exists ps; auto|]. eapply holds_ext; eauto. intros. cbn. now rewrite andb_true_r.
  - intros done done' s sv [rest ->] (Hl & pd & [pr Epr] & F1 & F2 & HH).
    destruct (Forall2_split _ _ _ _ _ HS) as (b1 & p & b2 & Eps & G1 & G2).
    assert (Hlenpd : length b1 = length pd) by (rewrite <- (Forall2_len _ _ _ G1), <- (Forall2_len _ _ _ F1); auto).
    assert (E : b1 = pd /\ pr = p :: b2).
    { rewrite Eps in Epr. clear - Epr Hlenpd. revert pd pr Epr Hlenpd. induction b1 as [|x b1 IH]; intros [|y pd] pr E H; try discriminate; cbn in *; [split; congruence|].
      injection E as -> E. destruct (IH pd pr E) as [-> ->]; auto. }
    destruct E as [-> ->]. rewrite Eps in Hpm. apply Forall_app in Hpm. destruct Hpm as [_ Hpm]. inversion Hpm; subst.
    eapply (small_prime_rule L base end_ (zlen sieve)); eauto; try lia.
    intros s' sv' Hl' S' HH'. split; auto. exists (pd ++ [p]). split; [exists b2; now rewrite <- app_assoc|].
    split; [apply Forall2_app; auto|]. split; [apply Forall2_app; auto|].
    eapply holds_ext; [exact HH'|]. intros. cbv beta. rewrite cuts_app, negb_orb, andb_assoc. f_equal. cbn. now rewrite orb_false_r.
  - intros l' sv (Hl & pd & [pr ->] & F1 & F2 & HH).
    assert (pr = []). { apply Forall2_len in HS, F1. rewrite app_length in HS. apply length_zero_iff_nil. lia. }
    subst pr. rewrite app_nil_r in *. apply HQ; auto.
Qed.

Lemma for_step_rule {S} hi d (body : Z -> S -> res S) (Inv : Z -> S -> Prop) s (Q : S -> Prop) :
  0 < d -> 0 <= hi < 2 ^ 300 -> Inv 0 s ->
  (forall i s, 0 <= i < hi -> Inv i s -> wp (body i s) (Inv (Z.min (i + d) hi))) ->
  (forall s, Inv hi s -> Q s) -> wp (for_step 0 hi d body s) Q.
Proof.
  intros Hd Hh H0 HS HQ. unfold for_step.
  apply (loop_rule _ (fun '(i, s) => 0 <= i /\ Inv (Z.min i hi) s) (fun '(i, _) => Z.max 0 (hi - i))).
  - intros [i s1] (Hi & HI). destruct (Z.ltb_spec i hi) as [LT|GE].
    + apply wp_bind. rewrite Z.min_l in HI by lia. eapply wp_mono; [apply HS; auto; lia|]. intros s2 H2. cbn [wp]. split; [|lia]. split; [lia|exact H2].
    + cbn [wp]. apply HQ. now rewrite Z.min_r in HI by lia.
  - split; [lia|]. now rewrite Z.min_l by lia.
  - lia.
Qed.

Definition small_state (L : Z) (e : esmall) (ps : list Z) : Prop :=
  Forall2 (stored 30 8 L) (es_primes e) ps /\ Forall (fun p => p <= 5 * 2 ^ 22) ps.

Theorem esmall_cross_rule L n size B e ps sieve (Q : _ -> Prop) :
  L mod 30 = 0 -> 0 <= L < 2 ^ 64 -> 0 <= size <= n -> n <= 2 ^ 40 -> 0 < es_l1 e ->
  zlen sieve = n -> holds sieve L B -> small_state L e ps ->
  (forall e' sieve', zlen sieve' = n -> es_on e' = es_on e -> es_stop e' = es_stop e -> es_l1 e' = es_l1 e -> small_state (L + 30 * size) e' ps ->
     holds sieve' L (fun m => B m && negb (struck 30 ps m && (L + 6 <? m) && (m <? L + 30 * size + 7))) -> Q (e', sieve')) ->
  wp (esmall_cross sieve size e) Q.
Proof.
  intros HL HLr Hs Hn Hl1 Hlen HB (HF & HM) HQ. unfold esmall_cross. apply wp_bind.
  apply for_step_rule with (Inv := fun i '(l, sv) => zlen sv = n /\ Forall2 (stored 30 8 (L + 30 * i)) l ps /\
     holds sv L (fun m => B m && negb (cuts 30 ps L (L + 30 * i) m))); auto; try lia.
  - split; auto. split; [now replace (L + 30 * 0) with L by lia|]. eapply holds_ext; eauto. intros. cbv beta.
    rewrite cuts_eq. destruct (struck 30 ps _), (Z.ltb_spec (L + 6) (L + 30 * i + off j)), (Z.ltb_spec (L + 30 * i + off j) (L + 30 * 0 + 7)); cbn; rewrite ?andb_true_r; auto; lia.
  - intros i [l sv] Hi (Hl & HFi & HH).
    eapply (small_chunk_rule L i (Z.min (i + es_l1 e) size) n); eauto; try lia.
    intros l' sv' Hl' HF' HH'. split; auto. split; auto. eapply holds_ext; [exact HH'|]. intros. cbv beta.
    rewrite (cuts_split 30 ps L (L + 30 * i) (L + 30 * Z.min (i + es_l1 e) size)) by lia. now rewrite negb_orb, andb_assoc.
  - intros [l sv] (Hl & HF' & HH). cbn [wp]. apply HQ; auto.
    + split; auto.
    + eapply holds_ext; [exact HH|]. intros. cbv beta. now rewrite cuts_eq.
Qed.
