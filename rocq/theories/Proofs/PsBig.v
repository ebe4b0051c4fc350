(** EratBig::crossOff clears the multiples of its primes. *)
From Coq Require Import ZArith List Lia Bool Znumtheory.
From Verif.Base Require Import Res Word Zl Each.
From Verif.Model Require Import PsTables PsMath PsErat.
From Verif.Spec Require Import PsSpec.
From Verif.Proofs Require Import PsWheel PsCross PsSmall PsMedium.
Import ListNotations.
Open Scope Z_scope.
Local Ltac Zify.zify_post_hook ::= idtac.

Definition we_row (e : wheel_element) : Z * Z * Z := (we_unset e, we_factor e, we_correct e).
Lemma wheel210_ok w : 0 <= w < 384 -> exists e, aget wheel210 w = Ok e /\ row_okb 210 48 (we_row e) (w + we_next e) w = true.
Proof.
  assert (E : forallb (fun w => match aget wheel210 w with Ok e => row_okb 210 48 (we_row e) (w + we_next e) w | _ => false end) (zrange 0 384) = true)
    by (vm_compute; reflexivity).
  rewrite forallb_forall in E. intros H. specialize (E w). rewrite in_zrange in E. specialize (E H).
  destruct (aget wheel210 w) as [e|]; [eauto|discriminate].
Qed.
(** wheel30 is used by no code but its size; it agrees with the lines of EratSmall *)
Lemma wheel30_ok w : 0 <= w < 64 -> exists e, aget wheel30 w = Ok e /\ row_okb 30 8 (we_row e) (w + we_next e) w = true.
Proof.
  assert (E : forallb (fun w => match aget wheel30 w with Ok e => row_okb 30 8 (we_row e) (w + we_next e) w | _ => false end) (zrange 0 64) = true)
    by (vm_compute; reflexivity).
  rewrite forallb_forall in E. intros H. specialize (E w). rewrite in_zrange in E. specialize (E H).
  destruct (aget wheel30 w) as [e|]; [eauto|discriminate].
Qed.

Lemma D210 : (30 | 210). Proof. exists 7. reflexivity. Qed.
Lemma H210 : 0 < 210. Proof. lia. Qed.

Lemma each_concat {A S} (f : A -> S -> res S) c s : each (fun b st => each f b st) c s = each f (concat c) s.
Proof.
  assert (E : forall l1 l2 s, each f (l1 ++ l2) s = (s' <- each f l1 s ;; each f l2 s')).
  { induction l1 as [|a l1 IH]; intros l2 s0; cbn [each app]; [reflexivity|]. destruct (f a s0); cbn [bind]; auto. }
  revert s. induction c as [|b c IH]; intros s; cbn [each concat]; auto. rewrite E. destruct (each f b s); cbn [bind]; auto.
Qed.

(** *** Between segments *)
(** chain k holds primes whose next multiple lies in the k-th segment from now *)
Definition big_stored (L S k : Z) (s : sprime) (p q : Z) : Prop :=
  7 <= p < 2 ^ 32 /\ sp_sp s = p / 30 /\ sp_mi s < S /\ at_mult 210 48 (L + 30 * S * k) p (sp_mi s) (sp_wi s) q.
Definition big_state (L S : Z) (e : ebig) (ps : list Z) : Prop :=
  nonempty_buckets (eb_buckets e) /\ eb_mod e = S - 1 /\
  0 <= eb_log2 e <= 22 /\ S = 2 ^ eb_log2 e /\ 0 < zlen (eb_buckets e) /\
  (forall p, In p ps -> 30 <= p /\ (S - 1 + p / 30 * 10 + 10) / S < zlen (eb_buckets e)) /\
  (forall k s, mem (eb_buckets e) k s -> exists p q, In p ps /\ big_stored L S k s p q /\ first_q 210 L p q) /\
  (forall p, In p ps -> exists k s q, mem (eb_buckets e) k s /\ big_stored L S k s p q /\ first_q 210 L p q).

Lemma shiftr_div S l mi : S = 2 ^ l -> 0 <= l -> Z.shiftr mi l = mi / S.
Proof. intros -> H. now apply Z.shiftr_div_pow2. Qed.
Lemma land_mod S l mi : S = 2 ^ l -> 0 <= l -> Z.land mi (S - 1) = mi mod S.
Proof. intros -> H. rewrite <- Z.land_ones by auto. f_equal. rewrite Z.ones_equiv. lia. Qed.

Lemma big_stored_set L S p mi wi q : 0 < S <= 2 ^ 22 -> 7 <= p < 2 ^ 32 -> 0 <= mi -> at_mult 210 48 L p mi wi q ->
  big_stored L S (mi / S) (sp_set (p / 30) (mi mod S) wi) p q.
Proof.
  intros HS Hp Hm HA. pose proof (Z.mod_pos_bound mi S ltac:(lia)). assert (0 <= wi < 2 ^ 9) by (destruct HA as (? & _); lia).
  assert (0 <= p / 30 < 2 ^ 32) by (split; [apply Z.div_pos; lia|apply Z.div_lt_upper_bound; lia]).
  unfold big_stored. rewrite sp_set_mi, sp_set_wi, sp_set_sp by lia. repeat split; auto; try lia; try apply HA.
  destruct HA as (_ & _ & _ & E). pose proof (Z.div_mod mi S ltac:(lia)). assert (30 * mi = 30 * S * (mi / S) + 30 * (mi mod S)) by lia. lia.
Qed.

(** *** Within one segment *)
Section Big.
  Variables (L S n : Z) (B : Z -> bool) (ps : list Z) (e : ebig).
  Hypotheses (HL : L mod 30 = 0) (HLr : 0 <= L < 2 ^ 64) (HSn : n = S) (He : eb_mod e = S - 1) (Hlog : 0 <= eb_log2 e <= 22) (HS : S = 2 ^ eb_log2 e)
             (Hps : forall p, In p ps -> 30 <= p /\ (S - 1 + p / 30 * 10 + 10) / S < zlen (eb_buckets e)).

  Lemma S_bound : 0 < S <= 2 ^ 22.
  Proof. rewrite HS. split; [apply Z.pow_pos_nonneg; lia|apply Z.pow_le_mono_r; lia]. Qed.

  (** C is the set of multiples cleared so far *)
  Definition binv (C : Z -> bool) (k : Z) (s : sprime) (p : Z) : Prop :=
    In p ps /\ exists q, big_stored L S k s p q /\ p <= q /\ L + 6 < p * q /\ cop 210 q = true /\
      forall t, cop 210 t = true -> p <= t < q -> L + 6 < p * t -> C (p * t) = true.
  Definition bgood (C : Z -> bool) (r : Z) (pend : list sprime) (st : list chain * list Z) : Prop :=
    let '(bs, sieve) := st in
    zlen sieve = n /\ holds sieve L (fun m => B m && negb (C m)) /\
    (forall m, C m = true -> struck 210 ps m = true /\ L + 6 < m < L + 30 * S + 7) /\
    zlen bs = zlen (eb_buckets e) /\ nonempty_buckets bs /\
    (forall k s, mem bs k s -> exists p, binv C k s p) /\ (forall s, mem bs 0 s -> r <= sp_mi s) /\
    (forall s, In s pend -> exists p, binv C 0 s p) /\
    (forall p, In p ps -> exists k s, (mem bs k s \/ k = 0 /\ In s pend) /\ binv C k s p).

  Lemma big_prime_rule C r s rest st (Q : _ -> Prop) : bgood C r (s :: rest) st -> r <= sp_mi s + 1 ->
    (forall C' st', bgood C' r rest st' -> Q st') -> wp (big_prime e s st) Q.
  Proof.
    destruct st as [bs sieve]. intros (G1 & G2 & G3 & G4 & G5 & G6 & G6' & G7 & G8) Hr HQ. pose proof S_bound as SB.
    destruct (G7 s (or_introl eq_refl)) as (p & Hin & q & HB & Hq1 & Hq2 & Hq3 & Hq4).
    pose proof HB as (Hp & Hsp & Hmi & HA). pose proof (sp_mi_range s) as Rmi. destruct (Hps p Hin) as (P30 & PN).
    replace (L + 30 * S * 0) with L in HA by lia.
    unfold big_prime, unset_bit. apply wp_bind. apply wp_bind.
    assert (Hw : 0 <= sp_wi s < 384) by (destruct HA as (? & _); lia).
    destruct (wheel210_ok _ Hw) as (we & -> & R). apply wp_ok. cbn beta. apply wp_bind.
    destruct (row_step 210 48 L p (sp_mi s) (sp_wi s) q _ _ _ _ H210 D210 ltac:(lia) HA R) as (R1 & R2 & R3 & R4 & R5).
    assert (E : p * q = L + 30 * sp_mi s + off (bitpos (p * q))) by apply HA.
    pose proof (off_bound _ (bitpos_range (p * q))) as OB.
    eapply clear_rule with (low := L) (j := bitpos (p * q)); eauto; try lia; [apply bitpos_range|].
    intros sieve' Hl' HH'. cbn [wp]. rewrite Hsp.
    assert (SP : 0 <= p / 30 < 2 ^ 32) by (split; [apply Z.div_pos; lia|apply Z.div_lt_upper_bound; lia]).
    assert (SP1 : 1 <= p / 30) by (apply Z.div_le_lower_bound; lia).
    set (mi' := sp_mi s + (p / 30 * we_factor we + we_correct we)) in *.
    assert (M1 : sp_mi s + 1 <= mi' <= S - 1 + p / 30 * 10 + 10) by (unfold mi'; nia).
    replace (sp_mi s + we_factor we * (p / 30) + we_correct we) with mi' by (unfold mi'; ring).
    assert (EW : uwrap 64 mi' = mi') by (apply Z.mod_small; lia). rewrite EW.
    apply wp_bind. unfold big_store. rewrite (shiftr_div S) by (auto; lia). rewrite He, (land_mod S (eb_log2 e)) by (auto; lia).
    set (s' := sp_set (p / 30) (mi' mod S) (sp_wi s + we_next we)).
    assert (ST : big_stored L S (mi' / S) s' p (q + we_factor we)) by (apply big_stored_set; auto; lia).
    assert (KR : 0 <= mi' / S < zlen bs).
    { split; [apply Z.div_pos; lia|]. rewrite G4. eapply Z.le_lt_trans; [|exact PN]. apply Z.div_le_mono; lia. }
    apply push_at_rule; auto. intros bs' Hl2 Hne Hmem. cbn [wp].
    set (C' := fun m => C m || (m =? p * q)).
    assert (CC : forall m, C m = true -> C' m = true) by (intros m H; unfold C'; now rewrite H).
    assert (BM : forall k s p, binv C k s p -> binv C' k s p).
    { intros k x p' (I & q' & X1 & X2 & X3 & X4 & X5). split; auto. exists q'. repeat split; auto; try apply X1. }
    assert (BN : binv C' (mi' / S) s' p).
    { split; auto. exists (q + we_factor we). split; [auto|]. split; [lia|]. split; [nia|]. split.
      - destruct (at_mult_cop 210 48 L p mi' (sp_wi s + we_next we) (q + we_factor we) H210 D210 qs210_len R4) as [? _]; auto.
      - intros t Ct Ht Lt. unfold C'. destruct (Z.lt_trichotomy t q) as [T|[->|T]].
        + rewrite Hq4 by (auto; lia). reflexivity.
        + rewrite Z.eqb_refl. now rewrite orb_true_r.
        + replace t with (q + (t - q)) in Ct by lia. rewrite R5 in Ct by lia. discriminate. }
    apply (HQ C'). split; [lia|]. split; [|split; [|split; [lia|split; [auto|split; [|split; [|split]]]]]].
    - eapply holds_ext; [exact HH'|]. intros i j Hi Hj. cbv beta. unfold C'. rewrite <- E. now rewrite negb_orb, andb_assoc.
    - intros m Hm. unfold C' in Hm. apply orb_true_iff in Hm. destruct Hm as [Hm|Hm]; [now apply G3|]. apply Z.eqb_eq in Hm. subst m. split; [|lia].
      unfold struck. apply existsb_exists. exists p. split; auto. unfold strikes.
      rewrite (Z.mul_comm p q), Z.mod_mul, Z.div_mul by lia. rewrite Hq3. rewrite andb_true_iff, Z.leb_le. auto.
    - intros k x Hx. apply Hmem in Hx. destruct Hx as [Hx|(-> & ->)]; [destruct (G6 k x Hx) as (p' & ?); eauto|eauto].
    - intros x Hx. apply Hmem in Hx. destruct Hx as [Hx|(E0 & ->)]; [auto|].
      unfold s'. rewrite sp_set_mi; [|pose proof (Z.mod_pos_bound mi' S); lia|destruct R4 as (? & _); lia].
      assert (mi' mod S = mi') by (pose proof (Z.div_mod mi' S); lia). lia.
    - intros x Hx. destruct (G7 x (or_intror Hx)) as (p' & ?); eauto.
    - intros p' Hp'. destruct (G8 p' Hp') as (k & x & [Hx|(-> & [<-|Hx])] & BI).
      + exists k, x. split; auto. left. apply Hmem. auto.
      + assert (p' = p). { destruct BI as (_ & q' & ((? & E1 & _ & (_ & E2 & _)) & _)). destruct HA as (_ & E3 & _).
          rewrite (Z.div_mod p' 30), (Z.div_mod p 30) by lia. congruence. }
        subst p'. exists (mi' / S), s'. split; auto. left. apply Hmem. auto.
      + exists 0, x. split; auto.
  Qed.

  Lemma big_primes_rule r l : forall C st, (forall s, In s l -> r <= sp_mi s + 1) -> bgood C r l st ->
    wp (each (big_prime e) l st) (fun st' => exists C', bgood C' r [] st').
  Proof.
    induction l as [|s l IH]; intros C st Hr G; cbn [each]; [cbn [wp]; eauto|].
    apply wp_bind. eapply big_prime_rule; eauto; [apply Hr; now left|]. intros C' st' G'. apply (IH C'); auto. intros x Hx. apply Hr. now right.
  Qed.

  Lemma bgood_start sieve : zlen sieve = n -> holds sieve L B -> big_state L S e ps -> bgood (fun _ => false) 0 [] (eb_buckets e, sieve).
  Proof.
    intros H1 H2 (B1 & B2 & B3 & B4 & B5 & B6 & B7 & B8).
    assert (BI : forall k s p q, In p ps -> big_stored L S k s p q -> first_q 210 L p q -> binv (fun _ => false) k s p).
    { intros k s p q Hp HB (F1 & F2 & F3 & F4). split; auto. exists q. repeat split; auto; try apply HB. intros t Ct Ht Lt. specialize (F4 t Ct ltac:(lia) Lt). lia. }
    split; auto. split. { eapply holds_ext; eauto. intros. cbv beta. now rewrite andb_true_r. }
    split; [discriminate|]. split; auto. split; auto. split; [|split; [|split]].
    - intros k s Hm. destruct (B7 k s Hm) as (p & q & ? & ? & ?). eauto.
    - intros s _. apply sp_mi_range.
    - intros s [].
    - intros p Hp. destruct (B8 p Hp) as (k & s & q & ? & ? & ?). exists k, s. split; eauto.
  Qed.

  Theorem ebig_cross_rule' sieve (Q : _ -> Prop) : zlen sieve = n -> holds sieve L B -> big_state L S e ps ->
    (forall e' sieve', zlen sieve' = n -> eb_on e' = eb_on e -> eb_stop e' = eb_stop e -> eb_log2 e' = eb_log2 e -> zlen (eb_buckets e') = zlen (eb_buckets e) -> big_state (L + 30 * S) S e' ps ->
       holds sieve' L (fun m => B m && negb (struck 210 ps m && (L + 6 <? m) && (m <? L + 30 * S + 7))) -> Q (e', sieve')) ->
    wp (ebig_cross sieve e) Q.
  Proof.
    intros Hlen HB HBS HQ. pose proof S_bound as SB. pose proof (bgood_start sieve Hlen HB HBS) as G0.
    unfold ebig_cross. apply wp_bind.
    apply (loop_ghost _ (fun m st => exists r C, bgood C r [] st /\ 0 <= r /\ m = Z.max 0 (S + 1 - r))) with (n := S + 1).
    - intros m [bs sv] (r & C & G & Hr & ->). pose proof G as (G1 & G2 & G3 & G4 & G5 & G6 & G6' & G7 & G8).
      assert (N0 : 0 < zlen bs) by (destruct HBS as (_ & _ & _ & _ & ? & _); lia).
      apply wp_bind. apply (@wp_aget chain); [exact (conj (Z.le_refl 0) N0)|]. intros c Hc. change (@aget chain bs 0 = Ok c) in Hc. destruct c as [|b c].
      + cbn [wp]. (* bucket 0 is empty *)
        assert (NM : forall s, ~ mem bs 0 s) by (intros s (c & b & E & Hb & _); rewrite Hc in E; inversion E; subst; contradiction).
        assert (FAR : forall k s p, mem bs k s -> binv C k s p -> exists q, big_stored L S k s p q /\ first_q 210 (L + 30 * S) p q /\ 1 <= k /\ k < zlen bs).
        { intros k s p Hm (Hin & q & X1 & X2 & X3 & X4 & X5). exists q. split; auto.
          assert (Rk : 0 <= k < zlen bs) by (destruct Hm as (? & ? & E & _); now apply aget_range in E).
          assert (k <> 0) by (intros ->; now apply (NM s)). split; [|lia].
          assert (PQ : L + 30 * S + 6 < p * q).
          { destruct X1 as (_ & _ & _ & (_ & _ & _ & E)). pose proof (off_bound _ (bitpos_range (p * q))). pose proof (sp_mi_range s).
            assert (30 * S * 1 <= 30 * S * k) by nia. lia. }
          split; auto. split; auto. split; auto. intros t Ct Pt Lt. destruct (Z.le_gt_cases q t); auto.
          specialize (X5 t Ct ltac:(lia) ltac:(lia)). apply G3 in X5. lia. }
        assert (ROT : forall k s, mem (rotate1 bs) k s <-> mem bs (k + 1) s).
        { destruct bs as [|c0 bs]; [cbn in N0; lia|]. rewrite aget_cons in Hc. cbn in Hc. inversion Hc; subst c0.
          intros k s. unfold mem. cbn [rotate1]. split; intros (c & b & E & Hb & Hs).
          - rewrite aget_app in E. destruct (Z.ltb_spec k (zlen bs)).
            + exists c, b. split; auto. rewrite aget_cons. pose proof (aget_range _ _ _ E). destruct (Z.eqb_spec (k + 1) 0); [lia|]. now replace (k + 1 - 1) with k by lia.
            + rewrite aget_cons in E. destruct (Z.eqb_spec (k - zlen bs) 0); [inversion E; subst; contradiction|]. apply aget_range in E. cbn in E. lia.
          - rewrite aget_cons in E. destruct (Z.eqb_spec (k + 1) 0); [inversion E; subst; contradiction|]. replace (k + 1 - 1) with k in E by lia.
            pose proof (aget_range _ _ _ E). exists c, b. split; auto. rewrite aget_app. destruct (Z.ltb_spec k (zlen bs)); [auto|lia]. }
        assert (LEN : zlen (rotate1 bs) = zlen bs).
        { destruct bs; [reflexivity|]. cbn [rotate1]. rewrite zlen_app, !zlen_cons. cbn. lia. }
        assert (SH : forall k s p q, big_stored L S (k + 1) s p q -> big_stored (L + 30 * S) S k s p q).
        { intros k s p q (X1 & X2 & X3 & X4). repeat split; auto; try apply X1; try apply X4. destruct X4 as (_ & _ & _ & E). assert (30 * S * (k + 1) = 30 * S + 30 * S * k) by ring. lia. }
        apply HQ; auto.
        * now cbn [eb_buckets]; rewrite LEN.
        * unfold big_state. cbn [eb_buckets eb_mod eb_log2]. rewrite LEN.
          split; [|split; [auto|split; [auto|split; [auto|split; [auto|split; [|split]]]]]].
          -- intros k c0 b E Hb. destruct bs as [|c1 bs]; [cbn in N0; lia|]. cbn [rotate1] in E. rewrite aget_app in E.
             destruct (Z.ltb_spec k (zlen bs)).
             ++ apply (G5 (k + 1) c0); auto. rewrite aget_cons. pose proof (aget_range _ _ _ E). destruct (Z.eqb_spec (k + 1) 0); [lia|]. now replace (k + 1 - 1) with k by lia.
             ++ rewrite aget_cons in E. destruct (Z.eqb_spec (k - zlen bs) 0); [|apply aget_range in E; cbn in E; lia].
                inversion E; subst. apply (G5 0 c0); auto.
          -- intros p Hp. rewrite G4. now apply Hps.
          -- intros k s Hm. apply ROT in Hm. destruct (G6 _ _ Hm) as (p & BI). destruct (FAR _ _ _ Hm BI) as (q & X1 & X2 & _). exists p, q. split; [apply BI|]. auto.
          -- intros p Hp. destruct (G8 p Hp) as (k & s & [Hm|(_ & [])] & BI). destruct (FAR _ _ _ Hm BI) as (q & X1 & X2 & X3 & _).
             exists (k - 1), s, q. split; [apply ROT; now replace (k - 1 + 1) with k by lia|]. split; auto. apply SH. now replace (k - 1 + 1) with k by lia.
        * eapply holds_ext; [exact G2|]. intros i j Hi Hj. cbv beta. f_equal. f_equal. set (m := L + 30 * i + off j). clearbody m.
          apply eq_true_iff_eq. rewrite !andb_true_iff, !Z.ltb_lt. split.
          -- intros H. destruct (G3 m H). split; [split; auto|]; lia.
          -- intros ((Hst & H1) & H2). unfold struck in Hst. apply existsb_exists in Hst. destruct Hst as (p & Hp & Hst). unfold strikes in Hst.
             rewrite !andb_true_iff, Z.eqb_eq, Z.leb_le in Hst. destruct Hst as ((E & Ct) & Pt).
             assert (0 < p) by (specialize (Hps p Hp); lia).
             assert (Em : m = p * (m / p)) by (rewrite (Z.div_mod m p) at 1 by lia; lia).
             destruct (G8 p Hp) as (k & s & [Hm|(_ & [])] & BI). destruct (FAR _ _ _ Hm BI) as (q' & X1' & X2' & X3' & _).
             destruct BI as (_ & q & X1 & X2 & X3 & X4 & X5).
             assert (q' = q). { destruct X1 as (_ & _ & _ & (_ & _ & _ & EE)), X1' as (_ & _ & _ & (_ & _ & _ & EE')).
               assert (H0 : 7 <= off (bitpos (p * q)) <= 31) by apply off_bound, bitpos_range. assert (H0' : 7 <= off (bitpos (p * q')) <= 31) by apply off_bound, bitpos_range.
               assert (p * (q' - q) < 30 /\ p * (q - q') < 30) by (split; lia). specialize (Hps p Hp). nia. }
             subst q'. rewrite Em. apply X5; auto.
             ++ destruct X2' as (_ & _ & F3 & _). split; auto. nia.
             ++ lia.
      + apply wp_bind. apply (@wp_aset chain); [exact (conj (Z.le_refl 0) N0)|]. intros bs1 Hl1 Hg1. rewrite each_concat. apply wp_bind.
        assert (MM : forall k s, mem bs1 k s <-> k <> 0 /\ mem bs k s).
        { intros k s. unfold mem. rewrite Hg1. destruct (Z.eqb_spec k 0) as [->|N].
          - split; [intros (c' & b' & E & Hb & _); inversion E; subst; contradiction|intros [[] _]; reflexivity].
          - split; [intros H; split; auto|intros [_ H]; auto]. }
        assert (PM : forall s, In s (concat (b :: c)) <-> mem bs 0 s).
        { intros s. rewrite in_concat. unfold mem. split; [intros (b' & Hb & Hs); eauto 6|]. intros (c' & b' & E & Hb & Hs). rewrite Hc in E. inversion E; subst c'. eauto. }
        assert (NE : exists s, mem bs 0 s).
        { destruct b as [|s b]; [exfalso; apply (G5 0 ([] :: c) [] Hc); [now left|reflexivity]|]. exists s. apply PM. now left. }
        assert (RS : r < S).
        { destruct NE as (s & Hm). specialize (G6' s Hm). destruct (G6 0 s Hm) as (p & _ & q & (_ & _ & ? & _) & _). lia. }
        eapply wp_mono.
        * apply (big_primes_rule (r + 1) (concat (b :: c)) C).
          -- intros s Hs. apply PM in Hs. specialize (G6' s Hs). lia.
          -- split; auto. split; auto. split; auto. split; [lia|]. split; [|split; [|split; [|split]]].
             ++ intros k c' b' E Hb. rewrite Hg1 in E. destruct (k =? 0); [inversion E; subst; contradiction|]. eapply G5; eauto.
             ++ intros k s Hm. apply MM in Hm. now apply G6.
             ++ intros s Hm. apply MM in Hm. destruct Hm as [H _]. congruence.
             ++ intros s Hs. apply PM in Hs. now apply G6.
             ++ intros p Hp. destruct (G8 p Hp) as (k & s & [Hm|(_ & [])] & BI). exists k, s. split; auto.
                destruct (Z.eq_dec k 0) as [->|N]; [right; split; auto; now apply PM|left; apply MM; auto].
        * intros st' (C' & G'). cbn [wp]. exists (Z.max 0 (S + 1 - (r + 1))). split; [lia|]. exists (r + 1), C'. split; auto. lia.
    - exists 0, (fun _ => false). split; auto. lia.
    - lia.
  Qed.
End Big.

Theorem ebig_cross_rule L S B ps e sieve (Q : _ -> Prop) : L mod 30 = 0 -> 0 <= L < 2 ^ 64 ->
  zlen sieve = S -> holds sieve L B -> big_state L S e ps ->
  (forall e' sieve', zlen sieve' = S -> eb_on e' = eb_on e -> eb_stop e' = eb_stop e -> eb_log2 e' = eb_log2 e -> zlen (eb_buckets e') = zlen (eb_buckets e) -> big_state (L + 30 * S) S e' ps ->
     holds sieve' L (fun m => B m && negb (struck 210 ps m && (L + 6 <? m) && (m <? L + 30 * S + 7))) -> Q (e', sieve')) ->
  wp (ebig_cross sieve e) Q.
Proof.
  intros HL HLr Hlen HB HS HQ. pose proof HS as (B1 & B2 & B3 & B4 & B5 & B6 & B7 & B8).
  apply (ebig_cross_rule' L S S B ps e); auto.
Qed.
