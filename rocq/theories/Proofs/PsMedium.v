(** EratMedium::crossOff clears the multiples of its primes. *)
From Coq Require Import ZArith List Lia Bool Znumtheory.
From Verif.Base Require Import Res Word Zl Each.
From Verif.Model Require Import PsTables PsMath PsErat.
From Verif.Spec Require Import PsSpec.
From Verif.Proofs Require Import PsWheel PsCross PsSmall.
Import ListNotations.
Open Scope Z_scope.
Local Ltac Zify.zify_post_hook ::= idtac.

(** *** Arrays of chains *)
Definition mem (bs : list chain) (k : Z) (s : sprime) : Prop := exists c b, aget bs k = Ok c /\ In b c /\ In s b.
Definition nonempty_buckets (bs : list chain) : Prop := forall k c b, aget bs k = Ok c -> In b c -> b <> [].

Lemma push_in s c b : In b (push s c) -> (In b c \/ (exists b0, In b0 c /\ b = b0 ++ [s]) \/ b = [s]).
Proof.
  destruct c as [|b0 c]; cbn [push]; [intros [<-|[]]; auto|]. destruct (zlen b0 >=? bucket_size); intros [<-|H]; auto.
  - right. left. exists b0. split; [now left|auto].
  - left. now right.
Qed.
Lemma push_mem s c x : (exists b, In b (push s c) /\ In x b) <-> (exists b, In b c /\ In x b) \/ x = s.
Proof.
  destruct c as [|b0 c]; cbn [push].
  - split; [intros (b & [<-|[]] & [<-|[]]); auto|]. intros [(b & [] & _)| ->]. exists [s]. split; now left.
  - destruct (zlen b0 >=? bucket_size); split.
    + intros (b & [<-|H] & Hx); [destruct Hx as [<-|[]]; auto|]. left. eauto.
    + intros [(b & H & Hx)| ->]; [exists b; split; auto; now right|]. exists [s]. split; now left.
    + intros (b & [<-|H] & Hx); [|left; exists b; split; auto; now right].
      apply in_app_iff in Hx. destruct Hx as [Hx|[<-|[]]]; auto. left. exists b0. split; auto. now left.
    + intros [(b & [<-|H] & Hx)| ->].
      * exists (b0 ++ [s]). split; [now left|]. apply in_app_iff. auto.
      * exists b. split; auto. now right.
      * exists (b0 ++ [s]). split; [now left|]. apply in_app_iff. right. now left.
Qed.

Lemma push_at_rule i s bs (Q : list chain -> Prop) : 0 <= i < zlen bs -> nonempty_buckets bs ->
  (forall bs', zlen bs' = zlen bs -> nonempty_buckets bs' -> (forall k x, mem bs' k x <-> mem bs k x \/ (k = i /\ x = s)) -> Q bs') ->
  wp (push_at i s bs) Q.
Proof.
  intros Hi Hne HQ. unfold push_at. apply wp_bind. apply wp_aget; auto. intros c Hc. apply wp_aset; auto. intros bs' Hl Hg.
  apply HQ; auto.
  - intros k c' b Hk Hb. rewrite Hg in Hk. destruct (Z.eqb_spec k i) as [->|N].
    + inversion Hk; subst c'. apply push_in in Hb. destruct Hb as [Hb|[(b0 & _ & ->)| ->]]; [eapply Hne; eauto|destruct b0; discriminate|discriminate].
    + eapply Hne; eauto.
  - intros k x. unfold mem. rewrite Hg. destruct (Z.eqb_spec k i) as [->|N].
    + split.
      * intros (c' & b & E & H1 & H2). inversion E; subst c'. destruct (proj1 (push_mem s c x)) as [(b' & ? & ?)| ->]; eauto 8.
      * intros [(c' & b & E & H1 & H2)|(_ & ->)].
        -- rewrite Hc in E. inversion E; subst c'. destruct (proj2 (push_mem s c x)) as (b' & ? & ?); eauto 8.
        -- destruct (proj2 (push_mem s c s)) as (b' & ? & ?); eauto 8.
    + split; [intros H; now left|]. intros [H|[? _]]; [auto|contradiction].
Qed.

Lemma mem_empty n k s : ~ mem (amake n []) k s.
Proof.
  intros (c & b & E & H & _). pose proof (aget_range _ _ _ E) as R. destruct (Z.le_gt_cases 0 n).
  - rewrite amake_len in R by lia. rewrite amake_get in E by lia. inversion E; subst. contradiction.
  - unfold amake in R. replace (Z.to_nat n) with 0%nat in R by lia. cbn in R. lia.
Qed.
Lemma nonempty_empty n : nonempty_buckets (amake n []).
Proof.
  intros k c b E H. pose proof (aget_range _ _ _ E) as R. destruct (Z.le_gt_cases 0 n).
  - rewrite amake_len in R by lia. rewrite amake_get in E by lia. inversion E; subst. contradiction.
  - unfold amake in R. replace (Z.to_nat n) with 0%nat in R by lia. cbn in R. lia.
Qed.

(** the prime is determined by what is stored *)
Lemma stored_inj M size L s p L' p' : stored M size L s p -> stored M size L' s p' -> p = p'.
Proof.
  intros (H1 & H2 & q & (_ & H3 & _) & _) (H1' & H2' & q' & (_ & H3' & _) & _).
  rewrite (Z.div_mod p 30), (Z.div_mod p' 30) by lia. congruence.
Qed.

Definition med_state (L : Z) (bs : list chain) (ps : list Z) : Prop :=
  zlen bs = 64 /\ nonempty_buckets bs /\
  (forall k s, mem bs k s -> sp_wi s = k /\ exists p, In p ps /\ stored 30 8 L s p) /\
  (forall p, In p ps -> exists k s, mem bs k s /\ stored 30 8 L s p).

Lemma med_state_push L bs ps s p (Q : list chain -> Prop) : med_state L bs ps -> stored 30 8 L s p ->
  (forall bs', med_state L bs' (ps ++ [p]) -> Q bs') -> wp (push_at (sp_wi s) s bs) Q.
Proof.
  intros (H1 & H2 & H3 & H4) Hs HQ.
  assert (Hw : 0 <= sp_wi s < 64) by (destruct Hs as (_ & _ & q & (? & _) & _); lia).
  apply push_at_rule; auto; [lia|]. intros bs' Hl Hne Hm. apply HQ. split; [lia|]. split; [auto|]. split.
  - intros k x Hx. apply Hm in Hx. destruct Hx as [Hx|(-> & ->)].
    + destruct (H3 k x Hx) as (E & p' & Hp & S). split; auto. exists p'. split; auto. apply in_app_iff. auto.
    + split; auto. exists p. split; auto. apply in_app_iff. right. now left.
  - intros p' Hp. apply in_app_iff in Hp. destruct Hp as [Hp|[<-|[]]].
    + destruct (H4 p' Hp) as (k & x & Hx & S). exists k, x. split; auto. apply Hm. auto.
    + exists (sp_wi s), s. split; auto. apply Hm. auto.
Qed.

Lemma cuts_incl M l l' lo hi m : (forall p, In p l <-> In p l') -> cuts M l lo hi m = cuts M l' lo hi m.
Proof.
  intros H. apply eq_true_iff_eq. unfold cuts. rewrite !existsb_exists. split; intros (p & Hp & E); exists p; split; auto; now apply H.
Qed.
Lemma med_state_ext L bs l l' : (forall p, In p l <-> In p l') -> med_state L bs l -> med_state L bs l'.
Proof.
  intros H (H1 & H2 & H3 & H4). split; auto. split; auto. split.
  - intros k s Hm. destruct (H3 k s Hm) as (E & p & Hp & S). split; auto. exists p. split; auto. now apply H.
  - intros p Hp. apply H4. now apply H.
Qed.

Section Medium.
  Variables (L size n : Z) (B : Z -> bool) (ps : list Z).
  Hypotheses (HL : L mod 30 = 0) (HLr : 0 <= L < 2 ^ 64) (Hsz : 0 <= size <= n) (Hn : n <= 2 ^ 40) (Hps : Forall (fun p => p <= 5 * 2 ^ 22) ps).

  Definition good (pd : list Z) (st : list chain * list Z) : Prop :=
    let '(bs, sieve) := st in
    zlen sieve = n /\ holds sieve L (fun m => B m && negb (cuts 30 pd L (L + 30 * size) m)) /\ med_state (L + 30 * size) bs pd /\ incl pd ps.

  Lemma medium_prime_rule s p pd st (Q : _ -> Prop) : good pd st -> stored 30 8 L s p -> In p ps ->
    (forall st', good (pd ++ [p]) st' -> Q st') -> wp (medium_prime size (sp_wi s) s st) Q.
  Proof.
    destruct st as [bs sieve]. intros (Hlen & HH & HM & HI) HS Hin HQ. pose proof HS as (Hp & Hsp & HT).
    assert (HT' : track 30 8 (L + 30 * 0) p (sp_mi s) (sp_wi s)) by now replace (L + 30 * 0) with L by lia.
    destruct (cinv_start 30 8 L p 0 (sp_mi s) (sp_wi s) n size _ sieve Hlen HH HT') as (q0 & HF & I0).
    assert (Hp0 : 0 < p) by lia.
    assert (Hq0 : L + 6 < p * q0) by (destruct HF as (_ & _ & ? & _); lia).
    rewrite Forall_forall in Hps. specialize (Hps p Hin).
    unfold medium_prime. rewrite Hsp. apply wp_bind.
    apply (loop_ghost _ (fun m '(sieve, pos, w) => exists q,
        cinv 30 8 L p q0 n size (fun m => B m && negb (cuts 30 pd L (L + 30 * size) m)) sieve pos w q /\ m = Z.max 0 (L + 30 * size + 40 - p * q)))
      with (n := Z.max 0 (L + 30 * size + 40 - p * q0)).
    - intros m [[sv pos] w] (q & I & ->).
      eapply line_rule; eauto using medium_rows_ok; try lia.
      + intros Hge. cbn [wp].
        destruct (cinv_finish 30 8 L p 0 q0 n size (fun m => B m && negb (cuts 30 pd L (L + 30 * size) m)) sv pos w q) as (T & HH2 & HN); eauto using H30, D30, qs30_len, gaps30; try lia.
        assert (ST : stored 30 8 (L + 30 * size) (sp_set (p / 30) (pos - size) w) p).
        { apply stored_set; auto; try lia. destruct HN as [->|HN]; [|lia].
          destruct HT as (q1 & A1 & F1). pose proof (sp_mi_range s).
          replace (L + 30 * 0) with L in HF by lia.
          assert (q1 = q0). { destruct F1 as (F1a & F1b & F1c & F1d), HF as (Fa & Fb & Fc & Fd). specialize (F1d q0 Fb Fa Fc). specialize (Fd q1 F1b F1a F1c). lia. }
          subst q1. destruct A1 as (_ & _ & _ & A1). destruct I as (_ & (_ & _ & _ & A2) & _). lia. }
        apply wp_bind.
        replace w with (sp_wi (sp_set (p / 30) (pos - size) w)) at 1.
        2:{ apply sp_set_wi; [|destruct T as (? & (? & _) & _); lia]. pose proof (track_mi _ _ _ _ _ _ T). split; auto.
            destruct HN as [->|HN]; [|lia]. destruct HT as (q1 & A1 & F1). pose proof (sp_mi_range s).
            replace (L + 30 * 0) with L in HF by lia.
            assert (q1 = q0). { destruct F1 as (F1a & F1b & F1c & F1d), HF as (Fa & Fb & Fc & Fd). specialize (F1d q0 Fb Fa Fc). specialize (Fd q1 F1b F1a F1c). lia. }
            subst q1. destruct A1 as (_ & _ & _ & A1). destruct I as (_ & (_ & _ & _ & A2) & _). lia. }
        eapply med_state_push; eauto. intros bs' HM'. cbn [wp]. apply HQ. split; [apply I|]. split; [|split; auto].
        * eapply holds_ext; [exact HH2|]. intros. cbv beta. rewrite cuts_app, negb_orb, andb_assoc. f_equal. cbn. now rewrite orb_false_r, Z.add_0_r.
        * apply incl_app; auto. intros x [<-|[]]. auto.
      + intros sv2 pos2 w2 q2 Hq2 Hlt I2. cbn [wp]. exists (Z.max 0 (L + 30 * size + 40 - p * q2)).
        assert (P1 : p * q <= L + 30 * size + 6).
        { destruct I as (_ & (_ & _ & _ & E) & _). pose proof (off_bound _ (bitpos_range (p * q))). lia. }
        assert (p * q < p * q2) by nia. split; [lia|]. exists q2. auto.
    - exists q0. auto.
    - lia.
  Qed.

  Definition covers (pd : list Z) (l : list sprime) : Prop := forall s p, In s l -> stored 30 8 L s p -> In p pd.

  Lemma medium_primes_rule wi b pd st : (forall s, In s b -> sp_wi s = wi /\ exists p, In p ps /\ stored 30 8 L s p) -> good pd st ->
    wp (each (medium_prime size wi) b st) (fun st' => exists pd', incl pd pd' /\ good pd' st' /\ covers pd' b).
  Proof.
    intros Hb HG. apply each_rule with (Inv := fun done st => exists pd', incl pd pd' /\ good pd' st /\ covers pd' done); auto.
    - exists pd. split; [apply incl_refl|]. split; auto. intros s p [].
    - intros done s st1 [rest E] (pd' & I & G & C). destruct (Hb s) as (Ew & p & Hp & HS); [subst b; apply in_app_iff; right; now left|].
      rewrite <- Ew. eapply medium_prime_rule; eauto. intros st' G'. exists (pd' ++ [p]). split; [now apply incl_appl|]. split; auto.
      intros s' p' H' S'. apply in_app_iff in H'. apply in_app_iff. destruct H' as [H'|[<-|[]]]; [left; eauto|].
      right. left. eapply stored_inj; eauto.
  Qed.

  Theorem emedium_cross_rule e sieve (Q : _ -> Prop) : zlen sieve = n -> holds sieve L B -> med_state L (em_buckets e) ps ->
    (forall e' sieve', zlen sieve' = n -> em_on e' = em_on e -> em_stop e' = em_stop e -> med_state (L + 30 * size) (em_buckets e') ps ->
       holds sieve' L (fun m => B m && negb (struck 30 ps m && (L + 6 <? m) && (m <? L + 30 * size + 7))) -> Q (e', sieve')) ->
    wp (emedium_cross sieve size e) Q.
  Proof.
    intros Hlen HB (M1 & M2 & M3 & M4) HQ. unfold emedium_cross. apply wp_bind.
    apply for_rule with (Inv := fun i st => exists pd, good pd st /\ forall k s p, k < i -> mem (em_buckets e) k s -> stored 30 8 L s p -> In p pd).
    - lia.
    - exists []. split.
      + split; auto. split. { eapply holds_ext; eauto. intros. cbn. now rewrite andb_true_r. }
        split; [|intros x []]. split; [reflexivity|]. split; [apply nonempty_empty|]. split; [intros k s H; now apply mem_empty in H|intros p []].
      + intros k s p Hk (c & b & E & _). apply aget_range in E. lia.
    - intros i st Hi (pd & G & C). apply wp_bind. apply wp_aget; [lia|]. intros c Hc.
      eapply wp_mono.
      + apply each_rule with (Inv := fun done st => exists pd', incl pd pd' /\ good pd' st /\ covers pd' (concat done))
          (Q := fun st => exists pd', incl pd pd' /\ good pd' st /\ covers pd' (concat c)); auto.
        * exists pd. split; [apply incl_refl|]. split; auto. intros s p [].
        * intros done b st1 [rest E] (pd' & I & G' & C').
          assert (Hb : In b c) by (subst c; apply in_app_iff; right; now left).
          assert (HM : forall s, In s b -> sp_wi s = i /\ exists p, In p ps /\ stored 30 8 L s p) by (intros s Hs; apply M3; exists c, b; auto).
          unfold medium_bucket. apply wp_bind. destruct b as [|s0 b]; [exfalso; now apply (M2 i c [] Hc Hb)|].
          rewrite aget_cons. cbn [Z.eqb]. apply wp_ok. destruct (HM s0 (or_introl eq_refl)) as (-> & _). rewrite Z.eqb_refl.
          eapply wp_mono; [apply medium_primes_rule; eauto|]. intros st2 (pd2 & I2 & G2 & C2). exists pd2. split; [eapply incl_tran; eauto|]. split; auto.
          intros s p Hs S. rewrite concat_app in Hs. apply in_app_iff in Hs. destruct Hs as [Hs|Hs]; [apply I2; eauto|]. cbn [concat] in Hs. rewrite app_nil_r in Hs. eauto.
      + intros st' (pd' & I & G' & C'). exists pd'. split; auto. intros k s p Hk Hm S. destruct (Z.eq_dec k i) as [->|N].
        * destruct Hm as (c' & b & E & H1 & H2). rewrite Hc in E. inversion E; subst c'. apply (C' s); auto. apply in_concat. eauto.
        * apply I. apply (C k s); auto. lia.
    - intros [bs sv] (pd & (G1 & G2 & G3 & G4) & C). cbn [wp].
      assert (EQ : forall p, In p pd <-> In p ps).
      { intros p. split; [apply G4|]. intros Hp. destruct (M4 p Hp) as (k & s & Hm & S). apply (C k s); auto.
        destruct Hm as (c & b & E & _). apply aget_range in E. lia. }
      apply HQ; auto.
      + apply (med_state_ext _ _ pd); auto.
      + eapply holds_ext; [exact G2|]. intros. cbv beta. rewrite (cuts_incl 30 pd ps) by auto. now rewrite cuts_eq.
  Qed.
End Medium.
