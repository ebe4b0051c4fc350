(** The loops over the segments and over the primes of one segment, for any
    implementation of the sieve: what they compute is the sum over all leaves. *)
From Coq Require Import ZArith List Bool Lia Znumtheory.
From Verif.Base Require Import Res Word Zl Arr IType.
From Verif.Spec Require Import Primes LMOSpec S2Spec.
From Verif.Model Require Import S2 LMO.
From Verif.Proofs Require Import Primes NT LMO Accum Imath Tables Phi Leaf S2Leaf S2 PhiSum Bounds HardLeaf HardLoops LMOLeaf.
Import ListNotations.
Open Scope Z_scope.
Local Ltac Zify.zify_post_hook ::= idtac.

Section Seg.
  Context (x y c last seg lo limit n n' : Z) {V I P : Type}.
  Context (init : Z -> Z -> V -> list I -> res (V * list I)) (leaves : Z -> Z -> Z -> V -> P -> Z -> res (option (P * Z)))
    (cross : Z -> Z -> Z -> V -> I -> res (V * I)).
  Context (rs : Z -> Z) (Sb : Z) (alive : Z -> Z -> bool) (shape : V -> Prop) (rep : Z -> Z -> Z -> V -> Prop) (item : Z -> Z -> I -> Prop) (pok : Z -> Z -> P -> Prop) (Q0 : Z -> P).
  Hypothesis (Hy : 1 <= y < 2 ^ 31) (Hc : 0 <= c) (Hlast : last <= pi y + 1) (Hn : c < last -> last <= n) (Hn' : c < last -> last <= n') (Hlo : 1 <= lo) (Ho : Z.odd lo = true).
  Hypothesis (He : (2 | seg)) (Hseg : 0 < seg) (Hlim : limit + seg < 2 ^ 63).
  Let Wb := Wl x y.

  Definition seg_ok (low high : Z) : Prop := lo <= low < high /\ high <= low + seg /\ high <= limit /\ Z.odd low = true.

  Hypothesis alive_mono : forall p p' low low', prime p -> prime p' -> p <= p' -> 1 <= low <= low' -> alive p' low' = true -> alive p low = true.
  Hypothesis dead_W : forall p low hi f, prime p -> p <= y -> 1 <= low -> alive p low = false -> Wb p low hi f = 0.
  Hypothesis init_ok : forall low high v next w, seg_ok low high -> shape v -> arr next n' w -> (forall b, 1 <= b <= c -> item b low (w b)) ->
    wp (init low high v next) (fun '(v', next') => rep low high c v' /\
      exists w', arr next' n' w' /\ (forall b, 1 <= b <= c -> item b high (w' b)) /\ forall b, c < b < n' -> w' b = w b).
  (** [rs v]: how the type of S2_result represents v; there is room for all leaves *)
  Hypothesis (Hrs : rs 0 = 0) (HSb : sumr (c + 1) last (fun b => Wal x y (pr y b) lo (Z.max lo limit) (hf b lo)) <= Sb).
  Hypothesis leaves_ok : forall low high b v p s2, seg_ok low high -> c < b < last -> rep low high (b - 1) v -> pok b low p ->
    Z.abs s2 + Wal x y (pr y b) low high (hf b lo) <= Sb ->
    wp (leaves low high b v p (rs s2)) (fun o => if alive (pr y b) low
      then exists p', o = Some (p', rs (s2 + Wb (pr y b) low high (hf b lo))) /\ pok b high p' else o = None).
  Hypothesis cross_ok : forall low high b v it, seg_ok low high -> c < b < last -> alive (pr y b) low = true -> rep low high (b - 1) v -> item b low it ->
    wp (cross low high b v it) (fun '(v', it') => rep low high b v' /\ item b high it').
  Hypothesis rep_shape : forall low high a v, rep low high a v -> shape v.
  Hypothesis pok_dead : forall b pos pos' p, c < b < last -> lo <= pos <= pos' -> alive (pr y b) pos = false -> pok b pos p -> pok b pos' p.

  Lemma b_facts b : c < b < last -> prime (pr y b) /\ pi (pr y b) = b /\ pr y b <= y.
  Proof. intros Hb. apply pr_spec. lia. Qed.
  Lemma alive_index b b' low : c < b <= b' -> b' < last -> 1 <= low -> alive (pr y b) low = false -> alive (pr y b') low = false.
  Proof.
    intros Hb Hb' Hl A. destruct (alive (pr y b') low) eqn:A'; auto. destruct (b_facts b ltac:(lia)) as (P1 & _). destruct (b_facts b' ltac:(lia)) as (P1' & _).
    rewrite (alive_mono (pr y b) (pr y b') low low) in A; auto; try lia. apply pr_mono_le; lia.
  Qed.

  (** the primes have been treated up to the numbers [pos] *)
  Definition inv (pos : Z -> Z) (base : Z) (phi : list P) (next : list I) (s2 : Z) : Prop :=
    (exists Q, arr phi n Q /\ (forall b, c < b < last -> pok b (pos b) (Q b)) /\ forall b, 0 <= b < n -> ~ c < b < last -> Q b = Q0 b) /\
    (exists w, arr next n' w /\ (forall b, 1 <= b <= c -> item b base (w b)) /\ forall b, c < b < last -> alive (pr y b) (pos b) = true -> item b (pos b) (w b)) /\
    s2 = rs (sumr (c + 1) last (fun b => Wb (pr y b) lo (pos b) (hf b lo))).

  Lemma inv_ext pos pos' base phi next s2 : (forall b, c < b < last -> pos b = pos' b) -> inv pos base phi next s2 -> inv pos' base phi next s2.
  Proof.
    intros E ((Q & Q1 & Q2 & Q3) & (w & W1 & W2 & W3) & E2). split; [|split].
    - exists Q. split; auto. split; auto. intros b Hb. rewrite <- E by lia. auto.
    - exists w. split; auto. split; auto. intros b Hb. rewrite <- E by lia. auto.
    - rewrite E2. f_equal. apply sumr_ext. intros b Hb. now rewrite E by lia.
  Qed.
  Lemma inv_dead pos pos' base phi next s2 : (forall b, c < b < last -> lo <= pos b <= pos' b /\ (pos b = pos' b \/ alive (pr y b) (pos b) = false)) ->
    inv pos base phi next s2 -> inv pos' base phi next s2.
  Proof.
    intros E ((Q & Q1 & Q2 & Q3) & (w & W1 & W2 & W3) & E2).
    assert (AL : forall b, c < b < last -> alive (pr y b) (pos' b) = true -> alive (pr y b) (pos b) = true /\ pos' b = pos b).
    { intros b Hb A. destruct (E b Hb) as [E1 [E3|E3]]; [rewrite E3; auto|]. exfalso. destruct (b_facts b Hb) as (P1 & _).
      rewrite (alive_mono (pr y b) (pr y b) (pos b) (pos' b)) in E3; auto; lia. }
    split; [|split].
    - exists Q. split; auto. split; auto. intros b Hb. destruct (E b Hb) as [E1 [E3|E3]]; [rewrite <- E3; auto|]. apply (pok_dead b (pos b)); auto.
    - exists w. split; auto. split; auto. intros b Hb A. destruct (AL b Hb A) as [A1 A2]. rewrite A2. auto.
    - rewrite E2. f_equal. apply sumr_ext. intros b Hb. destruct (E b ltac:(lia)) as [E1 [E3|E3]]; [now rewrite E3|].
      destruct (b_facts b ltac:(lia)) as (P1 & _ & P3). unfold Wb, Wl. rewrite (W_split _ _ _ _ lo (pos b) (pos' b)) by lia.
      pose proof (dead_W (pr y b) (pos b) (pos' b) (hf b lo) P1 P3 ltac:(lia) E3) as D. unfold Wb, Wl in D. rewrite D. ring.
  Qed.

  Lemma seg_room b low high pos : c < b < last -> (forall b', c < b' < last -> lo <= pos b' <= Z.max lo limit) -> pos b = low -> low <= high <= Z.max lo limit ->
    Z.abs (sumr (c + 1) last (fun b' => Wb (pr y b') lo (pos b') (hf b' lo))) + Wal x y (pr y b) low high (hf b lo) <=
    sumr (c + 1) last (fun b => Wal x y (pr y b) lo (Z.max lo limit) (hf b lo)).
  Proof.
    intros Hb Hpos Eb Hh. pose proof (Hpos b Hb) as PB.
    assert (I1 : forall b', c < b' < last -> Z.abs (Wb (pr y b') lo (pos b') (hf b' lo)) <= Wal x y (pr y b') lo (Z.max lo limit) (hf b' lo)).
    { intros b' Hb'. pose proof (Hpos b' Hb'). eapply Z.le_trans; [apply W_abs|]. apply Wa_incl; lia. }
    assert (SA : forall a e, c < a -> e <= last -> Z.abs (sumr a e (fun b' => Wb (pr y b') lo (pos b') (hf b' lo))) <= sumr a e (fun b => Wal x y (pr y b) lo (Z.max lo limit) (hf b lo))).
    { intros a e Ha He'. eapply Z.le_trans; [apply sumr_abs|]. apply sumr_le. intros b' Hb'. apply I1. lia. }
    rewrite !(sumr_split (c + 1) b last), !(sumr_cons b last) by lia. pose proof (SA (c + 1) b ltac:(lia) ltac:(lia)). pose proof (SA (b + 1) last ltac:(lia) ltac:(lia)).
    assert (Z.abs (Wb (pr y b) lo (pos b) (hf b lo)) + Wal x y (pr y b) low high (hf b lo) <= Wal x y (pr y b) lo (Z.max lo limit) (hf b lo)); [|lia].
    rewrite Eb. apply Z.le_trans with (Wal x y (pr y b) lo low (hf b lo) + Wal x y (pr y b) low high (hf b lo)); [apply Z.add_le_mono_r, W_abs|].
    unfold Wal. rewrite <- Wa_split by lia. apply Wa_incl; lia.
  Qed.

  Lemma b_loop_ok low high v phi next s2 : seg_ok low high -> rep low high c v -> inv (fun _ => low) high phi next s2 ->
    wp (seg_b_loop (leaves low high) (cross low high) c last v phi next s2)
       (fun '(v', phi', next', s2') => shape v' /\ inv (fun _ => high) high phi' next' s2').
  Proof.
    intros HS HR HI. pose proof HS as (S1 & S2 & S3 & S4). unfold seg_b_loop. set (pos := fun b b' => if b' <? b then high else low).
    apply (loop_rule _ (fun '(b, v, phi, next, s2) => c + 1 <= b <= Z.max (c + 1) last /\ inv (pos b) high phi next s2 /\ rep low high (b - 1) v)
      (fun '(b, _, _, _, _) => Z.max (c + 1) last - b)).
    - clear v phi next s2 HR HI. intros [[[[b v] phi] next] s2] (Hb & HI & HR).
      destruct (Z.ltb_spec b last) as [L|L].
      + pose proof HI as ((Q & Q1 & Q2 & Q3) & (w & W1 & W2 & W3) & E2).
        assert (Epos : pos b b = low) by (unfold pos; now rewrite Z.ltb_irrefl).
        rewrite (arr_get _ _ _ b Q1) by lia. rewrite bind_Ok. apply wp_bind.
        pose proof (Q2 b ltac:(lia)) as QB. rewrite Epos in QB.
        set (sp := sumr (c + 1) last (fun b0 => Wb (pr y b0) lo (pos b b0) (hf b0 lo))) in *.
        assert (RM : Z.abs sp + Wal x y (pr y b) low high (hf b lo) <= Sb).
        { refine (Z.le_trans _ _ _ (seg_room b low high (pos b) ltac:(lia) _ _ _) HSb); [intros b' Hb'; unfold pos; destruct (b' <? b); lia|exact Epos|lia]. }
        subst s2. eapply wp_mono; [apply (leaves_ok low high b v (Q b) sp HS ltac:(lia) HR QB RM)|]. intros o Ho'. cbv beta in Ho'.
        destruct (alive (pr y b) low) eqn:A.
        2:{ subst o. apply wp_ok. split; [now apply (rep_shape low high (b - 1))|]. apply (inv_dead (pos b)); auto.
            intros b' Hb'. unfold pos. destruct (Z.ltb_spec b' b); [lia|]. split; [lia|]. right. apply (alive_index b); auto; lia. }
        destruct Ho' as (p' & -> & PK). apply wp_bind. eapply arr_set; [exact Q1|lia|]. intros phi' Q1'.
        rewrite (arr_get _ _ _ b W1) by lia. rewrite bind_Ok. apply wp_bind.
        assert (WI : item b low (w b)). { pose proof (W3 b ltac:(lia)) as WB. rewrite Epos in WB. auto. }
        eapply wp_mono; [apply (cross_ok low high b v (w b) HS ltac:(lia) A HR WI)|]. intros [v' it'] [R' I'].
        apply wp_bind. eapply arr_set; [exact W1|lia|]. intros next' W1'. apply wp_ok.
        assert (PN : forall b', pos (b + 1) b' = if b' =? b then high else pos b b').
        { intros b'. unfold pos. destruct (Z.ltb_spec b' (b + 1)), (Z.eqb_spec b' b), (Z.ltb_spec b' b); auto; lia. }
        split; [|lia]. split; [lia|]. split; [|now replace (b + 1 - 1) with b by ring]. split; [|split].
        * eexists. split; [exact Q1'|]. cbv beta. split.
          -- intros b' Hb'. rewrite PN. destruct (Z.eqb_spec b' b) as [->|]; auto.
          -- intros b' Hb' Hn0. destruct (Z.eqb_spec b' b); [lia|]. auto.
        * eexists. split; [exact W1'|]. cbv beta. split.
          -- intros b' Hb'. destruct (Z.eqb_spec b' b); [lia|]. auto.
          -- intros b' Hb'. rewrite PN. destruct (Z.eqb_spec b' b) as [->|]; auto.
        * f_equal. symmetry. unfold sp. apply sumr_update with (k := b); [lia| |].
          -- cbv beta. rewrite PN, Z.eqb_refl, Epos. apply W_split. lia.
          -- intros i Hi Hib. cbv beta. rewrite PN. apply Z.eqb_neq in Hib. now rewrite Hib.
      + apply wp_ok. split; [now apply (rep_shape low high (b - 1))|]. apply (inv_ext (pos b)); [|exact HI]. intros b' Hb'. unfold pos. destruct (Z.ltb_spec b' b); [auto|lia].
    - split; [lia|]. split; [|now replace (c + 1 - 1) with c by ring].
      apply (inv_ext (fun _ => low)); [|exact HI]. intros b' Hb'. unfold pos. destruct (Z.ltb_spec b' (c + 1)); [lia|auto].
    - pose proof (pi_le y ltac:(lia)). assert (2 ^ 32 < 2 ^ 400) by reflexivity. lia.
  Qed.

  Theorem segments_ok v phi next w : shape v -> arr phi n Q0 -> (forall b, c < b < last -> pok b lo (Q0 b)) ->
    arr next n' w -> (forall b, 1 <= b < n' -> item b lo (w b)) -> c < n' ->
    wp (segments init leaves cross c last seg lo limit v phi next) (fun '(phi', s2) =>
      (exists Q, arr phi' n Q /\ (forall b, c < b < last -> pok b (Z.max lo limit) (Q b)) /\ forall b, 0 <= b < n -> ~ c < b < last -> Q b = Q0 b) /\
      s2 = rs (sumr (c + 1) last (fun b => Wb (pr y b) lo (Z.max lo limit) (hf b lo)))).
  Proof.
    intros HV HQ HP HW HI Hcn. unfold segments.
    apply (loop_rule _ (fun '(low, v, phi, next, s2) => lo <= low /\ Z.odd low = true /\ shape v /\ inv (fun _ => Z.max lo (Z.min low limit)) (Z.max lo (Z.min low limit)) phi next s2) (fun '(low, _, _, _, _) => Z.max 0 (limit - low))).
    - clear v phi next w HV HQ HP HW HI. intros [[[[low v] phi] next] s2] (H1 & H2 & HV & HI).
      destruct (Z.ltb_spec low limit) as [L|L].
      + replace (Z.max lo (Z.min low limit)) with low in HI by lia. rewrite schk64 by lia. rewrite bind_Ok. cbv zeta.
        assert (HS : seg_ok low (Z.min (low + seg) limit)) by (unfold seg_ok; repeat split; auto; lia).
        destruct HI as (HQ & (w & W1 & W2 & W3) & E2). apply wp_bind. eapply wp_mono; [apply (init_ok low _ v next w HS HV W1 W2)|].
        intros [v' next'] (R' & w' & W1' & W2' & W3'). apply wp_bind.
        eapply wp_mono; [apply (b_loop_ok low _ v' phi next' s2 HS R')|].
        * split; [exact HQ|]. split; [|exact E2]. exists w'. split; auto. split; auto. intros b Hb A. rewrite W3' by lia. auto.
        * intros [[[v2 phi2] next2] s2'] [V2 I2]. apply wp_ok. split; [|lia]. split; [lia|]. split.
          -- rewrite Z.odd_add, H2. destruct He as [h ->]. rewrite Z.odd_mul. now rewrite andb_false_r.
          -- split; auto. now replace (Z.max lo (Z.min (low + seg) limit)) with (Z.min (low + seg) limit) by lia.
      + apply wp_ok. replace (Z.max lo (Z.min low limit)) with (Z.max lo limit) in HI by lia. destruct HI as (HQ & _ & E2). split; auto.
    - split; [lia|]. split; auto. split; auto. replace (Z.max lo (Z.min lo limit)) with lo by lia. split; [|split].
      + exists Q0. auto.
      + exists w. split; auto. split; intros b Hb; [apply HI; lia|intros _; apply HI; lia].
      + rewrite sumr_zero; [now rewrite Hrs|]. intros b _. apply W_empty. lia.
    - assert (2 ^ 63 < 2 ^ 400) by reflexivity. lia.
  Qed.
End Seg.
