(** The theorems on histories of the objects of lib/primesieve. *)
From Coq Require Import ZArith List Lia Bool Znumtheory.
From Verif.Base Require Import Res Word Zl Each.
From Verif.Model Require Import PsTables PsMath PsErat.
From Verif.Spec Require Import PsSpec PsRunSpec Primes.
From Verif.Proofs Require Import Primes NT PsWheel PsCross PsSmall PsFirst PsMedium PsBig PsMathP PsAdd PsPre PsErat PsSeg.
Import ListNotations.
Open Scope Z_scope.
Local Ltac Zify.zify_post_hook ::= idtac.

Lemma wp_then {A} (m : res A) a (Q : A -> Prop) : m = Ok a -> wp m Q -> Q a.
Proof. now intros ->. Qed.

(** *** C56: walks along the wheel *)
Lemma rank_step M L p q f : p <= q -> 0 < f -> eligible M L p q = true -> (forall d, 0 < d < f -> cop M (q + d) = false) ->
  rank M L p (q + f) = rank M L p q + 1.
Proof.
  intros Hp Hf He Hd. unfold rank. rewrite (zrange_app p q (q + f)) by lia. rewrite filter_app, zlen_app. f_equal.
  rewrite zrange_cons by lia. cbn [filter]. rewrite He.
  assert (E : filter (eligible M L p) (zrange (q + 1) (q + f)) = []).
  { assert (G : forall l, (forall x, In x l -> eligible M L p x = false) -> filter (eligible M L p) l = []).
    { induction l as [|a l IH]; intros H; [reflexivity|]. cbn [filter]. rewrite (H a) by now left. apply IH. intros x Hx. apply H. now right. }
    apply G. intros x Hx. apply in_zrange in Hx. unfold eligible. specialize (Hd (x - q) ltac:(lia)). replace (q + (x - q)) with x in Hd by lia. now rewrite Hd. }
  rewrite E. reflexivity.
Qed.
Lemma rank_first M L p q : first_q M L p q -> rank M L p q = 0.
Proof.
  intros (F1 & F2 & F3 & F4). unfold rank.
  assert (G : forall l, (forall x, In x l -> eligible M L p x = false) -> filter (eligible M L p) l = []).
  { induction l as [|a l IH]; intros H; [reflexivity|]. cbn [filter]. rewrite (H a) by now left. apply IH. intros x Hx. apply H. now right. }
  rewrite G; [reflexivity|]. intros x Hx. apply in_zrange in Hx. destruct (eligible M L p x) eqn:E; auto. exfalso.
  unfold eligible in E. rewrite !andb_true_iff, Z.leb_le, Z.ltb_lt in E. destruct E as ((E1 & E2) & E3). specialize (F4 x E1 E2 E3). lia.
Qed.

Section Walk.
  Variables (M size : Z) (tbl : list wheel_element).
  Hypotheses (HM : 0 < M) (HD : (30 | M)) (Hqs : zlen (qs M) = size)
    (Htbl : forall w, 0 <= w < 8 * size -> exists e, aget tbl w = Ok e /\ row_okb M size (we_row e) (w + we_next e) w = true).
  Lemma walk_rule L p n : 7 <= p -> forall mi wi q, at_mult M size L p mi wi q -> eligible M L p q = true ->
    exists mi' wi' we q' j, wheel_walk tbl (p / 30) n mi wi = Ok (mi', wi') /\ aget tbl wi' = Ok we /\ 0 <= j < 8 /\
      we_unset we = 255 - 2 ^ j /\ p * q' = L + 30 * mi' + off j /\ eligible M L p q' = true /\ rank M L p q' = rank M L p q + Z.of_nat n.
  Proof.
    intros Hp. induction n as [|n IH]; intros mi wi q HA HE; cbn [wheel_walk].
    - destruct (Htbl wi ltac:(apply HA)) as (we & Ew & R). exists mi, wi, we, q, (bitpos (p * q)).
      destruct (row_step M size L p mi wi q _ _ _ _ HM HD ltac:(lia) HA R) as (R1 & _).
      repeat split; auto; try apply bitpos_range; try apply HA. lia.
    - destruct (Htbl wi ltac:(apply HA)) as (we & Ew & R). rewrite Ew. cbn [bind].
      destruct (row_step M size L p mi wi q _ _ _ _ HM HD ltac:(lia) HA R) as (R1 & R2 & R3 & R4 & R5).
      pose proof HE as HE'. unfold eligible in HE'. rewrite !andb_true_iff, Z.leb_le, Z.ltb_lt in HE'. destruct HE' as ((E1 & E2) & E3).
      assert (HN : eligible M L p (q + we_factor we) = true).
      { destruct (at_mult_cop M size L p _ _ _ HM HD Hqs R4) as [C _]. unfold eligible. rewrite C. cbn [andb]. rewrite andb_true_iff, Z.leb_le, Z.ltb_lt. nia. }
      replace (mi + we_factor we * (p / 30) + we_correct we) with (mi + (p / 30 * we_factor we + we_correct we)) by ring.
      destruct (IH _ _ _ R4 HN) as (mi' & wi' & we' & q' & j & W1 & W2 & W3 & W4 & W5 & W6 & W7).
      exists mi', wi', we', q', j. repeat split; auto; try lia. rewrite W7, (rank_step M L p q) by (auto; lia). lia.
  Qed.
End Walk.

Lemma first_multiple_walk M size init tbl stop p L : 0 < M -> (30 | M) -> zlen (qs M) = size -> init_okb M size init = true ->
  (forall w, 0 <= w < 8 * size -> exists e, aget tbl w = Ok e /\ row_okb M size (we_row e) (w + we_next e) w = true) ->
  7 <= p < 2 ^ 32 -> cop 30 p = true -> L mod 30 = 0 -> 0 <= L -> L + 6 < 2 ^ 64 -> 0 <= stop < 2 ^ 64 ->
  (exists mi wi, first_multiple M size init stop p L = Ok (Some (mi, wi)) /\ walk_ok M tbl L p mi wi) \/
  (first_multiple M size init stop p L = Ok None /\ forall q, eligible M L p q = true -> stop < p * q).
Proof.
  intros HM HD Hqs HI HT Hp Cp HL HL0 HL6 Hst.
  assert (W : wp (first_multiple M size init stop p L) (fun r => match r with
     | Some (mi, wi) => walk_ok M tbl L p mi wi | None => forall q, eligible M L p q = true -> stop < p * q end)).
  { apply (first_multiple_rule M size init stop p L); auto.
    - intros H q He. unfold eligible in He. rewrite !andb_true_iff, Z.leb_le, Z.ltb_lt in He. destruct He as ((? & ?) & ?). auto.
    - intros mi wi q HA HF Hq _. intros n. pose proof HF as (F1 & F2 & F3 & F4).
      assert (HE : eligible M L p q = true) by (unfold eligible; rewrite F2; cbn [andb]; rewrite andb_true_iff, Z.leb_le, Z.ltb_lt; auto).
      destruct (walk_rule M size tbl HM HD Hqs HT L p n ltac:(lia) mi wi q HA HE) as (mi' & wi' & we & q' & j & W). rewrite (rank_first M L p q HF) in W. exists mi', wi', we, q', j. exact W. }
  destruct (first_multiple M size init stop p L) as [[[mi wi]|]|]; cbn [wp] in W; [left; eauto|right; auto|destruct W].
Qed.
Theorem first_multiple_30 stop p L : prime p -> 7 <= p < 2 ^ 32 -> L mod 30 = 0 -> 0 <= L -> L + 6 < 2 ^ 64 -> 0 <= stop < 2 ^ 64 ->
  (exists mi wi, first_multiple 30 8 wheel30_init stop p L = Ok (Some (mi, wi)) /\ walk_ok 30 wheel30 L p mi wi) \/
  (first_multiple 30 8 wheel30_init stop p L = Ok None /\ forall q, eligible 30 L p q = true -> stop < p * q).
Proof.
  intros Hp Hr. apply first_multiple_walk; auto; first [lia|exact D30|exact qs30_len|exact init30_ok|intros w Hw; apply wheel30_ok; lia|apply prime_cop30; auto; lia].
Qed.
Theorem first_multiple_210 stop p L : prime p -> 7 <= p < 2 ^ 32 -> L mod 30 = 0 -> 0 <= L -> L + 6 < 2 ^ 64 -> 0 <= stop < 2 ^ 64 ->
  (exists mi wi, first_multiple 210 48 wheel210_init stop p L = Ok (Some (mi, wi)) /\ walk_ok 210 wheel210 L p mi wi) \/
  (first_multiple 210 48 wheel210_init stop p L = Ok None /\ forall q, eligible 210 L p q = true -> stop < p * q).
Proof.
  intros Hp Hr. apply first_multiple_walk; auto; first [lia|exact D210|exact qs210_len|exact init210_ok|intros w Hw; apply wheel210_ok; lia|apply prime_cop30; auto; lia].
Qed.

(** *** C57 *)
Lemma crossed_of M L size stop ps kept B sieve : (forall p, In p kept -> In p ps) ->
  (forall p, In p ps -> 7 <= p) -> (forall p, In p ps -> In p kept \/ spent M L stop p) ->
  holds sieve L (fun m => B m && negb (struck M kept m && (L + 6 <? m) && (m <? L + 30 * size + 7))) ->
  crossed M L size stop ps B sieve.
Proof.
  intros HK HG HS HH. eexists. split; [exact HH|]. intros m Cm Hm. cbv beta.
  assert (E1 : (L + 6 <? m) = true) by (apply Z.ltb_lt; lia). rewrite E1, andb_true_r.
  assert (KP : struck M kept m = true -> struck M ps m = true).
  { intros H. apply existsb_exists in H. destruct H as (p & Hp & H). apply existsb_exists. exists p. auto. }
  split; [|split; [|split]].
  - intros H2 H3. assert (E2 : (m <? L + 30 * size + 7) = true) by (apply Z.ltb_lt; lia). rewrite E2, andb_true_r. f_equal. f_equal.
    destruct (struck M ps m) eqn:E; [|destruct (struck M kept m); auto; specialize (KP eq_refl); congruence].
    apply existsb_exists in E. destruct E as (p & Hp & E). apply existsb_exists. destruct (HS p Hp) as [K|SP]; [exists p; auto|].
    exfalso. unfold strikes in E. rewrite !andb_true_iff, Z.eqb_eq, Z.leb_le in E. destruct E as ((D & C) & P). specialize (HG p Hp).
    pose proof (Z.div_mod m p ltac:(lia)) as DM. rewrite D, Z.add_0_r in DM. specialize (SP (m / p) C P). rewrite <- DM in SP. lia.
  - intros H2. assert (E2 : (m <? L + 30 * size + 7) = false) by (apply Z.ltb_ge; lia). rewrite E2, andb_false_r. cbn. now rewrite andb_true_r.
  - intros -> H. apply negb_false_iff, andb_true_iff in H. tauto.
  - intros ->. reflexivity.
Qed.
Lemma spent_mono M L L' stop p : L <= L' -> spent M L stop p -> spent M L' stop p.
Proof. intros H S q C P Q. apply S; auto. lia. Qed.

Section Histories.
  Variables (stop L0 : Z).
  Hypotheses (Hst : 0 <= stop < 2 ^ 64) (HL0 : L0 mod 30 = 0) (HL00 : 0 <= L0).

  Definition hist (M L : Z) (kept ps : list Z) : Prop :=
    (forall p, In p kept -> In p ps) /\ (forall p, In p ps -> 7 <= p) /\ (forall p, In p ps -> In p kept \/ spent M L stop p).
  Lemma hist_drop M L kept ps p : hist M L kept ps -> 7 <= p -> spent M L stop p -> hist M L kept (ps ++ [p]).
  Proof.
    intros (H1 & H2 & H3) Hp HS. split; [|split].
    - intros x Hx. apply in_app_iff. auto.
    - intros x Hx. apply in_app_iff in Hx. destruct Hx as [Hx|[<-|[]]]; auto.
    - intros x Hx. apply in_app_iff in Hx. destruct Hx as [Hx|[<-|[]]]; auto.
  Qed.
  Lemma hist_keep M L kept ps p : hist M L kept ps -> 7 <= p -> hist M L (kept ++ [p]) (ps ++ [p]).
  Proof.
    intros (H1 & H2 & H3) Hp. split; [|split].
    - intros x Hx. apply in_app_iff in Hx. apply in_app_iff. destruct Hx as [Hx|Hx]; auto.
    - intros x Hx. apply in_app_iff in Hx. destruct Hx as [Hx|[<-|[]]]; auto.
    - intros x Hx. apply in_app_iff in Hx. destruct Hx as [Hx|[<-|[]]]; [destruct (H3 x Hx); auto|]; left; apply in_app_iff; auto. right. now left.
  Qed.
  Lemma hist_next M L S kept ps : 0 <= S -> hist M L kept ps -> hist M (L + 30 * S) kept ps.
  Proof. intros HS (H1 & H2 & H3). split; auto. split; auto. intros p Hp. destruct (H3 p Hp); auto. right. apply (spent_mono _ L); auto. lia. Qed.
  Lemma mod30_next L S : L mod 30 = 0 -> (L + 30 * S) mod 30 = 0.
  Proof. intros H. replace (L + 30 * S) with (L + S * 30) by ring. now rewrite Z.mod_add. Qed.

  Section Small.
    Variables (l1 S : Z).
    Hypotheses (Hl1 : 0 < l1) (HS : 1 <= S <= 2 ^ 22).
    Lemma small_run_inv L ps e : small_run stop l1 L0 S L ps e -> L mod 30 = 0 /\ 0 <= L /\ es_stop e = stop /\ es_l1 e = l1 /\
      exists kept, small_state L e kept /\ hist 30 L kept ps.
    Proof.
      induction 1 as [|L ps e p e' HR IH Pp Hp HPP HL6 E|L ps e sieve e' sieve' HR IH HL64 Hlen (B & HB) E].
      - repeat split; auto. exists []. split; [split; constructor|]. split; [intros p []|]. split; intros p [].
      - destruct IH as (I1 & I2 & I3 & I4 & kept & I5 & I6). assert (C : cop 30 p = true) by (apply prime_cop30; auto; lia).
        pattern e'; apply (wp_then (esmall_add p L e) _ _ E). rewrite <- I3 in Hst.
        apply (esmall_add_rule L e kept p S); auto; try lia.
        + intros SP. rewrite I3 in SP. repeat split; auto. exists kept. split; auto. apply hist_drop; auto. lia.
        + intros e2 E1 E2 E3 E4. split; [auto|]. split; [auto|]. split; [congruence|]. split; [congruence|]. exists (kept ++ [p]). split; auto. apply hist_keep; auto. lia.
      - destruct IH as (I1 & I2 & I3 & I4 & kept & I5 & I6). apply (wp_then _ _ (fun '(e', _) => (L + 30 * S) mod 30 = 0 /\ 0 <= L + 30 * S /\ es_stop e' = stop /\ es_l1 e' = l1 /\
      exists kept, small_state (L + 30 * S) e' kept /\ hist 30 (L + 30 * S) kept ps) E).
        apply (esmall_cross_rule L S S B e kept); auto; try lia. intros e2 sv2 _ E1 E2 E3 E4 _. split; [now apply mod30_next|]. split; [lia|]. split; [congruence|]. split; [congruence|].
        exists kept. split; auto. apply hist_next; auto. lia.
    Qed.
    Theorem small_run_add L ps e p : small_run stop l1 L0 S L ps e -> prime p -> 7 <= p <= 5 * 2 ^ 22 -> p * p <= L + 30 * S + 6 -> L + 6 < 2 ^ 64 ->
      exists e', esmall_add p L e = Ok e'.
    Proof.
      intros HR Pp Hp HPP HL6. destruct (small_run_inv _ _ _ HR) as (I1 & I2 & I3 & I4 & kept & I5 & I6).
      assert (W : wp (esmall_add p L e) (fun _ => True)).
      { apply (esmall_add_rule L e kept p S); auto; try lia. apply prime_cop30; auto; lia. }
      destruct (esmall_add p L e); [eauto|destruct W].
    Qed.
    Theorem small_run_cross L ps e size sieve B : small_run stop l1 L0 S L ps e -> L < 2 ^ 64 -> 0 <= size <= zlen sieve -> zlen sieve <= 2 ^ 40 -> holds sieve L B ->
      exists e' sieve', esmall_cross sieve size e = Ok (e', sieve') /\ zlen sieve' = zlen sieve /\ crossed 30 L size stop ps B sieve'.
    Proof.
      intros HR HL64 Hs Hn HB. destruct (small_run_inv _ _ _ HR) as (I1 & I2 & I3 & I4 & kept & I5 & (I6 & I7 & I8)).
      assert (W : wp (esmall_cross sieve size e) (fun '(e', sieve') => zlen sieve' = zlen sieve /\ crossed 30 L size stop ps B sieve')).
      { apply (esmall_cross_rule L (zlen sieve) size B e kept); auto; try lia. intros e' sv Hl _ _ _ _ HH. split; auto. eapply crossed_of; eauto. }
      destruct (esmall_cross sieve size e) as [[e' sv]|]; [|destruct W]. exists e', sv. destruct W. auto.
    Qed.
  End Small.

  Section Medium.
    Variable S : Z.
    Hypothesis (HS : 1 <= S <= 2 ^ 22).
    Lemma medium_run_inv L ps e : medium_run stop L0 S L ps e -> L mod 30 = 0 /\ 0 <= L /\ em_stop e = stop /\
      exists kept, med_state L (em_buckets e) kept /\ Forall (fun p => p <= 5 * 2 ^ 22) kept /\ hist 30 L kept ps.
    Proof.
      induction 1 as [|L ps e p e' HR IH Pp Hp HPP HL6 E|L ps e sieve e' sieve' HR IH HL64 Hlen (B & HB) E].
      - repeat split; auto. exists []. split; [|split; [constructor|split; [intros p []|split; intros p []]]].
        split; [reflexivity|]. split; [apply nonempty_empty|]. split; [intros i s H'; now apply mem_empty in H'|intros p []].
      - destruct IH as (I1 & I2 & I3 & kept & I5 & I5' & I6). assert (C : cop 30 p = true) by (apply prime_cop30; auto; lia).
        pattern e'; apply (wp_then (emedium_add p L e) _ _ E). rewrite <- I3 in Hst.
        apply (emedium_add_rule L e kept p S); auto; try lia.
        + intros SP. rewrite I3 in SP. repeat split; auto. exists kept. split; auto. split; auto. apply hist_drop; auto. lia.
        + intros e2 E1 E2 E4. split; [auto|]. split; [auto|]. split; [congruence|]. exists (kept ++ [p]). split; auto. split; [|apply hist_keep; auto; lia].
          apply Forall_app. split; auto. constructor; [lia|constructor].
      - destruct IH as (I1 & I2 & I3 & kept & I5 & I5' & I6). apply (wp_then _ _ (fun '(e', _) => (L + 30 * S) mod 30 = 0 /\ 0 <= L + 30 * S /\ em_stop e' = stop /\
      exists kept, med_state (L + 30 * S) (em_buckets e') kept /\ Forall (fun p => p <= 5 * 2 ^ 22) kept /\ hist 30 (L + 30 * S) kept ps) E).
        apply (emedium_cross_rule L S S B kept); auto; try lia. intros e2 sv2 _ E1 E2 E4 _. split; [now apply mod30_next|]. split; [lia|]. split; [congruence|].
        exists kept. split; auto. split; auto. apply hist_next; auto. lia.
    Qed.
    Theorem medium_run_add L ps e p : medium_run stop L0 S L ps e -> prime p -> 7 <= p <= 5 * 2 ^ 22 -> p * p <= L + 30 * S + 6 -> L + 6 < 2 ^ 64 ->
      exists e', emedium_add p L e = Ok e'.
    Proof.
      intros HR Pp Hp HPP HL6. destruct (medium_run_inv _ _ _ HR) as (I1 & I2 & I3 & kept & I5 & I5' & I6).
      assert (W : wp (emedium_add p L e) (fun _ => True)).
      { apply (emedium_add_rule L e kept p S); auto; try lia. apply prime_cop30; auto; lia. }
      destruct (emedium_add p L e); [eauto|destruct W].
    Qed.
    Theorem medium_run_cross L ps e size sieve B : medium_run stop L0 S L ps e -> L < 2 ^ 64 -> 0 <= size <= zlen sieve -> zlen sieve <= 2 ^ 22 -> holds sieve L B ->
      exists e' sieve', emedium_cross sieve size e = Ok (e', sieve') /\ zlen sieve' = zlen sieve /\ crossed 30 L size stop ps B sieve'.
    Proof.
      intros HR HL64 Hs Hn HB. destruct (medium_run_inv _ _ _ HR) as (I1 & I2 & I3 & kept & I5 & I5' & (I6 & I7 & I8)).
      assert (W : wp (emedium_cross sieve size e) (fun '(e', sieve') => zlen sieve' = zlen sieve /\ crossed 30 L size stop ps B sieve')).
      { apply (emedium_cross_rule L size (zlen sieve) B kept); auto; try lia. intros e' sv Hl _ _ _ HH. split; auto. eapply crossed_of; eauto. }
      destruct (emedium_cross sieve size e) as [[e' sv]|]; [|destruct W]. exists e', sv. destruct W. auto.
    Qed.
  End Medium.

  Section Big.
    Variables (k mx : Z).
    Hypotheses (Hk : 0 <= k <= 22) (Hmx : 0 <= mx < 2 ^ 32).
    Lemma big_run_inv L ps e : big_run stop L0 k mx L ps e -> L mod 30 = 0 /\ 0 <= L /\ eb_stop e = stop /\
      (forall p, 0 <= p <= mx -> (2 ^ k - 1 + p / 30 * 10 + 10) / 2 ^ k < zlen (eb_buckets e)) /\
      exists kept, big_state L (2 ^ k) e kept /\ hist 210 L kept ps.
    Proof.
      assert (HS : 0 < 2 ^ k) by (apply Z.pow_pos_nonneg; lia).
      induction 1 as [|L ps e p e' HR IH Pp Hp HPP HL6 E|L ps e sieve e' sieve' HR IH HL64 Hlen (B & HB) E].
      - destruct (ebig_init_state L0 stop k mx Hk Hmx) as (G1 & G2 & G3 & G4). repeat split; auto. exists []. split; auto. split; [intros p []|split; intros p []].
      - destruct IH as (I1 & I2 & I3 & I4 & kept & I5 & I6). assert (C : cop 30 p = true) by (apply prime_cop30; auto; lia). assert (C2 : cop 210 p = true) by (apply prime_cop210; auto; lia).
        pattern e'; apply (wp_then (ebig_add p L e) _ _ E). rewrite <- I3 in Hst.
        apply (ebig_add_rule L (2 ^ k) e kept p); auto; try lia.
        + apply I4. lia.
        + intros SP. rewrite I3 in SP. repeat split; auto. exists kept. split; auto. apply hist_drop; auto. lia.
        + intros e2 E1 E2 E3 E4 E5. split; [auto|]. split; [auto|]. split; [congruence|]. split; [rewrite E4; auto|]. exists (kept ++ [p]). split; auto. apply hist_keep; auto. lia.
      - destruct IH as (I1 & I2 & I3 & I4 & kept & I5 & I6). apply (wp_then _ _ (fun '(e', _) => (L + 30 * 2 ^ k) mod 30 = 0 /\ 0 <= L + 30 * 2 ^ k /\ eb_stop e' = stop /\
      (forall p, 0 <= p <= mx -> (2 ^ k - 1 + p / 30 * 10 + 10) / 2 ^ k < zlen (eb_buckets e')) /\ exists kept, big_state (L + 30 * 2 ^ k) (2 ^ k) e' kept /\ hist 210 (L + 30 * 2 ^ k) kept ps) E).
        apply (ebig_cross_rule L (2 ^ k) B kept); auto; try lia. intros e2 sv2 _ E1 E2 E3 E4 E5 _. split; [now apply mod30_next|]. split; [lia|]. split; [congruence|]. split; [rewrite E4; auto|].
        exists kept. split; auto. apply hist_next; auto. lia.
    Qed.
    Theorem big_run_add L ps e p : big_run stop L0 k mx L ps e -> prime p -> 30 < p <= mx -> p * p <= L + 30 * 2 ^ k + 6 -> L + 6 < 2 ^ 64 ->
      exists e', ebig_add p L e = Ok e'.
    Proof.
      intros HR Pp Hp HPP HL6. destruct (big_run_inv _ _ _ HR) as (I1 & I2 & I3 & I4 & kept & I5 & I6).
      assert (W : wp (ebig_add p L e) (fun _ => True)).
      { apply (ebig_add_rule L (2 ^ k) e kept p); auto; try lia; [apply prime_cop30; auto; lia|apply prime_cop210; auto; lia|apply I4; lia]. }
      destruct (ebig_add p L e); [eauto|destruct W].
    Qed.
    Theorem big_run_cross L ps e sieve B : big_run stop L0 k mx L ps e -> L < 2 ^ 64 -> zlen sieve = 2 ^ k -> holds sieve L B ->
      exists e' sieve', ebig_cross sieve e = Ok (e', sieve') /\ zlen sieve' = zlen sieve /\ crossed 210 L (2 ^ k) stop ps B sieve'.
    Proof.
      intros HR HL64 Hs HB. destruct (big_run_inv _ _ _ HR) as (I1 & I2 & I3 & I4 & kept & I5 & (I6 & I7 & I8)).
      assert (W : wp (ebig_cross sieve e) (fun '(e', sieve') => zlen sieve' = zlen sieve /\ crossed 210 L (2 ^ k) stop ps B sieve')).
      { apply (ebig_cross_rule L (2 ^ k) B kept); auto; try lia. intros e' sv Hl _ _ _ _ _ HH. split; [congruence|]. eapply crossed_of; eauto. }
      destruct (ebig_cross sieve e) as [[e' sv]|]; [|destruct W]. exists e', sv. destruct W. auto.
    Qed.
  End Big.
End Histories.

(** *** C58 *)
Lemma pre_made_ok ps : pre_made ps -> ps = presieve0 \/ pre_ok ps.
Proof.
  induction 1 as [|start stop ps ps' HR IH E]; auto. right. pose proof (presieve_init_ok start stop ps IH) as W. rewrite E in W. apply W.
Qed.
Theorem presieve_total start stop ps : pre_made ps -> exists ps', presieve_init start stop ps = Ok ps'.
Proof.
  intros H. pose proof (presieve_init_ok start stop ps (pre_made_ok _ H)) as W. destruct (presieve_init start stop ps); [eauto|destruct W].
Qed.
Theorem presieve_correct ps start stop ps' low size sieve : pre_made ps -> presieve_init start stop ps = Ok ps' ->
  low mod 30 = 0 -> 0 <= low -> 1 <= size <= zlen sieve -> zlen sieve <= 2 ^ 40 ->
  7 <= ps_max ps' <= 19 /\ ps_max ps <= ps_max ps' /\
  exists sieve', presieve_copy sieve size low ps' = Ok sieve' /\ zlen sieve' = zlen sieve /\
    (forall k, size <= k < zlen sieve -> aget sieve' k = aget sieve k) /\
    forall k, 0 <= k < size -> exists b, aget sieve' k = Ok b /\ 0 <= b < 256 /\
      forall j, 0 <= j < 8 -> Z.testbit b j = presieved (ps_max ps') (low + 30 * k + off j).
Proof.
  intros HP E HL HL0 Hs Hn. pose proof (presieve_init_ok start stop ps (pre_made_ok _ HP)) as W. rewrite E in W. cbn [wp] in W. destruct W as [PO PM].
  split; [apply PO|]. split; auto.
  assert (W : wp (presieve_copy sieve size low ps') (fun sieve' => zlen sieve' = zlen sieve /\
    (forall k, size <= k < zlen sieve -> aget sieve' k = aget sieve k) /\
    forall k, 0 <= k < size -> exists b, aget sieve' k = Ok b /\ 0 <= b < 256 /\
      forall j, 0 <= j < 8 -> Z.testbit b j = presieved (ps_max ps') (low + 30 * k + off j))) by (apply presieve_copy_ok; auto).
  destruct (presieve_copy sieve size low ps') as [sv|]; [|destruct W]. exists sv. auto.
Qed.

(** *** C59 *)
Section EratRun.
  Variables (c : cpu) (start stop sieve_size : Z) (ps0 : presieve).
  Hypotheses (Hs : 7 <= start <= stop) (Hst : stop < 2 ^ 64) (Hsz : 0 <= sieve_size < 2 ^ 64) (Hps : pre_made ps0).
  Lemma erat_run_inv e ps l : erat_run c start stop sieve_size ps0 e ps l ->
    e_start e = start /\ e_stop e = stop /\ exists ls lm lb, einv e ps l ls lm lb.
  Proof.
    induction 1 as [e ps E|e ps l p e' HR IH Pp Hp Hpp E|e ps l e' HR IH Hall Hlt E].
    - apply (wp_then _ _ (fun '(e, ps) => e_start e = start /\ e_stop e = stop /\ exists ls lm lb, einv e ps [] ls lm lb) E).
      apply erat_init_rule; auto; [now apply pre_made_ok|]. intros e2 ps2 H1 H2 H3 _ _ _ _. split; auto. split; auto. exists [], [], []. auto.
    - destruct IH as (I1 & I2 & ls & lm & lb & I3). pattern e'; apply (wp_then (erat_add p e) _ _ E).
      eapply erat_add_rule; eauto. intros e2 ls' lm' lb' H1 (S1 & S2 & _). split; [congruence|]. split; [congruence|]. eauto.
    - destruct IH as (I1 & I2 & ls & lm & lb & I3). pattern e'; apply (wp_then (erat_segment e ps) _ _ E).
      eapply erat_segment_rule; eauto. intros e2 ls' lm' lb' H1 H2 _ _ _ _ _ [(H3 & _)|(_ & _ & _ & H3)]; [lia|]. split; [congruence|]. split; [congruence|]. eauto.
  Qed.
  Theorem erat_run_init : exists e ps, erat_init c start stop sieve_size (erat0 start stop) ps0 = Ok (e, ps) /\
    e_low e = 30 * ((start - 7) / 30) /\ e_size e = sieve_bytes sieve_size.
  Proof.
    assert (W : wp (erat_init c start stop sieve_size (erat0 start stop) ps0) (fun '(e, _) => e_low e = 30 * ((start - 7) / 30) /\ e_size e = sieve_bytes sieve_size)).
    { apply erat_init_rule; auto; [now apply pre_made_ok|]. intros e ps _ _ _ _ H1 H2 _. split; auto. destruct (byte_remainder_eq start). lia. }
    destruct (erat_init c start stop sieve_size (erat0 start stop) ps0) as [[e ps]|]; [|destruct W]. eauto.
  Qed.
  Theorem erat_run_add e ps l p : erat_run c start stop sieve_size ps0 e ps l -> prime p -> e_maxpre e < p -> p * p <= e_high e ->
    exists e', erat_add p e = Ok e' /\ e_low e' = e_low e /\ e_high e' = e_high e.
  Proof.
    intros HR Pp Hp Hpp. destruct (erat_run_inv _ _ _ HR) as (I1 & I2 & ls & lm & lb & I3).
    assert (W : wp (erat_add p e) (fun e' => e_low e' = e_low e /\ e_high e' = e_high e)) by (eapply erat_add_rule; eauto; intros e2 ls' lm' lb' _ (_ & _ & _ & S1 & S2 & _); auto).
    destruct (erat_add p e); [eauto|destruct W].
  Qed.
  Theorem erat_run_segment e ps l : erat_run c start stop sieve_size ps0 e ps l ->
    (forall p, prime p -> e_maxpre e < p -> p * p <= e_high e -> In p l) ->
    exists e', erat_segment e ps = Ok e' /\ 1 <= e_size e' <= e_size e /\ zlen (e_sieve e') = e_size e /\
      shows_primes (e_sieve e') (8 * ((e_size e' + 7) / 8)) (e_low e) start stop /\
      (erat_has_next e' = false /\ stop < e_low e + 30 * e_size e' + 7 /\ e_low e + 30 * (e_size e' - 1) + 7 <= stop \/
       erat_has_next e' = true /\ e_low e' = e_low e + 30 * e_size e' /\ e_low e' + 7 <= stop).
  Proof.
    intros HR Hall. destruct (erat_run_inv _ _ _ HR) as (I1 & I2 & ls & lm & lb & I3).
    assert (W : wp (erat_segment e ps) (fun e' => 1 <= e_size e' <= e_size e /\ zlen (e_sieve e') = e_size e /\
      shows_primes (e_sieve e') (8 * ((e_size e' + 7) / 8)) (e_low e) start stop /\
      (erat_has_next e' = false /\ stop < e_low e + 30 * e_size e' + 7 /\ e_low e + 30 * (e_size e' - 1) + 7 <= stop \/
       erat_has_next e' = true /\ e_low e' = e_low e + 30 * e_size e' /\ e_low e' + 7 <= stop))).
    { eapply erat_segment_rule; eauto. rewrite I1, I2. intros e2 ls' lm' lb' H1 H2 H3 H4 H5 _ H6 H7. split; auto. split; auto. split; auto.
      destruct H7 as [(J1 & J2 & J3 & J4)|(J1 & J2 & J3 & J4)]; [left|right].
      - split; [|lia]. unfold erat_has_next. apply Z.ltb_ge. lia.
      - destruct J4 as [_ _ _ _ _ (_ & _ & X) _ _ _ _ _ _ _ _ _ _ _ _]. split; [unfold erat_has_next; apply Z.ltb_lt; lia|]. split; [rewrite J3; auto|lia]. }
    destruct (erat_segment e ps); [eauto|destruct W].
  Qed.
End EratRun.
Lemma erat_add_maxpre p e e' : erat_add p e = Ok e' -> e_maxpre e' = e_maxpre e.
Proof.
  destruct e as [st sp sz lo hi sv mp ms mm s m b]. unfold erat_add.
  destruct (p >? mm); [destruct (ebig_add p lo b)|destruct (p >? ms); [destruct (emedium_add p lo m)|destruct (esmall_add p lo s)]];
    cbn [bind]; intros H; try discriminate H; injection H as <-; reflexivity.
Qed.
