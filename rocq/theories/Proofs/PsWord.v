(** From sieve bytes to lists of primes. *)
From Coq Require Import ZArith List Lia Bool Znumtheory Sorted.
From Verif.Base Require Import Res Word Zl Each.
From Verif.Model Require Import PsTables PsMath PsErat PsGen.
From Verif.Spec Require Import PsSpec PsRunSpec PsGenSpec Primes.
From Verif.Proofs Require Import Primes NT PsWheel PsMathP PsErat.
Import ListNotations.
Open Scope Z_scope.
Local Ltac Zify.zify_post_hook ::= idtac.

(** ** Sorted lists *)
Lemma sorted_ext l : forall l', StronglySorted Z.lt l -> StronglySorted Z.lt l' -> (forall x, In x l <-> In x l') -> l = l'.
Proof.
  induction l as [|a l IH]; intros [|b l'] S S' H.
  - reflexivity.
  - exfalso. apply (H b). now left.
  - exfalso. apply (H a). now left.
  - inversion S as [|? ? S1 F1]; subst. inversion S' as [|? ? S2 F2]; subst. rewrite Forall_forall in F1, F2.
    assert (a = b). { destruct (proj1 (H a) (or_introl eq_refl)) as [|X]; auto. destruct (proj2 (H b) (or_introl eq_refl)) as [|Y]; auto. specialize (F2 a X). specialize (F1 b Y). lia. }
    subst b. f_equal. apply IH; auto. intros x. split; intros Hx.
    + destruct (proj1 (H x) (or_intror Hx)) as [<-|]; auto. specialize (F1 a Hx). lia.
    + destruct (proj2 (H x) (or_intror Hx)) as [<-|]; auto. specialize (F2 a Hx). lia.
Qed.
Lemma sorted_filter (f : Z -> bool) l : StronglySorted Z.lt l -> StronglySorted Z.lt (filter f l).
Proof.
  induction 1 as [|a l S IH F]; cbn [filter]; [constructor|]. destruct (f a); auto. constructor; auto.
  rewrite Forall_forall in *. intros x Hx. apply filter_In in Hx. now apply F.
Qed.
Lemma sorted_map (f : Z -> Z) l : (forall a b, In a l -> In b l -> a < b -> f a < f b) -> StronglySorted Z.lt l -> StronglySorted Z.lt (map f l).
Proof.
  intros H. induction 1 as [|a l S IH F]; cbn [map]; [constructor|]. constructor.
  - apply IH. intros x y Hx Hy. apply H; now right.
  - rewrite Forall_forall in *. intros x Hx. apply in_map_iff in Hx. destruct Hx as (y & <- & Hy). apply H; [now left|now right|now apply F].
Qed.
Lemma filter_zrange_head (f : Z -> bool) b k t : forall n a, b - a = Z.of_nat n -> filter f (zrange a b) = k :: t ->
  f k = true /\ a <= k < b /\ (forall j, a <= j < k -> f j = false) /\ t = filter f (zrange (k + 1) b).
Proof.
  induction n as [|n IH]; intros a Hn E.
  - rewrite zrange_empty in E by lia. discriminate.
  - rewrite zrange_cons in E by lia. cbn [filter] in E. destruct (f a) eqn:F.
    + injection E as <- <-. repeat split; auto; try lia.
    + destruct (IH (a + 1) ltac:(lia) E) as (H1 & H2 & H3 & H4). repeat split; auto; try lia.
      intros j Hj. destruct (Z.eq_dec j a) as [->|]; auto. apply H3. lia.
Qed.
Lemma filter_none (f : Z -> bool) l : (forall x, In x l -> f x = false) -> filter f l = [].
Proof. induction l as [|a l IH]; intros H; [reflexivity|]. cbn [filter]. rewrite (H a) by now left. apply IH. intros x Hx. apply H. now right. Qed.

Lemma filter_len (f : Z -> bool) l : (length (filter f l) <= length l)%nat.
Proof. induction l as [|a l IH]; cbn [filter length]; [lia|]. destruct (f a); cbn [length]; lia. Qed.

(** ** Reading a word *)
Lemma testbit_cat n b m k : 0 <= m -> 0 <= n < 2 ^ m -> 0 <= k -> Z.testbit (n + Z.shiftl b m) k = if k <? m then Z.testbit n k else Z.testbit b (k - m).
Proof.
  intros Hm Hn Hk. rewrite Z.shiftl_mul_pow2 by lia. destruct (Z.ltb_spec k m).
  - rewrite <- (Z.mod_pow2_bits_low _ m k) by lia. rewrite Z.mod_add, Z.mod_small by lia. reflexivity.
  - replace k with ((k - m) + m) at 1 by lia. rewrite <- Z.div_pow2_bits by lia. f_equal. rewrite Z.div_add, Z.div_small by lia. reflexivity.
Qed.
Lemma le64_rule sieve i (Q : Z -> Prop) : (forall j, 0 <= j < 8 -> exists b, aget sieve (i + j) = Ok b /\ 0 <= b < 256) ->
  (forall w, 0 <= w < 2 ^ 64 -> (forall k b, 0 <= k < 64 -> aget sieve (i + k / 8) = Ok b -> Z.testbit w k = Z.testbit b (k mod 8)) -> Q w) ->
  wp (le64 sieve i) Q.
Proof.
  intros HB HQ. unfold le64.
  apply for_rule with (Inv := fun j n => 0 <= n < 2 ^ (8 * j) /\ forall k b, 0 <= k < 8 * j -> aget sieve (i + k / 8) = Ok b -> Z.testbit n k = Z.testbit b (k mod 8)).
  - lia.
  - split; [cbn; lia|]. intros; lia.
  - intros j n Hj (I1 & I2). destruct (HB j Hj) as (b & E & Hb). rewrite E. cbn [bind wp]. split.
    + rewrite Z.shiftl_mul_pow2 by lia. replace (8 * (j + 1)) with (8 * j + 8) by lia. rewrite Z.pow_add_r by lia. change (2 ^ 8) with 256. nia.
    + intros k c Hk Ec. rewrite testbit_cat by lia. destruct (Z.ltb_spec k (8 * j)); [apply I2; auto; lia|].
      assert (K : k / 8 = j) by (symmetry; apply Z.div_unique with (k - 8 * j); lia). rewrite K in Ec. assert (c = b) by congruence. subst c. f_equal. pose proof (Z.div_mod k 8 ltac:(lia)). lia.
  - intros n (I1 & I2). apply HQ; [|exact I2]. exact I1.
Qed.

(** ** The bits of a word in order *)
Lemma clear_lowest bits k : 0 <= bits -> lowest bits k -> forall j, 0 <= j ->
  Z.testbit (Z.land bits (bits - 1)) j = Z.testbit bits j && negb (j <=? k).
Proof.
  intros Hb HL j Hj. destruct (lowest_split bits k Hb HL) as (t & E & Ht). destruct HL as (Hk & H1 & H2).
  assert (P : 0 < 2 ^ k) by (apply Z.pow_pos_nonneg; lia).
  rewrite Z.land_spec. destruct (Z.lt_trichotomy j k) as [J|[->|J]].
  - rewrite H2 by lia. reflexivity.
  - rewrite H1, Z.leb_refl. cbn [andb negb]. replace k with (0 + k) at 1 by lia. rewrite <- Z.div_pow2_bits by lia.
    replace ((bits - 1) / 2 ^ k) with (2 * t) by (apply Z.div_unique with (2 ^ k - 1); nia). apply Z.testbit_even_0.
  - assert (B : (j <=? k) = false) by (apply Z.leb_gt; lia). rewrite B. cbn [negb]. rewrite andb_true_r.
    assert (X : Z.testbit (bits - 1) j = Z.testbit bits j).
    { assert (P1 : 2 ^ (k + 1) = 2 * 2 ^ k) by (rewrite Z.pow_add_r by lia; lia).
      replace j with ((j - (k + 1)) + (k + 1)) by lia. rewrite <- !Z.div_pow2_bits by lia. f_equal. rewrite P1.
      transitivity t; [symmetry; apply Z.div_unique with (2 ^ k - 1); nia|apply Z.div_unique with (2 ^ k); nia]. }
    rewrite X. now destruct (Z.testbit bits j).
Qed.
Section Bits.
  Variable N : Z.
  Hypothesis HN : 0 < N.
  Definition bits_upto (w : Z) : list Z := filter (Z.testbit w) (zrange 0 N).
  Lemma bits_upto_nil w : 0 <= w < 2 ^ N -> bits_upto w = [] -> w = 0.
  Proof.
    intros Hw E. apply Z.bits_inj'. intros j Hj. rewrite Z.bits_0. destruct (Z.lt_ge_cases j N).
    - destruct (Z.testbit w j) eqn:T; auto. assert (In j (bits_upto w)) by (apply filter_In; split; auto; apply in_zrange; lia). rewrite E in *. now destruct H0.
    - destruct (Z.eq_dec w 0) as [->|]; [apply Z.bits_0|]. apply Z.bits_above_log2; [lia|]. apply Z.lt_le_trans with N; auto. apply Z.log2_lt_pow2; lia.
  Qed.
  Lemma land_below w : 0 < w < 2 ^ N -> 0 <= Z.land w (w - 1) < 2 ^ N.
  Proof.
    intros Hw. assert (H : 0 <= Z.land w (w - 1)) by (apply Z.land_nonneg; lia). split; auto.
    destruct (Z.eq_dec (Z.land w (w - 1)) 0) as [->|]; [lia|]. apply Z.log2_lt_pow2; [lia|]. pose proof (Z.log2_land w (w - 1) ltac:(lia) ltac:(lia)).
    assert (Z.log2 w < N) by (apply Z.log2_lt_pow2; lia). lia.
  Qed.
  Lemma bits_upto_cons w k t : 0 <= w < 2 ^ N -> bits_upto w = k :: t -> lowest w k /\ 0 <= k < N /\ t = bits_upto (Z.land w (w - 1)) /\ 0 <= Z.land w (w - 1) < 2 ^ N.
  Proof.
    intros Hw E. destruct (filter_zrange_head (Z.testbit w) N k t (Z.to_nat N) 0 ltac:(rewrite Z2Nat.id; lia) E) as (H1 & H2 & H3 & H4).
    assert (HL : lowest w k) by (split; [lia|]; split; auto). split; auto. split; [lia|]. split.
    - rewrite H4. unfold bits_upto. rewrite (zrange_app 0 (k + 1) N) by lia. rewrite filter_app.
      rewrite (filter_none (Z.testbit (Z.land w (w - 1))) (zrange 0 (k + 1))).
      + cbn [app]. apply filter_ext_in. intros j Hj. apply in_zrange in Hj. rewrite (clear_lowest w k) by (auto; lia).
        assert (B : (j <=? k) = false) by (apply Z.leb_gt; lia). rewrite B. cbn [negb]. now rewrite andb_true_r.
      + intros j Hj. apply in_zrange in Hj. rewrite (clear_lowest w k) by (auto; lia). assert (B : (j <=? k) = true) by (apply Z.leb_le; lia). rewrite B. now rewrite andb_false_r.
    - apply land_below. assert (w <> 0) by (intros ->; rewrite Z.bits_0 in H1; discriminate). lia.
  Qed.
  Lemma bits_upto_len w : zlen (bits_upto w) <= N.
  Proof. unfold bits_upto, zlen. pose proof (filter_len (Z.testbit w) (zrange 0 N)) as H. rewrite zrange_length in H. lia. Qed.
  Lemma bits_upto_in w k : In k (bits_upto w) <-> 0 <= k < N /\ Z.testbit w k = true.
  Proof. unfold bits_upto. rewrite filter_In, in_zrange. apply iff_refl. Qed.
  Lemma bits_upto_sorted w : StronglySorted Z.lt (bits_upto w).
  Proof. apply sorted_filter, zrange_sorted. Qed.
End Bits.
Definition set_bits (w : Z) : list Z := bits_upto 64 w.
Lemma set_bits_nil w : 0 <= w < 2 ^ 64 -> set_bits w = [] -> w = 0.
Proof. exact (bits_upto_nil 64 w). Qed.
Lemma set_bits_cons w k t : 0 <= w < 2 ^ 64 -> set_bits w = k :: t -> lowest w k /\ 0 <= k < 64 /\ t = set_bits (Z.land w (w - 1)) /\ 0 <= Z.land w (w - 1) < 2 ^ 64.
Proof. exact (bits_upto_cons 64 eq_refl w k t). Qed.
Lemma set_bits_len w : zlen (set_bits w) <= 64.
Proof. exact (bits_upto_len 64 eq_refl w). Qed.
Lemma set_bits_in w k : In k (set_bits w) <-> 0 <= k < 64 /\ Z.testbit w k = true.
Proof. exact (bits_upto_in 64 w k). Qed.
Lemma set_bits_sorted w : StronglySorted Z.lt (set_bits w).
Proof. exact (bits_upto_sorted 64 w). Qed.
Lemma set_bits_0 : set_bits 0 = [].
Proof. vm_compute. reflexivity. Qed.
Global Opaque set_bits.

Lemma decode_rule g cap low w acc (Q : list Z -> Prop) : genv_ok g -> 0 <= w < 2 ^ 64 ->
  (match cap with Some c => zlen acc + zlen (set_bits w) <= c | None => True end) ->
  Q (acc ++ map (fun k => uwrap 64 (low + bit_value k)) (set_bits w)) -> wp (decode g cap low w acc) Q.
Proof.
  intros (GN & _) Hw Hc HQ. unfold decode.
  apply (loop_rule _ (fun '((bits, acc') : Z * list Z) => 0 <= bits < 2 ^ 64 /\
    (match cap with Some c => zlen acc' + zlen (set_bits bits) <= c | None => True end) /\
    acc' ++ map (fun k => uwrap 64 (low + bit_value k)) (set_bits bits) = acc ++ map (fun k => uwrap 64 (low + bit_value k)) (set_bits w))
    (fun '((bits, _) : Z * list Z) => zlen (set_bits bits))).
  - intros [bits acc'] (I1 & I2 & I3). destruct (Z.eqb_spec bits 0) as [->|NZ].
    + cbn [wp]. rewrite set_bits_0 in I3. cbn [map] in I3. rewrite app_nil_r in I3. now rewrite I3.
    + destruct (set_bits bits) as [|k t] eqn:E; [exfalso; apply NZ; now apply set_bits_nil|].
      destruct (set_bits_cons bits k t I1 E) as (L1 & L2 & L3 & L4). rewrite (GN bits low k I1 L1). cbn [bind].
      assert (ZL : zlen (k :: t) = zlen t + 1) by (unfold zlen; cbn [length]; lia). assert (0 <= zlen t) by (unfold zlen; lia).
      assert (C : match cap with Some c => zlen acc' <? c | None => true end = true) by (destruct cap as [c|]; auto; apply Z.ltb_lt; lia).
      rewrite C. cbn [wp]. rewrite <- L3. split; [|lia]. split; auto. split.
      * destruct cap as [c|]; auto. rewrite zlen_app. unfold zlen at 2. cbn [length]. lia.
      * rewrite <- I3. rewrite <- app_assoc. cbn [map app]. reflexivity.
  - repeat split; auto; lia.
  - pose proof (set_bits_len w). lia.
Qed.

(** ** The primes of a word *)
Definition sel (start stop a b : Z) : list Z := filter (fun m => primeb m && (start <=? m) && (m <=? stop)) (zrange a b).
Lemma sel_app start stop a b c : a <= b <= c -> sel start stop a c = sel start stop a b ++ sel start stop b c.
Proof. intros H. unfold sel. rewrite (zrange_app a b c) by lia. apply filter_app. Qed.
Lemma sel_none start stop a b : stop < a \/ b <= a -> sel start stop a b = [].
Proof.
  intros H. apply filter_none. intros x Hx. apply in_zrange in Hx. assert (B : (x <=? stop) = false) by (apply Z.leb_gt; lia). rewrite B. now rewrite andb_false_r.
Qed.
Lemma sel_in start stop a b m : In m (sel start stop a b) <-> prime m /\ start <= m <= stop /\ a <= m < b.
Proof. unfold sel. rewrite filter_In, in_zrange, !andb_true_iff, primeb_spec, !Z.leb_le. tauto. Qed.
Lemma sel_sorted start stop a b : StronglySorted Z.lt (sel start stop a b).
Proof. apply sorted_filter, zrange_sorted. Qed.
Lemma bit_value_bound k : 0 <= k < 64 -> 7 <= bit_value k < 247.
Proof.
  intros H. unfold bit_value. pose proof (Z.div_mod k 8 ltac:(lia)). pose proof (Z.mod_pos_bound k 8 ltac:(lia)).
  pose proof (off_bound (k mod 8) ltac:(lia)). lia.
Qed.
Lemma bit_value_mono a b : 0 <= a < 64 -> 0 <= b < 64 -> a < b -> bit_value a < bit_value b.
Proof.
  assert (E : forallb (fun a => forallb (fun b => negb (a <? b) || (bit_value a <? bit_value b)) (zrange 0 64)) (zrange 0 64) = true) by (vm_compute; reflexivity).
  intros Ha Hb H. rewrite forallb_forall in E. specialize (E a). rewrite in_zrange, forallb_forall in E. specialize (E Ha b). rewrite in_zrange in E. specialize (E Hb).
  rewrite (proj2 (Z.ltb_lt a b) H) in E. now apply Z.ltb_lt in E.
Qed.
Lemma word_sel w low start stop : 0 <= low -> low mod 30 = 0 -> stop < 2 ^ 64 ->
  (forall k, 0 <= k < 64 -> let m := low + bit_value k in Z.testbit w k = primeb m && (start <=? m) && (m <=? stop)) ->
  map (fun k => uwrap 64 (low + bit_value k)) (set_bits w) = sel start stop (low + 7) (low + 247).
Proof.
  intros HL HM Hst HT.
  assert (E : map (fun k => uwrap 64 (low + bit_value k)) (set_bits w) = map (fun k => low + bit_value k) (set_bits w)).
  { apply map_ext_in. intros k Hk. apply set_bits_in in Hk. destruct Hk as [Hk T]. rewrite HT in T by auto. cbv zeta in T. rewrite !andb_true_iff, !Z.leb_le in T.
    pose proof (bit_value_bound k Hk). unfold uwrap. apply Z.mod_small. lia. }
  rewrite E. apply sorted_ext; [|apply sel_sorted|].
  - apply sorted_map; [|apply set_bits_sorted]. intros a b Ha Hb H. apply set_bits_in in Ha, Hb. pose proof (bit_value_mono a b ltac:(tauto) ltac:(tauto) H). lia.
  - intros m. rewrite sel_in, in_map_iff. split.
    + intros (k & <- & Hk). apply set_bits_in in Hk. destruct Hk as [Hk T]. rewrite HT in T by auto. cbv zeta in T. rewrite !andb_true_iff, !Z.leb_le, primeb_spec in T.
      pose proof (bit_value_bound k Hk). destruct T as ((T1 & T2) & T3). split; auto. split; lia.
    + intros (P & R1 & R2). assert (C : cop 30 m = true) by (apply prime_cop30; auto; lia). pose proof (place_ex low m HM C) as PE.
      set (i := (m - low - 7) / 30) in *. pose proof (bitpos_range m) as BP. pose proof (off_bound _ BP) as OB.
      assert (Hi : 0 <= i < 8) by lia. assert (D1 : (8 * i + bitpos m) / 8 = i) by (symmetry; apply Z.div_unique with (bitpos m); lia).
      assert (D2 : (8 * i + bitpos m) mod 8 = bitpos m) by (symmetry; apply Z.mod_unique with i; lia).
      exists (8 * i + bitpos m). assert (V : low + bit_value (8 * i + bitpos m) = m) by (unfold bit_value; rewrite D1, D2; lia). split; auto.
      apply set_bits_in. split; [lia|]. rewrite HT by lia. cbv zeta. rewrite V, !andb_true_iff, !Z.leb_le, primeb_spec. split; [split|]; auto; lia.
Qed.
