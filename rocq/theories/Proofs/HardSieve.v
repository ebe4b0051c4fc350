(** Summing the unsieved numbers of a segment: directly or with the tree. *)
From Coq Require Import ZArith List Bool Lia Znumtheory.
From Verif.Base Require Import Res Word Zl Arr IType.
From Verif.Spec Require Import Primes LMOSpec WheelSpec.
From Verif.Model Require Import BitSieve Fenwick Wheel FactorTable S2Hard.
From Verif.Proofs Require Import Primes NT Phi Leaf FactorTable BitSieve Fenwick Wheel.
Import ListNotations.
Open Scope Z_scope.
Local Ltac Zify.zify_post_hook ::= idtac.

Lemma isum_ext F G low a b : (forall i, a <= i < b -> F i = G i) -> isum F low a b = isum G low a b.
Proof. intros H. apply sumr_ext. intros i Hi. now rewrite H. Qed.
Lemma isum_clear F G low a b i : a <= i < b -> G i = false -> (forall j, a <= j < b -> j <> i -> G j = F j) ->
  isum G low a b = isum F low a b - (low + 2 * i) * Z.b2z (F i).
Proof.
  intros Hi Gi H. unfold isum. rewrite !(sumr_split a i b) by lia. rewrite !(sumr_cons i b) by lia.
  rewrite (sumr_ext a i _ (fun j => if F j then low + 2 * j else 0)) by (intros j Hj; rewrite H by lia; reflexivity).
  rewrite (sumr_ext (i + 1) b _ (fun j => if F j then low + 2 * j else 0)) by (intros j Hj; rewrite H by lia; reflexivity).
  rewrite Gi. destruct (F i); cbn [Z.b2z]; ring.
Qed.

(** the sums of a segment are far below the limit of int128_t *)

Definition cnt_ok (cnt : counter) (seg : Z) (F : Z -> bool) (low high : Z) : Prop :=
  match cnt with
  | Direct s => s = isum F low 0 ((high - low + 1) / 2)
  | Tree t => tree_rep t (seg / 2) (fun k => if F (k - 1) then low + 2 * (k - 1) else 0)
  end.
Definition st_ok (cnt : counter) (F : Z -> bool) (low lim : Z) (st : Z * Z) : Prop :=
  match cnt with
  | Direct _ => 0 <= fst st <= lim /\ snd st = isum F low 0 ((fst st + 1) / 2)
  | Tree _ => True
  end.
Lemma st_ok_0 cnt F low lim : 0 <= lim -> st_ok cnt F low lim (0, 0).
Proof. intros H. destruct cnt; cbn [st_ok fst snd]; auto. split; [lia|]. change ((0 + 1) / 2) with 0. now rewrite isum_empty by lia. Qed.
Lemma st_ok_mono cnt F low lim lim' st : lim <= lim' -> st_ok cnt F low lim st -> st_ok cnt F low lim' st.
Proof. intros H. destruct cnt; cbn [st_ok]; auto. lia. Qed.

Lemma cnt_ext cnt seg F G low high : (forall i, 0 <= i -> F i = G i) -> cnt_ok cnt seg F low high -> cnt_ok cnt seg G low high.
Proof.
  intros H. destruct cnt as [s|t]; cbn [cnt_ok].
  - intros ->. apply isum_ext. intros i Hi. apply H. lia.
  - intros T. eapply tree_rep_ext; [exact T|]. intros k Hk. cbv beta. now rewrite H by lia.
Qed.

Section Seg.
  Context (bs : bitsieve) (N : Z) (F : Z -> bool) (seg low high : Z).
  Hypothesis (HR : bs_rep bs N F) (HS : bs_size bs = seg) (He : (2 | seg)) (Hseg : 0 <= seg < 2 ^ 57).
  Hypothesis (Hl : 1 <= low < high) (Hh : high <= low + seg) (Hb : low + 128 * N <= 2 ^ 59) (Hfit : words_fit F low N).

  Lemma seg_half k : 0 <= k < seg -> k / 2 < seg / 2.
  Proof. clear - He. intros Hk. destruct He as [h ->]. rewrite Z.div_mul by lia. apply Z.div_lt_upper_bound; lia. Qed.
  Lemma seg_N : seg <= 128 * N. Proof. destruct HR as [H _]. lia. Qed.

  Lemma counter_init_ok few old : wp (counter_init few old bs seg low high) (fun cnt => cnt_ok cnt seg F low high).
  Proof.
    unfold counter_init. destruct few; apply wp_bind.
    - rewrite (bs_sum_idx bs N F low 0 (high - 1 - low)) by (auto; lia). apply wp_ok, wp_ok. cbn [cnt_ok].
      change ((0 + 1) / 2) with 0. f_equal. replace (high - low + 1) with (high - 1 - low + 1 * 2) by ring. rewrite Z.div_add by lia. reflexivity.
    - apply (bit_init_ok _ _ _ _ (fun i => Z.b2z (F i))).
      + apply Hseg.
      + lia.
      + pose proof seg_N. lia.
      + intros i Hi. split; [|destruct (F i); cbn; lia]. unfold bs_getz. rewrite (bs_get_ok bs N F i HR); [reflexivity|]. rewrite HS. pose proof (Z.mul_div_le seg 2 ltac:(lia)). lia.
      + intros tree HT. apply wp_ok. cbn [cnt_ok]. eapply tree_rep_ext; [exact HT|]. intros k Hk. cbv beta. destruct (F (k - 1)); cbn [Z.b2z]; ring.
  Qed.

  Lemma seg_cells G : cells (seg / 2) (fun k => if G (k - 1) : bool then low + 2 * (k - 1) else 0).
  Proof.
    pose proof seg_N. assert (2 * (seg / 2) <= seg) by (apply Z.mul_div_le; lia). split; [lia|]. intros k Hk. destruct (G (k - 1)); lia.
  Qed.
  Lemma tree_isum t k : tree_rep t (seg / 2) (fun k => if F (k - 1) then low + 2 * (k - 1) else 0) -> 0 <= k < seg ->
    bit_sum t k = Ok (isum F low 0 (k / 2 + 1)).
  Proof.
    intros HT Hk. pose proof (seg_half k Hk). assert (E : Z.shiftr k 1 = k / 2) by (rewrite Z.shiftr_div_pow2 by lia; reflexivity).
    assert (0 <= k / 2) by (apply Z.div_pos; lia).
    rewrite (bit_sum_ok t (seg / 2) (fun k => if F (k - 1) then low + 2 * (k - 1) else 0) k); [|apply seg_cells|exact HT|rewrite E; lia].
    rewrite E. f_equal. replace 1 with (0 + 1) by ring. replace (k / 2 + 2) with (k / 2 + 1 + 1) by ring. rewrite sumr_shift.
    apply sumr_ext. intros i _. cbv beta. replace (i + 1 - (0 + 1)) with i by ring. reflexivity.
  Qed.

  Lemma counter_sum_ok cnt st stop (Q : Z * Z -> Prop) : cnt_ok cnt seg F low high -> 0 <= stop < high - low -> st_ok cnt F low (stop + 1) st ->
    (forall st', snd st' = isum F low 0 (stop / 2 + 1) -> st_ok cnt F low (stop + 1) st' -> Q st') ->
    wp (counter_sum cnt bs low high stop st) Q.
  Proof.
    destruct st as [start sum]. pose proof seg_N as HN. intros HC Hs HI HQ. assert (E2 : (stop + 1 + 1) / 2 = stop / 2 + 1).
    { replace (stop + 1 + 1) with (stop + 1 * 2) by ring. now rewrite Z.div_add by lia. }
    destruct cnt as [slh|t]; cbn [counter_sum cnt_ok st_ok fst snd] in *.
    - destruct HI as [Hst ->]. set (st0 := (start + 1) / 2) in *.
      assert (HP : 0 <= st0 <= stop / 2 + 1). { split; [apply Z.div_pos; lia|]. rewrite <- E2. apply Z.div_le_mono; lia. }
      assert (HE : stop / 2 + 1 <= (high - low + 1) / 2). { rewrite <- E2. apply Z.div_le_mono; lia. }
      assert (V : bs_sum6 bs start stop low high (isum F low 0 st0) slh = Ok (isum F low st0 (stop / 2 + 1))).
      { unfold bs_sum6. destruct (Z.gtb_spec start stop) as [G|G].
        - assert (ES : st0 = stop / 2 + 1) by (unfold st0; replace start with (stop + 1) by lia; exact E2). now rewrite isum_empty by lia.
        - rewrite !uwrap_small by (try rewrite !uwrap_small; lia). destruct (Z.ltb_spec (stop - start) (high - low - stop)).
          + apply (bs_sum_idx bs N F); auto; try lia.
          + rewrite (bs_sum_idx bs N F) by (auto; lia). rewrite bind_Ok. rewrite E2. subst slh.
            replace ((high - 1 - low) / 2 + 1) with ((high - low + 1) / 2).
            2:{ replace (high - low + 1) with (high - 1 - low + 1 * 2) by ring. now rewrite Z.div_add by lia. }
            rewrite (isum_split F low 0 st0 ((high - low + 1) / 2)) by lia.
            rewrite (isum_split F low st0 (stop / 2 + 1) ((high - low + 1) / 2)) by lia.
            assert (2 * ((high - low + 1) / 2) <= high - low + 1) by (apply Z.mul_div_le; lia).
            pose proof (isum_bound F low 0 st0 ltac:(lia) ltac:(lia) ltac:(lia)). pose proof (isum_bound F low st0 (stop / 2 + 1) ltac:(lia) ltac:(lia) ltac:(lia)).
            pose proof (isum_bound F low (stop / 2 + 1) ((high - low + 1) / 2) ltac:(lia) ltac:(lia) ltac:(lia)). assert (2 ^ 120 * 4 < 2 ^ 127) by reflexivity.
            rewrite schk128 by lia. rewrite bind_Ok. rewrite schk128 by lia. f_equal. ring. }
      rewrite V. rewrite bind_Ok. rewrite <- isum_split by lia. pose proof (isum_bound F low 0 (stop / 2 + 1) ltac:(lia) ltac:(lia)) as IB.
      assert (Hhalf : 2 * (stop / 2) <= stop) by (apply Z.mul_div_le; lia). specialize (IB ltac:(lia)).
      rewrite schk128 by lia. rewrite bind_Ok. apply wp_ok. apply HQ; cbn [fst snd].
      + reflexivity.
      + cbn [st_ok fst snd]. split; [lia|]. now rewrite E2.
    - rewrite (tree_isum t stop HC) by lia. rewrite bind_Ok. apply wp_ok. apply HQ; cbn [fst snd st_ok]; auto.
  Qed.

  Lemma counter_total_ok cnt : cnt_ok cnt seg F low high -> counter_total cnt low high = Ok (isum F low 0 ((high - low + 1) / 2)).
  Proof.
    intros HC. destruct cnt as [s|t]; cbn [counter_total cnt_ok] in *; [now subst s|]. rewrite (tree_isum t _ HC) by lia. f_equal. f_equal.
    replace (high - low + 1) with (high - 1 - low + 1 * 2) by ring. now rewrite Z.div_add by lia.
  Qed.

  (** crossing off *)
  Context (p : Z).
  Hypothesis (Hp : prime p) (H11 : 11 <= p) (Ho : Z.odd low = true) (Hpb : high + 12 * p < 2 ^ 63).
  Definition crossed (n i : Z) : bool := F i && negb ((low + 2 * i <? n) && wheel_hit p (low + 2 * i)).

  Lemma hit_odd n : wheel_hit p n = true -> Z.odd n = true.
  Proof.
    clear - Hp H11. unfold wheel_hit. rewrite andb_true_iff, Z.eqb_eq. intros [A B]. apply Z.mod_divide in A; [|lia]. destruct A as [k ->].
    rewrite Z.div_mul in B by lia. assert (C : coprime210 (k * p) = true) by (apply coprime210_mul; auto; now apply coprime210_prime).
    destruct (Z.odd (k * p)) eqn:E; auto. exfalso. rewrite <- Z.negb_even, negb_false_iff in E. apply Z.even_spec in E. destruct E as [m E]. 
    assert (11 <= 2); [|lia]. apply (coprime210_factors (k * p)); auto; [apply prime_2|]. exists m. rewrite E. ring.
  Qed.
  Lemma odd_pos n : low <= n -> Z.odd n = true -> exists i, n = low + 2 * i /\ 0 <= i.
  Proof.
    clear - Ho. intros Hn E. apply Z.odd_spec in E. destruct E as [a Ea]. pose proof Ho as E2. apply Z.odd_spec in E2. destruct E2 as [b Eb].
    exists (a - b). lia.
  Qed.
  Lemma crossed_low i : 0 <= i -> crossed low i = F i.
  Proof. clear. intros Hi. unfold crossed. destruct (Z.ltb_spec (low + 2 * i) low); [lia|]. cbn [andb negb]. apply andb_true_r. Qed.
  Lemma crossed_next n i j : n = low + 2 * i -> wheel_hit p n = true -> (if j =? i then false else crossed n j) = crossed (n + 1) j.
  Proof.
    clear. intros E Hh. unfold crossed. destruct (Z.eqb_spec j i) as [->|Hj].
    - rewrite <- E. rewrite Hh. rewrite (proj2 (Z.ltb_lt n (n + 1))) by lia. cbn [andb negb]. now rewrite andb_false_r.
    - replace (low + 2 * j <? n + 1) with (low + 2 * j <? n); auto.
      destruct (Z.ltb_spec (low + 2 * j) n), (Z.ltb_spec (low + 2 * j) (n + 1)); auto; lia.
  Qed.
  Lemma crossed_skip n j : wheel_hit p n = false -> crossed n j = crossed (n + 1) j.
  Proof.
    clear. intros Hh. unfold crossed. destruct (Z.eq_dec (low + 2 * j) n) as [E|E].
    - rewrite E, Hh. now rewrite !andb_false_r.
    - replace (low + 2 * j <? n + 1) with (low + 2 * j <? n); auto.
      destruct (Z.ltb_spec (low + 2 * j) n), (Z.ltb_spec (low + 2 * j) (n + 1)); auto; lia.
  Qed.

  Lemma crossed_fit n : 0 <= low -> words_fit (crossed n) low N.
  Proof.
    clear - Hfit. intros H0 j Hj. eapply Z.le_lt_trans; [|exact (Hfit j Hj)]. apply sumr_le. intros i Hi. unfold crossed.
    destruct (F i); cbn [andb]; [destruct (negb _); lia|lia].
  Qed.

  Lemma cross_off_ok cnt it (Q : bitsieve * counter * wheel_item -> Prop) : cnt_ok cnt seg F low high -> item_at p low it ->
    (forall bs' cnt' it', bs_size bs' = seg -> bs_rep bs' N (crossed high) -> cnt_ok cnt' seg (crossed high) low high -> item_at p high it' ->
       Q (bs', cnt', it')) ->
    wp (cross_off cnt bs low high p it) Q.
  Proof.
    intros HC HI HQ. set (H := (high - low + 1) / 2).
    assert (HH : forall i, low + 2 * i < high -> i < H).
    { intros i Hi. unfold H. assert (i + 1 <= (high - low + 1) / 2); [|lia]. apply Z.div_le_lower_bound; lia. }
    assert (R0 : bs_rep bs N (crossed low)) by (eapply bs_rep_ext; [exact HR|]; intros i Hi; symmetry; apply crossed_low; lia).
    pose proof seg_N as HN.
    assert (IB : forall G, 0 <= isum G low 0 H <= 2 ^ 120).
    { intros G. apply isum_bound; [lia|lia|]. assert (2 * H <= high - low + 1) by (apply Z.mul_div_le; lia). lia. }
    destruct cnt as [slh|t]; cbn [cross_off cnt_ok] in *.
    - apply wp_bind.
      apply (wheel_for_rule p low high it _ (fun n (s : bitsieve * Z) => bs_size (fst s) = seg /\ bs_rep (fst s) N (crossed n) /\
        snd s = isum F low 0 H - isum (crossed n) low 0 H)); auto; try lia.
      + cbn [fst snd]. split; auto. split; auto. rewrite (isum_ext (crossed low) F); [ring|]. intros i Hi. apply crossed_low. lia.
      + intros n [b s] Hn HW (S1 & S2 & S3). cbn [fst snd] in *. destruct (odd_pos n ltac:(lia) (hit_odd n HW)) as (i & Ei & Hi).
        unfold cross_off_sum, bs_getz. replace (n - low) with (2 * i) by lia. rewrite (bs_get_ok b N (crossed n) i S2) by lia. rewrite bind_Ok, bind_Ok.
        apply wp_bind. apply (bs_unset_ok b N (crossed n) i); auto; [lia|]. intros b' Z1 Z2.
        assert (SN : s + n * Z.b2z (crossed n i) = isum F low 0 H - isum (crossed (n + 1)) low 0 H).
        { rewrite S3. rewrite (isum_clear (crossed n) (crossed (n + 1)) low 0 H i).
          - rewrite <- Ei. ring.
          - split; [lia|]. apply HH. lia.
          - rewrite <- (crossed_next n i i Ei HW). now rewrite Z.eqb_refl.
          - intros j Hj Hji. rewrite <- (crossed_next n i j Ei HW). apply Z.eqb_neq in Hji. now rewrite Hji. }
        pose proof (IB F). pose proof (IB (crossed (n + 1))). rewrite SN, schk128 by lia. rewrite bind_Ok. apply wp_ok. cbn [fst snd].
        split; [congruence|]. split; [|reflexivity].
        eapply bs_rep_ext; [exact Z2|]. intros j Hj. cbv beta. now apply crossed_next.
      + intros n [b s] Hn HW (S1 & S2 & S3). cbn [fst snd] in *. split; auto. split.
        * eapply bs_rep_ext; [exact S2|]. intros j Hj. now apply crossed_skip.
        * rewrite S3. f_equal. apply isum_ext. intros j Hj. now apply crossed_skip.
      + intros [b s] it' (S1 & S2 & S3) I'. cbn [fst snd] in *. fold H in HC.
        assert (SD : slh - s = isum (crossed high) low 0 H) by (rewrite HC, S3; ring). pose proof (IB (crossed high)).
        rewrite SD, schk128 by lia. rewrite bind_Ok. apply wp_ok. apply HQ; auto. reflexivity.
    - apply wp_bind.
      apply (wheel_for_rule p low high it _ (fun n (s : bitsieve * list Z) => bs_size (fst s) = seg /\ bs_rep (fst s) N (crossed n) /\
        cnt_ok (Tree (snd s)) seg (crossed n) low high)); auto; try lia.
      + cbn [fst snd]. split; auto. split; auto. apply (cnt_ext (Tree t) seg F); [|exact HC]. intros i Hi. symmetry. now apply crossed_low.
      + intros n [b s] Hn HW (S1 & S2 & S3). cbn [fst snd] in *. destruct (odd_pos n ltac:(lia) (hit_odd n HW)) as (i & Ei & Hi).
        unfold cross_off_tree. replace (n - low) with (2 * i) by lia. rewrite (bs_get_ok b N (crossed n) i S2) by lia. rewrite bind_Ok.
        destruct (crossed n i) eqn:C.
        * apply wp_bind. apply (bs_unset_ok b N (crossed n) i); auto; [lia|]. intros b' Z1 Z2.
          assert (E1 : Z.shiftr (n - low) 1 = i). { rewrite Z.shiftr_div_pow2 by lia. change (2 ^ 1) with 2. replace (n - low) with (i * 2) by lia. apply Z.div_mul. lia. }
          assert (I2 : 0 <= i < seg / 2). { split; [lia|]. assert (i + 1 <= seg / 2); [|lia]. apply Z.div_le_lower_bound; [lia|]. destruct He as [h Eh]. lia. }
          apply wp_bind. cbn [cnt_ok] in S3. apply (bit_update_ok s (seg / 2) (fun k => if crossed n (k - 1) then low + 2 * (k - 1) else 0) n low); [|exact S3|lia|lia|rewrite E1; exact I2|].
          { apply seg_cells. }
          intros t' T'. apply wp_ok. cbn [fst snd]. split; [congruence|]. split.
          -- eapply bs_rep_ext; [exact Z2|]. intros j Hj. cbv beta. now apply crossed_next.
          -- cbn [cnt_ok]. eapply tree_rep_ext; [exact T'|]. intros k Hk. cbv beta. rewrite E1. rewrite <- (crossed_next n i (k - 1) Ei HW).
             destruct (Z.eqb_spec k (i + 1)) as [->|Hk1].
             ++ replace (i + 1 - 1) with i by ring. rewrite Z.eqb_refl, C. lia.
             ++ destruct (Z.eqb_spec (k - 1) i); [lia|reflexivity].
        * apply wp_ok. cbn [fst snd].
          assert (E3 : forall j, crossed n j = crossed (n + 1) j).
          { intros j. rewrite <- (crossed_next n i j Ei HW). destruct (Z.eqb_spec j i) as [->|]; auto. }
          split; auto. split; [eapply bs_rep_ext; [exact S2|]; intros j Hj; apply E3|].
          apply (cnt_ext _ _ (crossed n)); auto.
      + intros n [b s] Hn HW (S1 & S2 & S3). cbn [fst snd] in *. split; auto. split.
        * eapply bs_rep_ext; [exact S2|]. intros j Hj. now apply crossed_skip.
        * apply (cnt_ext _ _ (crossed n)); auto. intros j Hj. now apply crossed_skip.
      + intros [b s] it' (S1 & S2 & S3) I'. cbn [fst snd] in *. apply HQ; auto.
  Qed.
End Seg.
