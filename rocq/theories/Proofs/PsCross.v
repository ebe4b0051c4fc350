(** Crossing off the multiples of one sieving prime: the lines of EratSmall and EratMedium. *)
From Coq Require Import ZArith List Lia Bool Znumtheory.
From Verif.Base Require Import Res Word Zl Each.
From Verif.Model Require Import PsTables PsMath PsErat.
From Verif.Spec Require Import PsSpec.
From Verif.Proofs Require Import PsWheel.
Import ListNotations.
Open Scope Z_scope.
Local Ltac Zify.zify_post_hook ::= idtac.

(** multiples p q with a <= q < b *)
Definition hitq (M p a b m : Z) : bool := (m mod p =? 0) && cop M (m / p) && (a <=? m / p) && (m / p <? b).

Lemma hitq_none M p a m : hitq M p a a m = false.
Proof. unfold hitq. destruct (Z.leb_spec a (m / p)), (Z.ltb_spec (m / p) a); rewrite ?andb_false_r; auto; lia. Qed.

Lemma hitq_step M p a q f m : 0 < p -> a <= q -> 0 < f -> cop M q = true -> (forall d, 0 < d < f -> cop M (q + d) = false) ->
  hitq M p a (q + f) m = hitq M p a q m || (m =? p * q).
Proof.
  intros Hp Ha Hf Hq Hd. unfold hitq. destruct (Z.eqb_spec (m mod p) 0) as [E|E]; cbn [andb orb].
  - assert (Em : m = p * (m / p)) by (rewrite (Z.div_mod m p) at 1 by lia; lia). set (t := m / p) in *. clearbody t. subst m.
    destruct (Z.eqb_spec (p * t) (p * q)) as [E'|E'].
    + assert (t = q) by nia. subst t. rewrite Hq, orb_true_r. destruct (Z.leb_spec a q), (Z.ltb_spec q (q + f)); auto; lia.
    + rewrite orb_false_r. assert (t <> q) by (intros ->; lia).
      destruct (Z.ltb_spec t (q + f)), (Z.ltb_spec t q); auto; try lia.
      replace t with (q + (t - q)) by lia. rewrite Hd by lia. reflexivity.
  - symmetry. apply Z.eqb_neq. intros ->. apply E. rewrite Z.mul_comm. apply Z.mod_mul. lia.
Qed.

(** What is known about a stored prime: it stands at the least multiple p q > L + 6 with
    q >= p and q coprime to the wheel. *)
Definition first_q (M L p q : Z) : Prop :=
  p <= q /\ cop M q = true /\ L + 6 < p * q /\ forall q', cop M q' = true -> p <= q' -> L + 6 < p * q' -> q <= q'.
Definition track (M size L p mi w : Z) : Prop := exists q, at_mult M size L p mi w q /\ first_q M L p q.

Lemma hitq_finish M L L' p q0 q m : 0 < p -> first_q M L p q0 -> q0 <= q -> L' + 6 < p * q ->
  (forall t, cop M t = true -> q0 <= t < q -> p * t <= L' + 6) ->
  hitq M p q0 q m = strikes M p m && (L + 6 <? m) && (m <? L' + 7).
Proof.
  intros Hp (H1 & H2 & H3 & H4) Hq Hl Ht. unfold hitq, strikes. destruct (Z.eqb_spec (m mod p) 0) as [E|E]; cbn [andb]; auto.
  assert (Em : m = p * (m / p)) by (rewrite (Z.div_mod m p) at 1 by lia; lia). set (t := m / p) in *. clearbody t. subst m.
  destruct (cop M t) eqn:C; cbn [andb]; auto.
  destruct (Z.leb_spec q0 t) as [L1|L1]; cbn [andb].
  - assert (p * q0 <= p * t) by nia. replace (p <=? t) with true by (symmetry; apply Z.leb_le; lia).
    replace (L + 6 <? p * t) with true by (symmetry; apply Z.ltb_lt; lia). cbn [andb].
    destruct (Z.ltb_spec t q) as [L2|L2].
    + specialize (Ht t C ltac:(lia)). symmetry. apply Z.ltb_lt. lia.
    + assert (p * q <= p * t) by nia. symmetry. apply Z.ltb_ge. lia.
  - destruct (Z.leb_spec p t) as [L2|L2]; cbn [andb]; auto. destruct (Z.ltb_spec (L + 6) (p * t)) as [L3|L3]; cbn [andb]; auto.
    specialize (H4 t C L2 L3). lia.
Qed.

Lemma first_q_next M L L' p q0 q : first_q M L p q0 -> L <= L' -> q0 <= q -> cop M q = true -> L' + 6 < p * q ->
  (forall t, cop M t = true -> q0 <= t < q -> p * t <= L' + 6) -> first_q M L' p q.
Proof.
  intros (H1 & H2 & H3 & H4) HL Hq C Hl Ht. repeat split; auto; try lia.
  intros t Ct Pt Lt. specialize (H4 t Ct Pt ltac:(lia)). destruct (Z.le_gt_cases q t); auto. specialize (Ht t Ct ltac:(lia)). lia.
Qed.

(** *** One prime, from the state at q0 *)
Section Cross.
  Variables (M size : Z) (L p q0 n end_ : Z) (B : Z -> bool).
  Hypotheses (HM : 0 < M) (HD : (30 | M)) (Hs : zlen (qs M) = size) (HL : L mod 30 = 0) (Hp : 0 < p) (Hend : end_ <= n)
             (Hq0 : L + 6 < p * q0).

  (** the prime stands at byte pos, line w, quotient q; all earlier multiples are cleared *)
  Definition cinv (sieve : list Z) (pos w q : Z) : Prop :=
    zlen sieve = n /\ at_mult M size L p pos w q /\ q0 <= q /\
    (forall t, cop M t = true -> q0 <= t < q -> p * t <= L + 30 * end_ + 6) /\
    holds sieve L (fun m => B m && negb (hitq M p q0 q m)).

  Lemma cinv_pos sieve pos w q : cinv sieve pos w q -> 0 <= pos.
  Proof.
    intros (_ & (_ & _ & _ & E) & Hq & _). pose proof (off_bound _ (bitpos_range (p * q))).
    assert (p * q0 <= p * q) by nia. lia.
  Qed.
  Lemma cinv_end sieve pos w q : cinv sieve pos w q -> end_ <= pos -> L + 30 * end_ + 6 < p * q.
  Proof.
    intros (_ & (_ & _ & _ & E) & Hq & _). pose proof (off_bound _ (bitpos_range (p * q))). lia.
  Qed.

  Lemma cinv_step sieve pos w q mask f c nxt (Q : list Z -> Prop) : cinv sieve pos w q -> pos < end_ ->
    row_okb M size (mask, f, c) nxt w = true ->
    (forall sieve', cinv sieve' (pos + (p / 30 * f + c)) nxt (q + f) -> Q sieve') ->
    wp (clear sieve pos mask) Q.
  Proof.
    intros I Hpos R HQ. pose proof (cinv_pos _ _ _ _ I). destruct I as (I1 & I2 & I3 & I4 & I5).
    destruct (row_step M size L p pos w q mask f c nxt) as (R1 & R2 & R3 & R4 & R5); auto; try lia.
    destruct (at_mult_cop M size L p pos w q) as [C1 C2]; auto.
    eapply clear_rule with (low := L) (j := bitpos (p * q)); eauto; try lia; [apply bitpos_range|].
    intros sieve' Hlen Hh. apply HQ. split; [lia|]. split; [auto|]. split; [lia|].
    assert (E : p * q = L + 30 * pos + off (bitpos (p * q))) by apply I2. split.
    - intros t Ct Ht. destruct (Z.lt_trichotomy t q) as [T|[->|T]].
      + apply I4; auto; lia.
      + pose proof (off_bound _ (bitpos_range (p * q))). lia.
      + replace t with (q + (t - q)) in Ct by lia. rewrite R5 in Ct by lia. discriminate.
    - eapply holds_ext; [exact Hh|]. intros i j Hi Hj. cbv beta. rewrite hitq_step by (auto; lia). rewrite <- E. now rewrite negb_orb, andb_assoc.
  Qed.

End Cross.

(** *** The tables of EratSmall and EratMedium *)
Definition nxt8 (w : Z) : Z := if w mod 8 =? 7 then w - 7 else w + 1.
Definition rows_ok (rows : list (Z * Z * Z)) : Prop :=
  forall w, 0 <= w < 64 -> exists row, aget rows w = Ok row /\ row_okb 30 8 row (nxt8 w) w = true.
Definition rows_okb (rows : list (Z * Z * Z)) : bool :=
  forallb (fun w => match aget rows w with Ok row => row_okb 30 8 row (nxt8 w) w | _ => false end) (zrange 0 64).
Lemma rows_okb_ok rows : rows_okb rows = true -> rows_ok rows.
Proof.
  unfold rows_okb. rewrite forallb_forall. intros H w Hw. specialize (H w). rewrite in_zrange in H. specialize (H Hw).
  destruct (aget rows w) as [row|]; [eauto|discriminate].
Qed.
Lemma small_rows_ok : rows_ok small_rows.
Proof. apply rows_okb_ok. vm_compute. reflexivity. Qed.
Lemma medium_rows_ok : rows_ok medium_rows.
Proof. apply rows_okb_ok. vm_compute. reflexivity. Qed.
Lemma qs30_len : zlen (qs 30) = 8. Proof. reflexivity. Qed.
Lemma qs210_len : zlen (qs 210) = 48. Proof. vm_compute. reflexivity. Qed.

(** the entries of the unrolled loop of class k, from line w on *)
Fixpoint unr_okb (k inc w F C : Z) (es : list (Z * Z * Z)) : bool :=
  match es with
  | [] => (w =? 8 * k + 8) && (F =? 30) && (C =? inc)
  | (f, c, mask) :: es =>
      match aget small_rows w with
      | Ok (mask', f', c') => (8 * k <=? w) && (w <? 8 * k + 8) && (f =? F) && (c =? C) && (mask =? mask') && (f <=? 28) && (c <=? 27)
                               && unr_okb k inc (w + 1) (F + f') (C + c') es
      | _ => false
      end
  end.
Lemma unrolled_ok k : 0 <= k < 8 -> exists inc es, aget small_unrolled k = Ok (inc, es) /\ unr_okb k inc (8 * k) 0 0 es = true /\ es <> [].
Proof.
  assert (E : forallb (fun k => match aget small_unrolled k with Ok (inc, e :: es) => unr_okb k inc (8 * k) 0 0 (e :: es) | _ => false end) (zrange 0 8) = true)
    by (vm_compute; reflexivity).
  rewrite forallb_forall in E. intros H. specialize (E k). rewrite in_zrange in E. specialize (E H).
  destruct (aget small_unrolled k) as [[inc [|e es]]|]; try discriminate. exists inc, (e :: es). split; auto. split; auto. discriminate.
Qed.

Lemma w8 k w : 8 * k <= w < 8 * k + 8 -> nxt8 w = if w + 1 =? 8 * k + 8 then 8 * k else w + 1.
Proof.
  intros H. unfold nxt8. assert (w mod 8 = w - 8 * k) by (symmetry; apply Z.mod_unique with k; lia).
  destruct (Z.eqb_spec (w mod 8) 7), (Z.eqb_spec (w + 1) (8 * k + 8)); lia.
Qed.

Section Lines.
  Variables (L p q0 n end_ : Z) (B : Z -> bool).
  Hypotheses (HL : L mod 30 = 0) (Hp : 0 < p) (Hend : end_ <= n) (Hq0 : L + 6 < p * q0).
  Notation inv := (cinv 30 8 L p q0 n end_ B).

  Lemma H30 : 0 < 30. Proof. lia. Qed.
  Lemma D30 : (30 | 30). Proof. exists 1. reflexivity. Qed.

  (** one line *)
  Lemma line_rule rows sieve pos w q (Q : _ -> Prop) : rows_ok rows -> inv sieve pos w q ->
    (end_ <= pos -> Q (inr (sieve, (pos - end_, w)))) ->
    (forall sieve' pos' w' q', q < q' -> pos < end_ -> inv sieve' pos' w' q' -> Q (inl (sieve', pos', w'))) ->
    wp (line rows (p / 30) end_ sieve pos w) Q.
  Proof.
    intros HR I Hfin Hgo. unfold line. assert (Hw : 0 <= w < 64) by (destruct I as (_ & (? & _) & _); lia).
    destruct (HR w Hw) as ([[mask f] c] & -> & R). cbn [bind].
    destruct (Z.geb_spec pos end_) as [G|G]; [apply Hfin; lia|]. apply wp_bind.
    eapply (cinv_step 30 8 L p q0 n end_ B H30 D30 qs30_len HL Hp Hend Hq0); eauto.
    intros sieve' I'. cbn [wp]. fold (nxt8 w). apply (Hgo _ _ _ (q + f)); auto.
    destruct (row_step 30 8 L p pos w q mask f c (nxt8 w)) as (_ & ? & _); auto using H30, D30; try lia. apply I.
  Qed.

  (** the eight entries *)
  Lemma entries_rule k inc pos es (HK : 0 <= k < 8) : pos + (p / 30 * 28 + 27) < end_ ->
    forall F C w q sieve (Q : list Z -> Prop), unr_okb k inc w F C es = true ->
    inv sieve (pos + (p / 30 * F + C)) (if w =? 8 * k + 8 then 8 * k else w) q ->
    (forall sieve' q', q <= q' -> (es <> [] -> q < q') -> inv sieve' (pos + (p / 30 * 30 + inc)) (8 * k) q' -> Q sieve') ->
    wp (each (fun '(f, c, mask) sieve => clear sieve (pos + (p / 30 * f + c)) mask) es sieve) Q.
  Proof.
    intros Hpos. induction es as [|[[f c] mask] es IH]; intros F C w q sieve Q HU I HQ; cbn [each unr_okb] in *.
    - rewrite !andb_true_iff, !Z.eqb_eq in HU. destruct HU as [[-> ->] ->]. rewrite Z.eqb_refl in I. cbn [wp]. apply (HQ _ q); auto; [lia|congruence].
    - destruct (aget small_rows w) as [[[mask' f'] c']|] eqn:ER; [|discriminate].
      rewrite !andb_true_iff, !Z.eqb_eq, !Z.leb_le, Z.ltb_lt in HU.
      destruct HU as (((((((U1 & U2) & <-) & <-) & ->) & U3) & U4) & U5).
      destruct (Z.eqb_spec w (8 * k + 8)); [lia|].
      destruct (small_rows_ok w ltac:(lia)) as (row & ER' & R). rewrite ER in ER'. inversion ER'; subst row.
      apply wp_bind. assert (0 <= p / 30) by (apply Z.div_pos; lia).
      eapply (cinv_step 30 8 L p q0 n end_ B H30 D30 qs30_len HL Hp Hend Hq0); eauto.
      { assert (p / 30 * f <= p / 30 * 28) by nia. lia. }
      intros sieve' I'.
      destruct (row_step 30 8 L p (pos + (p / 30 * f + c)) w q mask' f' c' (nxt8 w)) as (_ & Hf & _); auto using H30, D30; try lia; [apply I|].
      apply (IH (f + f') (c + c') (w + 1) (q + f')); auto.
      + rewrite (w8 k) in I' by lia. replace (pos + (p / 30 * (f + f') + (c + c'))) with (pos + (p / 30 * f + c) + (p / 30 * f' + c')) by ring. exact I'.
      + intros s2 q2 Hq2 _ I2. apply (HQ _ q2); auto; [lia|]. intros _. lia.
  Qed.

  (** the loop over eight multiples at a time *)
  Lemma unrolled_rule k base sieve pos q (Q : _ -> Prop) : 0 <= k < 8 -> base <= pos -> end_ < 2 ^ 64 -> -2 ^ 64 < L < 2 ^ 64 ->
    inv sieve pos (8 * k) q ->
    (forall sieve' pos' q', q <= q' -> base <= pos' -> inv sieve' pos' (8 * k) q' -> Q (sieve', pos')) ->
    wp (unrolled k (p / 30) (Z.max end_ (base + (p / 30 * 28 + 27)) - (p / 30 * 28 + 27)) sieve pos) Q.
  Proof.
    intros Hk Hb He HLr I HQ. unfold unrolled. destruct (unrolled_ok k Hk) as (inc & es & -> & HU & NE). cbn [bind].
    assert (SP : 0 <= p / 30) by (apply Z.div_pos; lia).
    set (lend := Z.max end_ (base + (p / 30 * 28 + 27)) - (p / 30 * 28 + 27)).
    apply (loop_ghost _ (fun m '(sieve, pos) => exists q', q <= q' /\ base <= pos /\ inv sieve pos (8 * k) q' /\ m = Z.max 0 (L + 30 * end_ + 40 - p * q')) Q)
      with (n := Z.max 0 (L + 30 * end_ + 40 - p * q)).
    - intros m [sv ps] (q' & Hq & Hb' & I' & ->). destruct (Z.ltb_spec ps lend) as [LT|GE].
      + apply wp_bind. assert (HPS : ps + (p / 30 * 28 + 27) < end_) by lia.
        eapply (entries_rule k inc ps es Hk HPS 0 0 (8 * k) q'); eauto.
        { destruct (Z.eqb_spec (8 * k) (8 * k + 8)); [lia|]. replace (ps + (p / 30 * 0 + 0)) with ps by ring. exact I'. }
        intros sv2 q2 _ Hq2 I2. specialize (Hq2 NE). cbn [wp]. exists (Z.max 0 (L + 30 * end_ + 40 - p * q2)).
        assert (p * q' < p * q2) by nia.
        assert (P' : p * q' <= L + 30 * end_ + 6).
        { destruct I' as (_ & (_ & _ & _ & E) & _). pose proof (off_bound _ (bitpos_range (p * q'))). lia. }
        split; [lia|]. exists q2. split; [lia|]. split; [|split; auto].
        assert (HC : 0 <= inc). { clear - HU NE. destruct es as [|[[f c] mask] es]; [congruence|].
          clear NE. revert HU. generalize ((f, c, mask) :: es) as l. intros l.
          assert (G : forall l w F C, unr_okb k inc w F C l = true -> 0 <= C -> 0 <= inc).
          { clear. induction l as [|[[f c] m] l IH]; cbn [unr_okb]; intros w F C H HC.
            - rewrite !andb_true_iff, !Z.eqb_eq in H. lia.
            - destruct (aget small_rows w) as [[[m' f'] c']|] eqn:E; [|discriminate]. rewrite !andb_true_iff in H. destruct H as [_ H].
              apply IH in H; auto. pose proof (aget_range _ _ _ E) as R. change (zlen small_rows) with 64 in R.
              destruct (small_rows_ok w R) as (row & E' & RR). rewrite E in E'. inversion E'; subst row. unfold row_okb in RR.
              rewrite !andb_true_iff, !Z.leb_le in RR. lia. }
          intros HU. apply (G l _ _ _ HU). lia. }
        lia.
      + cbn [wp]. apply (HQ _ _ q'); auto.
    - exists q. split; [lia|]. auto.
    - destruct I as (_ & _ & Hq & _). assert (p * q0 <= p * q) by nia. lia.
  Qed.
End Lines.
