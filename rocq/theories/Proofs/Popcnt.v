(** The portable population count is correct for every 64-bit word. *)
From Coq Require Import ZArith Bool Lia List.
From Verif.Base Require Import Word Zl.
From Verif.Spec Require Import BitSpec.
From Verif.Model Require Import Popcnt.
Import ListNotations.
Open Scope Z_scope.

Local Ltac Zify.zify_post_hook ::= Z.div_mod_to_equations.

(** number of ones among the low n bits *)
Definition ones (n x : Z) : Z := sumr 0 n (fun k => Z.b2z (Z.testbit x k)).

Lemma testbit_split b y k : 0 <= b < 256 -> 0 <= y -> 0 <= k ->
  Z.testbit (b + 256 * y) k = if k <? 8 then Z.testbit b k else Z.testbit y (k - 8).
Proof.
  intros Hb Hy Hk. replace (b + 256 * y) with (b + y * 2 ^ 8) by (change (2 ^ 8) with 256; ring).
  destruct (Z.ltb_spec k 8).
  - rewrite <- (Z.mod_pow2_bits_low (b + y * 2 ^ 8) 8 k) by lia.
    rewrite Z_mod_plus_full. rewrite Z.mod_small by (change (2 ^ 8) with 256; lia). reflexivity.
  - replace k with ((k - 8) + 8) at 1 by ring. rewrite <- Z.div_pow2_bits by lia.
    rewrite Z.div_add by (change (2 ^ 8) with 256; lia).
    rewrite Z.div_small by (change (2 ^ 8) with 256; lia). reflexivity.
Qed.

Lemma byte_bits b k : 0 <= b < 256 -> 8 <= k -> Z.testbit b k = false.
Proof.
  intros Hb Hk. destruct (Z.eq_dec b 0) as [->|N]; [apply Z.bits_0|].
  apply Z.bits_above_log2; [lia|]. assert (Z.log2 b < 8); [|lia].
  apply Z.log2_lt_pow2; [lia|]. change (2 ^ 8) with 256. lia.
Qed.

(** a byte and the rest, masked after a shift by s *)
Lemma land_shiftr_split b y s mb mm : 0 <= b < 256 -> 0 <= y -> 0 <= s < 8 ->
  0 <= mb < 2 ^ (8 - s) -> 0 <= mm ->
  Z.land (Z.shiftr (b + 256 * y) s) (mb + 256 * mm) =
  Z.land (Z.shiftr b s) mb + 256 * Z.land (Z.shiftr y s) mm.
Proof.
  intros Hb Hy Hs Hmb Hmm.
  assert (Pw : 2 ^ (8 - s) <= 256) by (change 256 with (2 ^ 8); apply Z.pow_le_mono_r; lia).
  assert (L : 0 <= Z.land (Z.shiftr b s) mb < 256).
  { split; [apply Z.land_nonneg; right; lia|]. destruct (Z.eq_dec (Z.land (Z.shiftr b s) mb) 0) as [->|N]; [lia|].
    assert (0 <= Z.land (Z.shiftr b s) mb) by (apply Z.land_nonneg; right; lia).
    change 256 with (2 ^ 8). apply Z.log2_lt_pow2; [lia|].
    eapply Z.le_lt_trans; [apply Z.log2_land; [apply Z.shiftr_nonneg|]; lia|].
    assert (Z.log2 mb < 8); [|lia]. destruct (Z.eq_dec mb 0) as [->|]; [reflexivity|]. apply Z.log2_lt_pow2; change (2 ^ 8) with 256; lia. }
  assert (M : 0 <= Z.land (Z.shiftr y s) mm) by (apply Z.land_nonneg; right; lia).
  apply Z.bits_inj'. intros k Hk. rewrite Z.land_spec, Z.shiftr_spec by lia.
  rewrite !testbit_split by lia. destruct (Z.ltb_spec k 8).
  - rewrite Z.land_spec, Z.shiftr_spec by lia. destruct (Z.ltb_spec (k + s) 8); auto.
    replace (Z.testbit mb k) with false; [now rewrite !andb_false_r|]. symmetry.
    destruct (Z.eq_dec mb 0) as [->|]; [apply Z.bits_0|]. apply Z.bits_above_log2; [lia|].
    assert (Z.log2 mb < 8 - s); [|lia]. apply Z.log2_lt_pow2; lia.
  - rewrite Z.land_spec, Z.shiftr_spec by lia. destruct (Z.ltb_spec (k + s) 8); [lia|].
    do 2 f_equal. lia.
Qed.
Lemma land_split b y mb mm : 0 <= b < 256 -> 0 <= y -> 0 <= mb < 256 -> 0 <= mm ->
  Z.land (b + 256 * y) (mb + 256 * mm) = Z.land b mb + 256 * Z.land y mm.
Proof.
  intros. pose proof (land_shiftr_split b y 0 mb mm). rewrite !Z.shiftr_0_r in H3. apply H3; auto; try lia.
Qed.

(** repetition of a byte value *)
Fixpoint rept (n : nat) (v : Z) : Z := match n with O => 0 | S n => v + 256 * rept n v end.
Lemma rept_nonneg n v : 0 <= v -> 0 <= rept n v.
Proof. intros. induction n; cbn [rept]; lia. Qed.
(** bytes of a word *)
Fixpoint ofbytes (l : list Z) : Z := match l with [] => 0 | b :: l => b + 256 * ofbytes l end.
Definition bytes (l : list Z) : Prop := Forall (fun b => 0 <= b < 256) l.
Lemma ofbytes_nonneg l : bytes l -> 0 <= ofbytes l.
Proof. induction 1; cbn [ofbytes]; lia. Qed.
Lemma ofbytes_bound l : bytes l -> ofbytes l < 256 ^ Z.of_nat (length l).
Proof.
  induction 1; [reflexivity|]. cbn [ofbytes length]. rewrite Nat2Z.inj_succ, Z.pow_succ_r by lia. lia.
Qed.

Lemma masked s v l : bytes l -> 0 <= s < 8 -> 0 <= v < 2 ^ (8 - s) ->
  Z.land (Z.shiftr (ofbytes l) s) (rept (length l) v) = ofbytes (map (fun b => Z.land (Z.shiftr b s) v) l).
Proof.
  intros Hl Hs Hv. induction Hl as [|b l Hb Hl IH].
  - apply Z.land_0_r.
  - cbn [ofbytes length rept map]. rewrite land_shiftr_split; [now rewrite IH|auto|now apply ofbytes_nonneg|auto|auto|apply rept_nonneg; lia].
Qed.
Lemma masked0 v l : bytes l -> 0 <= v < 256 ->
  Z.land (ofbytes l) (rept (length l) v) = ofbytes (map (fun b => Z.land b v) l).
Proof.
  intros Hl Hv. pose proof (masked 0 v l Hl) as M. rewrite Z.shiftr_0_r in M. rewrite M by (change (2 ^ (8 - 0)) with 256; lia).
  reflexivity.
Qed.
Lemma ofbytes_map2 (f g h : Z -> Z) l : (forall b, In b l -> h b = f b + g b) ->
  ofbytes (map h l) = ofbytes (map f l) + ofbytes (map g l).
Proof. induction l; intros H; cbn [map ofbytes]; [lia|]. rewrite IHl by (intros; apply H; now right). rewrite (H a) by now left. lia. Qed.
Lemma ofbytes_map_sub (f h : Z -> Z) l : (forall b, In b l -> h b = b - f b) ->
  ofbytes (map h l) = ofbytes l - ofbytes (map f l).
Proof. induction l; intros H; cbn [map ofbytes]; [lia|]. rewrite IHl by (intros; apply H; now right). rewrite (H a) by now left. lia. Qed.

(** the three steps on one byte *)
Definition q1 (b : Z) : Z := b - Z.land (Z.shiftr b 1) 0x55.
Definition q2 (b : Z) : Z := Z.land b 0x33 + Z.land (Z.shiftr b 2) 0x33.
Definition q3 (b : Z) : Z := Z.land (b + Z.shiftr b 4) 0x0F.
Definition byte_ok (b : Z) : bool :=
  let a := q1 b in let c := q2 a in
  (0 <=? a) && (a <? 256) && (0 <=? c) && (c mod 16 <=? 4) && (c <? 80) && (q3 c =? ones 8 b).
Lemma all_bytes b : 0 <= b < 256 -> byte_ok b = true.
Proof.
  intros H. assert (A : forallb byte_ok (zrange 0 256) = true) by (vm_compute; reflexivity).
  rewrite forallb_forall in A. apply A. apply in_zrange. lia.
Qed.

Lemma step3 l : Forall (fun c => 0 <= c < 80 /\ c mod 16 <= 4) l ->
  Z.land (ofbytes l + Z.shiftr (ofbytes l) 4) (rept (length l) 0x0F) = ofbytes (map q3 l) /\
  (ofbytes l) mod 16 <= 4.
Proof.
  induction 1 as [|c l [Hc Hm] Hl [IH IH2]]; [split; [reflexivity|vm_compute; discriminate]|].
  assert (Bl : bytes l). { eapply Forall_impl; [|exact Hl]. cbn beta. intros; lia. }
  pose proof (ofbytes_nonneg l Bl) as Pl.
  cbn [ofbytes length rept map]. rewrite <- IH. split; [|lia].
  rewrite !Z.shiftr_div_pow2 in * by lia. change (2 ^ 4) with 16 in *.
  set (y := ofbytes l) in *.
  assert (E : (c + 256 * y) / 16 = c / 16 + 16 * (y mod 16) + 256 * (y / 16)) by lia.
  rewrite E. replace (c + 256 * y + (c / 16 + 16 * (y mod 16) + 256 * (y / 16)))
     with ((c + c / 16 + 16 * (y mod 16)) + 256 * (y + y / 16)) by ring.
  assert (0 <= rept (length l) 15) by (apply rept_nonneg; lia).
  rewrite land_split by lia. f_equal. unfold q3. rewrite Z.shiftr_div_pow2 by lia. change (2 ^ 4) with 16.
  change 15 with (Z.ones 4). rewrite !Z.land_ones by lia. change (2 ^ 4) with 16. lia.
Qed.

Lemma popcnt_bytes l : bytes l -> length l = 8%nat ->
  popcnt64 (ofbytes l) = lsum (ones 8) l.
Proof.
  intros Hl L. unfold popcnt64.
  assert (All : forall b, In b l -> byte_ok b = true).
  { intros b Hb. apply all_bytes. unfold bytes in Hl. rewrite Forall_forall in Hl. auto. }
  assert (W : forall l', bytes l' -> length l' = 8%nat -> uwrap 64 (ofbytes l') = ofbytes l').
  { intros l' B L'. unfold uwrap. apply Z.mod_small. pose proof (ofbytes_nonneg l' B). pose proof (ofbytes_bound l' B) as U.
    rewrite L' in U. change (256 ^ Z.of_nat 8) with (2 ^ 64) in U. lia. }
  assert (Ok : forall b, In b l -> 0 <= q1 b < 256 /\ 0 <= q2 (q1 b) < 80 /\ q2 (q1 b) mod 16 <= 4 /\ q3 (q2 (q1 b)) = ones 8 b).
  { intros b Hb. specialize (All b Hb). unfold byte_ok in All. cbn zeta in All.
    rewrite !andb_true_iff, !Z.leb_le, !Z.ltb_lt, Z.eqb_eq in All. lia. }
  (* step 1 *)
  replace 0x5555555555555555 with (rept (length l) 0x55) by (rewrite L; reflexivity).
  rewrite (masked 1 0x55 l Hl) by (try lia; change (2 ^ (8 - 1)) with 128; lia).
  rewrite <- (ofbytes_map_sub (fun b => Z.land (Z.shiftr b 1) 0x55) q1 l) by (intros; reflexivity).
  assert (B1 : bytes (map q1 l)).
  { apply Forall_forall. intros a Ha. apply in_map_iff in Ha. destruct Ha as (b & <- & Hb). apply Ok. auto. }
  rewrite (W (map q1 l)) by (auto; now rewrite map_length).
  (* step 2 *)
  replace 0x3333333333333333 with (rept (length (map q1 l)) 0x33) by (rewrite map_length, L; reflexivity).
  rewrite (masked 2 0x33 _ B1) by (try lia; change (2 ^ (8 - 2)) with 64; lia).
  rewrite (masked0 0x33 _ B1) by lia.
  rewrite <- (ofbytes_map2 _ _ q2 (map q1 l)) by (intros; reflexivity).
  assert (B2 : Forall (fun c => 0 <= c < 80 /\ c mod 16 <= 4) (map q2 (map q1 l))).
  { apply Forall_forall. intros a Ha. rewrite map_map in Ha. apply in_map_iff in Ha. destruct Ha as (b & <- & Hb).
    destruct (Ok b Hb) as (_ & H1 & H2 & _). auto. }
  assert (B2' : bytes (map q2 (map q1 l))). { eapply Forall_impl; [|exact B2]. cbn beta. intros; lia. }
  assert (L2 : length (map q2 (map q1 l)) = 8%nat) by now rewrite !map_length.
  rewrite (W _ B2' L2).
  (* step 3 *)
  destruct (step3 _ B2) as [S3 M3].
  assert (W3 : uwrap 64 (ofbytes (map q2 (map q1 l)) + Z.shiftr (ofbytes (map q2 (map q1 l))) 4) =
               ofbytes (map q2 (map q1 l)) + Z.shiftr (ofbytes (map q2 (map q1 l))) 4).
  { unfold uwrap. apply Z.mod_small. rewrite Z.shiftr_div_pow2 by lia.
    pose proof (ofbytes_nonneg _ B2').
    assert (U : ofbytes (map q2 (map q1 l)) <= 80 * rept 8 1).
    { rewrite <- L2. clear - B2. induction B2 as [|c l' [Hc _] _ IH]; [reflexivity|]. cbn [ofbytes length rept]. lia. }
    change (rept 8 1) with 72340172838076673 in U. change (2 ^ 64) with 18446744073709551616. change (2 ^ 4) with 16. lia. }
  rewrite W3. replace 0x0F0F0F0F0F0F0F0F with (rept (length (map q2 (map q1 l))) 0x0F) by (rewrite L2; reflexivity).
  rewrite S3, !map_map.
  (* final multiplication *)
  rewrite (map_ext_in (fun x => q3 (q2 (q1 x))) (ones 8)) by (intros b Hb; now apply Ok).
  assert (R : forall b, In b l -> 0 <= ones 8 b <= 8).
  { intros b _. unfold ones. split.
    - apply sumr_nonneg. intros. destruct (Z.testbit b i); simpl; lia.
    - replace 8 with (sumr 0 8 (fun _ => 1)) at 2 by reflexivity. apply sumr_le. intros. destruct (Z.testbit b i); simpl; lia. }
  clear - L R. do 9 (destruct l as [|? l]; try discriminate L).
  pose proof (R z (or_introl eq_refl)). pose proof (R z0 ltac:(simpl; tauto)). pose proof (R z1 ltac:(simpl; tauto)).
  pose proof (R z2 ltac:(simpl; tauto)). pose proof (R z3 ltac:(simpl; tauto)). pose proof (R z4 ltac:(simpl; tauto)).
  pose proof (R z5 ltac:(simpl; tauto)). pose proof (R z6 ltac:(simpl; tauto)). clear R L.
  unfold lsum. cbn [map ofbytes fold_right]. set (a0 := ones 8 z) in *. set (a1 := ones 8 z0) in *. set (a2 := ones 8 z1) in *. set (a3 := ones 8 z2) in *.
  set (a4 := ones 8 z3) in *. set (a5 := ones 8 z4) in *. set (a6 := ones 8 z5) in *. set (a7 := ones 8 z6) in *.
  clearbody a0 a1 a2 a3 a4 a5 a6 a7. unfold uwrap. rewrite Z.shiftr_div_pow2 by lia.
  match goal with |- ?A mod 2 ^ 64 / 2 ^ 56 = ?B =>
    replace A with ((a0 + 256 * ((a0 + a1) + 256 * ((a0 + a1 + a2) + 256 * ((a0 + a1 + a2 + a3) + 256 * ((a0 + a1 + a2 + a3 + a4) + 256 *
      ((a0 + a1 + a2 + a3 + a4 + a5) + 256 * (a0 + a1 + a2 + a3 + a4 + a5 + a6)))))) + 2 ^ 56 * (a0 + a1 + a2 + a3 + a4 + a5 + a6 + a7)) +
      ((a1 + a2 + a3 + a4 + a5 + a6 + a7) + 256 * ((a2 + a3 + a4 + a5 + a6 + a7) + 256 * ((a3 + a4 + a5 + a6 + a7) + 256 * ((a4 + a5 + a6 + a7) + 256 * ((a5 + a6 + a7) + 256 * ((a6 + a7) + 256 * a7)))))) * 2 ^ 64) by (change (2 ^ 64) with 18446744073709551616; change (2 ^ 56) with 72057594037927936; ring) end.
  rewrite Z_mod_plus_full. change (2 ^ 56) with 72057594037927936. change (2 ^ 64) with 18446744073709551616.
  rewrite Z.mod_small by lia. symmetry. eapply (Z.div_unique _ _ _ (a0 + 256 * ((a0 + a1) + 256 * ((a0 + a1 + a2) + 256 * ((a0 + a1 + a2 + a3) + 256 * ((a0 + a1 + a2 + a3 + a4) + 256 *
      ((a0 + a1 + a2 + a3 + a4 + a5) + 256 * (a0 + a1 + a2 + a3 + a4 + a5 + a6)))))))); [left; lia|ring].
Qed.

Lemma ones_split n b y : 0 <= b < 256 -> 0 <= y -> 8 <= n -> ones n (b + 256 * y) = ones 8 b + ones (n - 8) y.
Proof.
  intros Hb Hy Hn. unfold ones. rewrite (sumr_split 0 8 n) by lia. f_equal.
  - apply sumr_ext. intros k Hk. rewrite testbit_split by lia. destruct (Z.ltb_spec k 8); [auto|lia].
  - replace (sumr 8 n) with (sumr (0 + 8) (n - 8 + 8)) by (f_equal; lia). rewrite sumr_shift.
    apply sumr_ext. intros k Hk. rewrite testbit_split by lia. destruct (Z.ltb_spec (k + 8) 8); [lia|].
    do 2 f_equal. lia.
Qed.
Fixpoint tobytes (n : nat) (x : Z) : list Z := match n with O => [] | S n => x mod 256 :: tobytes n (x / 256) end.
Lemma tobytes_bytes n : forall x, bytes (tobytes n x) /\ length (tobytes n x) = n.
Proof.
  induction n; intros x; simpl; [split; auto; constructor|]. destruct (IHn (x / 256)) as [H1 H2]. split; [|auto].
  constructor; auto. apply Z.mod_pos_bound. lia.
Qed.
Lemma tobytes_of n : forall x, 0 <= x < 256 ^ Z.of_nat n -> ofbytes (tobytes n x) = x.
Proof.
  induction n; intros x H. { simpl in *. lia. }
  rewrite Nat2Z.inj_succ, Z.pow_succ_r in H by lia. cbn [tobytes ofbytes]. rewrite IHn; [lia|].
  split; [apply Z.div_pos; lia|]. apply Z.div_lt_upper_bound; lia.
Qed.
Lemma ones_bytes l : bytes l -> ones (8 * Z.of_nat (length l)) (ofbytes l) = lsum (ones 8) l.
Proof.
  induction 1 as [|b l Hb Hl IH]; [reflexivity|]. cbn [ofbytes length]. change (lsum (ones 8) (b :: l)) with (ones 8 b + lsum (ones 8) l). rewrite ones_split; auto.
  - rewrite <- IH. f_equal. f_equal. lia.
  - now apply ofbytes_nonneg.
  - lia.
Qed.

Lemma popcnt64_ok x : 0 <= x < 2 ^ 64 -> popcnt64 x = popcount x.
Proof.
  intros H. destruct (tobytes_bytes 8 x) as [B L].
  rewrite <- (tobytes_of 8 x) by exact H. rewrite popcnt_bytes by auto.
  rewrite <- ones_bytes by auto. rewrite L. reflexivity.
Qed.
