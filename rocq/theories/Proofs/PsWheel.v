(** The wheel tables of lib/primesieve, and single steps of crossing off. *)
From Coq Require Import ZArith List Lia Bool Znumtheory.
From Verif.Base Require Import Res Word Zl Each.
From Verif.Model Require Import PsTables PsMath PsErat.
From Verif.Spec Require Import PsSpec.
Import ListNotations.
Open Scope Z_scope.
Local Ltac Zify.zify_post_hook ::= idtac.

Lemma cop_mod M q : 0 < M -> cop M (q mod M) = cop M q.
Proof. intros H. unfold cop. rewrite Z.gcd_mod by lia. now rewrite Z.gcd_comm. Qed.
Lemma cop_sub M N q : (N | M) -> cop M q = true -> cop N q = true.
Proof.
  unfold cop. rewrite !Z.eqb_eq. intros [a Ha] H.
  apply Zgcd_1_rel_prime. apply Zgcd_1_rel_prime in H. subst M.
  apply rel_prime_sym. apply rel_prime_div with (a * N); [now apply rel_prime_sym|]. exists a. lia.
Qed.
Lemma cop_mul M a b : cop M a = true -> cop M b = true -> cop M (a * b) = true.
Proof.
  unfold cop. rewrite !Z.eqb_eq. intros H1 H2. apply Zgcd_1_rel_prime. apply Zgcd_1_rel_prime in H1, H2.
  apply rel_prime_sym. apply rel_prime_mult; now apply rel_prime_sym.
Qed.

(** The residues: of the sieving primes by class, of the quotients by wheel index. *)
Definition res30 : list Z := [7; 11; 13; 17; 19; 23; 29; 1].
Definition qs (M : Z) : list Z := filter (cop M) (zrange 0 M).
Definition pos30 : list Z := [0; 7; 0; 0; 0; 0; 0; 0; 0; 0; 0; 1; 0; 2; 0; 0; 0; 3; 0; 4; 0; 0; 0; 5; 0; 0; 0; 0; 0; 6].
(** the bit of a number *)
Definition bitpos (m : Z) : Z := nth (Z.to_nat (m mod 30)) pos30 0.

Lemma bitpos_range m : 0 <= bitpos m < 8.
Proof.
  unfold bitpos. pose proof (Z.mod_pos_bound m 30 ltac:(lia)).
  assert (E : forallb (fun x => (0 <=? nth (Z.to_nat x) pos30 0) && (nth (Z.to_nat x) pos30 0 <? 8)) (zrange 0 30) = true) by reflexivity.
  rewrite forallb_forall in E. specialize (E (m mod 30)). rewrite in_zrange in E. specialize (E ltac:(lia)).
  rewrite andb_true_iff, Z.leb_le, Z.ltb_lt in E. lia.
Qed.
Lemma off_bitpos m : cop 30 m = true -> (off (bitpos m) - m) mod 30 = 0.
Proof.
  intros H. rewrite <- cop_mod in H by lia. pose proof (Z.mod_pos_bound m 30 ltac:(lia)).
  assert (E : forallb (fun x => implb (cop 30 x) ((off (nth (Z.to_nat x) pos30 0) - x) mod 30 =? 0)) (zrange 0 30) = true) by reflexivity.
  rewrite forallb_forall in E. specialize (E (m mod 30)). rewrite in_zrange in E. specialize (E ltac:(lia)).
  rewrite H in E. cbn [implb] in E. apply Z.eqb_eq in E. unfold bitpos.
  rewrite Zminus_mod, Z.mod_mod in E by lia. now rewrite Zminus_mod.
Qed.
Lemma off_bound j : 0 <= j < 8 -> 7 <= off j <= 31.
Proof.
  intros H. assert (E : forallb (fun j => (7 <=? off j) && (off j <=? 31)) (zrange 0 8) = true) by reflexivity.
  rewrite forallb_forall in E. specialize (E j). rewrite in_zrange in E. specialize (E H).
  rewrite andb_true_iff, !Z.leb_le in E. lia.
Qed.
Lemma off_cop j : 0 <= j < 8 -> cop 30 (off j) = true.
Proof.
  intros H. assert (E : forallb (fun j => cop 30 (off j)) (zrange 0 8) = true) by reflexivity.
  rewrite forallb_forall in E. apply E. now apply in_zrange.
Qed.
Lemma bitpos_off j : 0 <= j < 8 -> bitpos (off j) = j.
Proof.
  intros H. assert (E : forallb (fun j => bitpos (off j) =? j) (zrange 0 8) = true) by reflexivity.
  rewrite forallb_forall in E. apply Z.eqb_eq, E. now apply in_zrange.
Qed.
Lemma bitpos_mod a b : a mod 30 = b mod 30 -> bitpos a = bitpos b.
Proof. unfold bitpos. now intros ->. Qed.

(** Every number coprime to 30 has one place in the array. *)
Lemma place_cop low i j : low mod 30 = 0 -> 0 <= j < 8 -> cop 30 (low + 30 * i + off j) = true.
Proof.
  intros Hl Hj. rewrite <- cop_mod by lia. rewrite <- (off_cop j Hj), <- (cop_mod 30 (off j)) by lia. f_equal.
  rewrite (Z.div_mod low 30), Hl by lia. replace (30 * (low / 30) + 0 + 30 * i + off j) with (off j + (low / 30 + i) * 30) by ring. apply Z.mod_add. lia.
Qed.
Lemma place_bit low i j : low mod 30 = 0 -> 0 <= j < 8 -> bitpos (low + 30 * i + off j) = j.
Proof.
  intros Hl Hj. rewrite <- (bitpos_off j Hj) at 2. apply bitpos_mod.
  rewrite (Z.div_mod low 30), Hl by lia. replace (30 * (low / 30) + 0 + 30 * i + off j) with (off j + (low / 30 + i) * 30) by ring. apply Z.mod_add. lia.
Qed.
Lemma place_byte low i j : 0 <= j < 8 -> (low + 30 * i + off j - low - 7) / 30 = i.
Proof. intros Hj. pose proof (off_bound j Hj). symmetry. apply Z.div_unique with (off j - 7); lia. Qed.
Lemma place_ex low m : low mod 30 = 0 -> cop 30 m = true -> m = low + 30 * ((m - low - 7) / 30) + off (bitpos m).
Proof.
  intros Hl Hm. pose proof (off_bitpos m Hm) as E. pose proof (off_bound _ (bitpos_range m)).
  apply Z.mod_divide in E; [|lia]. destruct E as [e He]. apply Z.mod_divide in Hl; [|lia]. destruct Hl as [l Hl].
  assert ((m - low - 7) / 30 = - e - l).
  { symmetry. apply Z.div_unique with (off (bitpos m) - 7); lia. }
  lia.
Qed.
Lemma place_inj low i j i' j' : low mod 30 = 0 -> 0 <= j < 8 -> 0 <= j' < 8 ->
  low + 30 * i + off j = low + 30 * i' + off j' -> i = i' /\ j = j'.
Proof.
  intros Hl Hj Hj' E. split.
  - rewrite <- (place_byte low i j Hj), <- (place_byte low i' j' Hj'). now rewrite E.
  - rewrite <- (place_bit low i j Hl Hj), <- (place_bit low i' j' Hl Hj'). now rewrite E.
Qed.

(** Clearing one bit. *)
Lemma land_mask b j k : 0 <= b < 256 -> 0 <= j < 8 -> 0 <= k < 8 ->
  0 <= Z.land b (255 - 2 ^ j) < 256 /\ Z.testbit (Z.land b (255 - 2 ^ j)) k = Z.testbit b k && negb (k =? j).
Proof.
  intros Hb Hj Hk. split.
  - assert (0 <= 255 - 2 ^ j < 256).
    { assert (E : forallb (fun j => (0 <=? 255 - 2 ^ j) && (255 - 2 ^ j <? 256)) (zrange 0 8) = true) by reflexivity.
      rewrite forallb_forall in E. specialize (E j). rewrite in_zrange in E. specialize (E Hj). rewrite andb_true_iff, Z.leb_le, Z.ltb_lt in E. lia. }
    split; [apply Z.land_nonneg; lia|].
    destruct (Z.eq_dec (Z.land b (255 - 2 ^ j)) 0) as [->|N]; [lia|].
    assert (0 <= Z.land b (255 - 2 ^ j)) by (apply Z.land_nonneg; lia).
    change 256 with (2 ^ 8). apply Z.log2_lt_pow2; [lia|].
    eapply Z.le_lt_trans; [apply Z.log2_land; lia|]. apply Z.min_lt_iff. left.
    destruct (Z.eq_dec b 0) as [->|]; [reflexivity|]. apply Z.log2_lt_pow2; lia.
  - rewrite Z.land_spec. f_equal.
    assert (E : forallb (fun j => forallb (fun k => Bool.eqb (Z.testbit (255 - 2 ^ j) k) (negb (k =? j))) (zrange 0 8)) (zrange 0 8) = true) by reflexivity.
    rewrite forallb_forall in E. specialize (E j). rewrite in_zrange in E. specialize (E Hj).
    rewrite forallb_forall in E. specialize (E k). rewrite in_zrange in E. specialize (E Hk). now apply eqb_prop.
Qed.

Lemma clear_rule sieve low B i j mask (Q : list Z -> Prop) :
  low mod 30 = 0 -> holds sieve low B -> 0 <= i < zlen sieve -> 0 <= j < 8 -> mask = 255 - 2 ^ j ->
  (forall sieve', zlen sieve' = zlen sieve -> holds sieve' low (fun m => B m && negb (m =? low + 30 * i + off j)) -> Q sieve') ->
  wp (clear sieve i mask) Q.
Proof.
  intros Hl HB Hi Hj -> HQ. unfold clear. apply wp_bind. destruct (HB i Hi) as (b & Eb & Rb & Tb).
  apply (wp_of_eq _ b); auto. apply wp_aset; auto. intros l Hlen Hg. apply HQ; auto.
  intros k Hk. rewrite Hg. destruct (Z.eqb_spec k i) as [->|N].
  - exists (Z.land b (255 - 2 ^ j)). split; [reflexivity|].
    split. { now destruct (land_mask b j 0 Rb Hj ltac:(lia)). }
    intros j' Hj'. destruct (land_mask b j j' Rb Hj Hj') as [_ ->]. rewrite Tb by auto. f_equal. f_equal.
    destruct (Z.eqb_spec j' j) as [->|N]; [now rewrite Z.eqb_refl|].
    symmetry. apply Z.eqb_neq. intros E. apply place_inj in E; auto. lia.
  - destruct (HB k ltac:(lia)) as (b' & Eb' & Rb' & Tb'). exists b'. split; [auto|]. split; [auto|].
    intros j' Hj'. rewrite Tb' by auto. replace (low + 30 * k + off j' =? low + 30 * i + off j) with false; [now rewrite andb_true_r|].
    symmetry. apply Z.eqb_neq. intros E. apply place_inj in E; auto. lia.
Qed.
Lemma holds_ext sieve low B B' : holds sieve low B ->
  (forall i j, 0 <= i < zlen sieve -> 0 <= j < 8 -> B (low + 30 * i + off j) = B' (low + 30 * i + off j)) -> holds sieve low B'.
Proof.
  intros H E i Hi. destruct (H i Hi) as (b & H1 & H2 & H3). exists b. split; [auto|]. split; [auto|]. intros j Hj. rewrite H3; auto.
Qed.

(** *** Tables of a wheel *)
(** The line w of the table: its mask clears the bit of the multiple, f is the distance to
    the next quotient, c corrects the byte, and nxt w is the line of the next multiple. *)
Definition row_okb (M size : Z) (row : Z * Z * Z) (nxt : Z) (w : Z) : bool :=
  let '(mask, f, c) := row in
  let q := nth (Z.to_nat (w mod size)) (qs M) 0 in
  let r := nth (Z.to_nat (w / size)) res30 0 in
  let q' := nth (Z.to_nat (nxt mod size)) (qs M) 0 in
  (0 <=? nxt) && (nxt <? 8 * size) && (nxt / size =? w / size)
  && (mask =? 255 - 2 ^ bitpos (r * q)) && (0 <? f) && (f <=? 10) && (0 <=? c) && (c <=? f)
  && ((q + f) mod M =? q') && forallb (fun d => negb (cop M (q + d))) (zrange 1 f)
  && (r * f + off (bitpos (r * q)) =? 30 * c + off (bitpos (r * q'))).

Definition at_mult (M size L p mi w q : Z) : Prop :=
  0 <= w < 8 * size /\ p mod 30 = nth (Z.to_nat (w / size)) res30 0 /\
  q mod M = nth (Z.to_nat (w mod size)) (qs M) 0 /\ p * q = L + 30 * mi + off (bitpos (p * q)).

Lemma row_step M size L p mi w q mask f c nxt : 0 < M -> (30 | M) -> 0 <= p ->
  at_mult M size L p mi w q -> row_okb M size (mask, f, c) nxt w = true ->
  mask = 255 - 2 ^ bitpos (p * q) /\ 0 < f <= 10 /\ 0 <= c <= f /\
  at_mult M size L p (mi + (p / 30 * f + c)) nxt (q + f) /\
  (forall d, 0 < d < f -> cop M (q + d) = false).
Proof.
  intros HM HD Hp (Hw & Hr & Hq & E) H. unfold row_okb in H. rewrite <- Hr, <- Hq in H.
  rewrite !andb_true_iff, !Z.eqb_eq, !Z.leb_le, !Z.ltb_lt, forallb_forall in H.
  destruct H as ((((((((((H1 & H2) & H3) & H4) & H5) & H6) & H7) & H8) & H9) & H10) & H11).
  assert (MM : forall x, (x mod M) mod 30 = x mod 30) by (intros x; symmetry; apply Zmod_div_mod; auto; lia).
  assert (B1 : bitpos (p mod 30 * (q mod M)) = bitpos (p * q)).
  { apply bitpos_mod. rewrite Zmult_mod, Z.mod_mod, MM by lia. now rewrite <- Zmult_mod. }
  assert (B2 : bitpos (p mod 30 * nth (Z.to_nat (nxt mod size)) (qs M) 0) = bitpos (p * (q + f))).
  { rewrite <- H9. apply bitpos_mod. rewrite Zmult_mod, Z.mod_mod, MM by lia. rewrite Zplus_mod, MM, <- Zplus_mod. now rewrite <- Zmult_mod. }
  rewrite B1, B2 in *. repeat split; auto; try lia.
  - now rewrite H3.
  - rewrite <- H9. now rewrite Zplus_mod_idemp_l.
  - assert (p * f = 30 * (p / 30 * f) + p mod 30 * f) by (rewrite (Z.div_mod p 30) at 1 by lia; ring).
    assert (p * (q + f) = p * q + p * f) by ring. lia.
  - intros d Hd. specialize (H10 d). rewrite in_zrange in H10. specialize (H10 ltac:(lia)). apply negb_true_iff in H10.
    rewrite <- cop_mod in H10 |- * by lia. rewrite Zplus_mod_idemp_l in H10. auto.
Qed.

Lemma at_mult_cop M size L p mi w q : 0 < M -> (30 | M) -> zlen (qs M) = size -> at_mult M size L p mi w q ->
  cop M q = true /\ cop 30 (p * q) = true.
Proof.
  intros HM HD Hs (Hw & Hr & Hq & E).
  assert (C : cop M q = true).
  { rewrite <- cop_mod, Hq by lia.
    assert (I : In (nth (Z.to_nat (w mod size)) (qs M) 0) (qs M)).
    { apply nth_In. pose proof (Z.mod_pos_bound w size ltac:(lia)). unfold zlen in Hs. lia. }
    apply filter_In in I. tauto. }
  split; auto. apply cop_mul; [|now apply cop_sub with M].
  rewrite <- cop_mod, Hr by lia.
  assert (I : 0 <= w / size < 8) by (split; [apply Z.div_pos; lia|apply Z.div_lt_upper_bound; lia]).
  assert (F : forallb (fun k => cop 30 (nth (Z.to_nat k) res30 0)) (zrange 0 8) = true) by reflexivity.
  rewrite forallb_forall in F. apply F. now apply in_zrange.
Qed.
Lemma at_mult_eq M size L p mi w q mi' : L mod 30 = 0 -> at_mult M size L p mi w q -> mi' = (p * q - L - 7) / 30 -> mi' = mi.
Proof.
  intros HL (_ & _ & _ & E) ->. pose proof (off_bound _ (bitpos_range (p * q))).
  symmetry. apply Z.div_unique with (off (bitpos (p * q)) - 7); lia.
Qed.
(** The position does not depend on where the array starts. *)
Lemma at_mult_shift M size L p mi w q k : at_mult M size L p mi w q <-> at_mult M size (L + 30 * k) p (mi - k) w q.
Proof. unfold at_mult. split; intros (H1 & H2 & H3 & H4); repeat split; auto; lia. Qed.
