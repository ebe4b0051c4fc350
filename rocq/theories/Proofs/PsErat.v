(** Erat: a sieved segment holds exactly its primes. *)
From Coq Require Import ZArith List Lia Bool Znumtheory.
From Verif.Base Require Import Res Word Zl Each.
From Verif.Model Require Import PsTables PsMath PsErat.
From Verif.Spec Require Import PsSpec Primes LMOSpec.
From Verif.Proofs Require Import Primes NT Tables PsWheel PsCross PsSmall PsFirst PsMedium PsBig PsMathP PsAdd PsPre.
Import ListNotations.
Open Scope Z_scope.
Local Ltac Zify.zify_post_hook ::= idtac.

(** *** Number theory *)
Lemma cop_no_prime M q : 0 < M -> (forall r, prime r -> (r | M) -> (r | q) -> False) -> cop M q = true.
Proof.
  intros HM H. unfold cop. apply Z.eqb_eq. pose proof (Z.gcd_nonneg q M).
  destruct (Z.eq_dec (Z.gcd q M) 0) as [E|N]; [apply Z.gcd_eq_0_r in E; lia|].
  destruct (Z.eq_dec (Z.gcd q M) 1); auto. exfalso.
  destruct (exists_prime_divisor (Z.gcd q M) ltac:(lia)) as (r & Hr & Dr). apply (H r); auto.
  - eapply Z.divide_trans; [exact Dr|apply Z.gcd_divide_r].
  - eapply Z.divide_trans; [exact Dr|apply Z.gcd_divide_l].
Qed.
Lemma cop_prime_not M q r : 0 < M -> cop M q = true -> prime r -> (r | M) -> ~ (r | q).
Proof.
  intros HM H Hr DM D. unfold cop in H. apply Z.eqb_eq in H. pose proof (prime_ge_2 r Hr).
  assert (G : (r | Z.gcd q M)) by now apply Z.gcd_greatest. rewrite H in G. apply Z.divide_1_r in G. lia.
Qed.
Lemma prime_cop M p : 0 < M -> prime p -> M < p -> cop M p = true.
Proof.
  intros HM Hp HL. apply cop_no_prime; auto. intros r Hr D1 D2. apply prime_div_prime in D2; auto. subst r.
  apply Z.divide_pos_le in D1; lia.
Qed.
Lemma prime_div_30 r : prime r -> (r | 30) -> r = 2 \/ r = 3 \/ r = 5.
Proof.
  intros Hr D. change 30 with (2 * (3 * 5)) in D. pose proof prime_2. pose proof prime_3.
  assert (prime 5) by (apply primeb_spec; reflexivity).
  apply prime_mult in D; auto. destruct D as [D|D]; [apply prime_div_prime in D; auto|].
  apply prime_mult in D; auto. destruct D as [D|D]; apply prime_div_prime in D; auto.
Qed.
Lemma prime_div_210 r : prime r -> (r | 210) -> r = 7 \/ (r | 30).
Proof.
  intros Hr D. change 210 with (7 * 30) in D. assert (prime 7) by (apply primeb_spec; reflexivity).
  apply prime_mult in D; auto. destruct D as [D|D]; auto. left. apply prime_div_prime in D; auto.
Qed.
Lemma prime_cop30 p : prime p -> 5 < p -> cop 30 p = true.
Proof.
  intros Hp H. apply cop_no_prime; [lia|]. intros r Hr D1 D2. apply prime_div_prime in D2; auto. subst r.
  apply prime_div_30 in D1; auto. lia.
Qed.
Lemma prime_cop210 p : prime p -> 7 < p -> cop 210 p = true.
Proof.
  intros Hp H. apply cop_no_prime; [lia|]. intros r Hr D1 D2. apply prime_div_prime in D2; auto. subst r.
  apply prime_div_210 in D1; auto. destruct D1 as [D1|D1]; [lia|]. apply prime_div_30 in D1; auto. lia.
Qed.
Lemma small_prime_pre p : prime p -> 5 < p <= 19 -> In p pre_primes.
Proof.
  intros Hp H. assert (E : forallb (fun p => negb (primeb p) || existsb (Z.eqb p) pre_primes) (zrange 6 20) = true) by (vm_compute; reflexivity).
  rewrite forallb_forall in E. specialize (E p). rewrite in_zrange in E. specialize (E ltac:(lia)).
  apply primeb_spec in Hp. rewrite Hp in E. cbn [negb orb] in E. apply existsb_exists in E. destruct E as (x & Hx & E). apply Z.eqb_eq in E. now subst.
Qed.
Lemma pre_primes_prime p : In p pre_primes -> prime p.
Proof.
  intros H. apply primeb_spec. assert (E : forallb primeb pre_primes = true) by (vm_compute; reflexivity). rewrite forallb_forall in E. auto.
Qed.

(** A composite number left by pre-sieving has a least prime factor above mx. *)
Lemma left_composite mx n : 7 <= mx <= 19 -> 2 <= n -> cop 30 n = true -> presieved mx n = true -> ~ prime n ->
  exists p q, prime p /\ mx < p /\ n = p * q /\ p <= q /\ cop 210 q = true.
Proof.
  intros Hmx Hn Cn Pn NP. destruct (least_factor_spec n Hn) as (H1 & H2 & H3). destruct (composite_divisor n Hn NP) as (p0 & Q1 & Q2 & Q3).
  set (p := least_factor n) in *. clearbody p. pose proof (H3 p0 Q1 Q2) as Hle. pose proof (prime_ge_2 p H1).
  assert (PP : p * p <= n) by nia. rewrite presieved_spec in Pn.
  assert (Hp : mx < p).
  { destruct (Z.lt_ge_cases mx p); auto. exfalso. destruct (Z.le_gt_cases p 5).
    - apply (cop_prime_not 30 n p); auto; [lia|].
      assert (C : p = 2 \/ p = 3 \/ p = 4 \/ p = 5) by lia. destruct C as [->|[->|[->| ->]]].
      + exists 15. reflexivity. + exists 10. reflexivity. + exfalso. apply primeb_spec in H1. vm_compute in H1. discriminate. + exists 6. reflexivity.
    - apply (Pn p); auto; [apply small_prime_pre; auto; lia|]. apply Z.mod_divide; auto. lia. }
  destruct H2 as [q Hq]. exists p, q. split; auto. split; auto. split; [lia|]. split; [nia|].
  apply cop_no_prime; [lia|]. intros r Hr D1 D2. assert (D3 : (r | n)) by (rewrite Hq; now apply Z.divide_mul_l).
  specialize (H3 r Hr D3). apply prime_div_210 in D1; auto. destruct D1 as [->|D1]; [lia|]. apply prime_div_30 in D1; auto. lia.
Qed.
Lemma prime_presieved mx n : prime n -> mx < n -> presieved mx n = true.
Proof.
  intros Hp H. apply presieved_spec. intros p Hin Hm E. pose proof (pre_primes_prime p Hin) as Pp. pose proof (prime_ge_2 p Pp).
  apply Z.mod_divide in E; [|lia]. apply prime_div_prime in E; auto. lia.
Qed.
Lemma prime_not_struck M l n : prime n -> (forall p, In p l -> 2 <= p) -> struck M l n = false.
Proof.
  intros Hp Hl. destruct (struck M l n) eqn:E; auto. exfalso. apply existsb_exists in E. destruct E as (p & Hin & E). specialize (Hl p Hin).
  unfold strikes in E. rewrite !andb_true_iff, Z.eqb_eq, Z.leb_le in E. destruct E as ((E & _) & L).
  pose proof (Z.div_mod n p ltac:(lia)) as DM. rewrite E, Z.add_0_r in DM.
  assert (D : (p | n)) by (exists (n / p); lia). apply Znumtheory.prime_divisors in D; auto. assert (p < n) by nia. lia.
Qed.

(** *** Bytes *)
Definition bytes_ok (sieve : list Z) : Prop := forall i, 0 <= i < zlen sieve -> exists b, aget sieve i = Ok b /\ 0 <= b < 256.
Lemma holds_bytes sieve low B : holds sieve low B -> bytes_ok sieve.
Proof. intros H i Hi. destruct (H i Hi) as (b & ? & ? & _). eauto. Qed.
Lemma holds_any sieve low : low mod 30 = 0 -> bytes_ok sieve ->
  holds sieve low (fun m => match aget sieve ((m - low - 7) / 30) with Ok b => Z.testbit b (bitpos m) | _ => false end).
Proof.
  intros Hl H i Hi. destruct (H i Hi) as (b & E & R). exists b. split; auto. split; auto. intros j Hj. cbv beta.
  rewrite place_byte, place_bit by auto. now rewrite E.
Qed.
Lemma byte_eqb low i j k : 0 <= j < 8 -> ((low + 30 * i + off j - low - 7) / 30 =? k) = (i =? k).
Proof. intros Hj. now rewrite place_byte. Qed.

Lemma land_byte b mask : 0 <= b < 256 -> 0 <= mask -> 0 <= Z.land b mask < 256.
Proof.
  intros Hb Hm. split; [apply Z.land_nonneg; lia|]. assert (0 <= Z.land b mask) by (apply Z.land_nonneg; lia).
  destruct (Z.eq_dec (Z.land b mask) 0) as [->|N]; [lia|]. change 256 with (2 ^ 8). apply Z.log2_lt_pow2; [lia|].
  eapply Z.le_lt_trans; [apply Z.log2_land; lia|]. apply Z.min_lt_iff. left. destruct (Z.eq_dec b 0) as [->|]; [reflexivity|]. apply Z.log2_lt_pow2; lia.
Qed.
Lemma mask_rule sieve low B i mask (Q : list Z -> Prop) :
  low mod 30 = 0 -> holds sieve low B -> 0 <= i < zlen sieve -> 0 <= mask ->
  (forall sieve', zlen sieve' = zlen sieve -> holds sieve' low (fun m => B m && (negb ((m - low - 7) / 30 =? i) || Z.testbit mask (bitpos m))) -> Q sieve') ->
  wp (clear sieve i mask) Q.
Proof.
  intros Hl HB Hi Hm HQ. unfold clear. apply wp_bind. destruct (HB i Hi) as (b & Eb & Rb & Tb).
  apply (wp_of_eq _ b); auto. apply wp_aset; auto. intros l Hlen Hg. apply HQ; auto.
  intros k Hk. rewrite Hg. destruct (Z.eqb_spec k i) as [->|N].
  - exists (Z.land b mask). split; auto. split; [now apply land_byte|]. intros j Hj. cbv beta. rewrite place_byte, place_bit, Z.eqb_refl, Z.land_spec, Tb by auto. reflexivity.
  - destruct (HB k ltac:(lia)) as (b' & Eb' & Rb' & Tb'). exists b'. split; auto. split; auto. intros j Hj. cbv beta.
    rewrite place_byte by auto. destruct (Z.eqb_spec k i); [lia|]. cbn [negb orb]. rewrite andb_true_r. apply Tb'; auto.
Qed.
Lemma set_rule sieve low B i (Q : list Z -> Prop) :
  low mod 30 = 0 -> holds sieve low B -> 0 <= i < zlen sieve ->
  (forall sieve', zlen sieve' = zlen sieve -> holds sieve' low (fun m => B m || ((m - low - 7) / 30 =? i)) -> Q sieve') ->
  wp (aset sieve i 255) Q.
Proof.
  intros Hl HB Hi HQ. apply wp_aset; auto. intros l Hlen Hg. apply HQ; auto.
  intros k Hk. rewrite Hg. destruct (Z.eqb_spec k i) as [->|N].
  - exists 255. split; auto. split; [lia|]. intros j Hj. cbv beta. rewrite place_byte, Z.eqb_refl, orb_true_r by auto.
    assert (E : forallb (fun j => Z.testbit 255 j) (zrange 0 8) = true) by reflexivity. rewrite forallb_forall in E. apply E. now apply in_zrange.
  - destruct (HB k ltac:(lia)) as (b' & Eb' & Rb' & Tb'). exists b'. split; auto. split; auto. intros j Hj. cbv beta.
    rewrite place_byte by auto. destruct (Z.eqb_spec k i); [lia|]. rewrite orb_false_r. apply Tb'; auto.
Qed.

Lemma byte_remainder_eq n : byte_remainder n = n - 30 * ((n - 7) / 30) /\ 7 <= byte_remainder n <= 36.
Proof.
  unfold byte_remainder. pose proof (Z.div_mod n 30 ltac:(lia)). pose proof (Z.mod_pos_bound n 30 ltac:(lia)).
  destruct (Z.leb_spec (n mod 30) 6).
  - assert ((n - 7) / 30 = n / 30 - 1) by (symmetry; apply Z.div_unique with (n mod 30 + 23); lia). lia.
  - assert ((n - 7) / 30 = n / 30) by (symmetry; apply Z.div_unique with (n mod 30 - 7); lia). lia.
Qed.
Lemma unset_smaller_ok r : 0 <= r <= 36 -> exists mask, aget unset_smaller r = Ok mask /\ 0 <= mask /\ forall j, 0 <= j < 8 -> Z.testbit mask j = (r <=? off j).
Proof.
  intros H. assert (E : forallb (fun r => match aget unset_smaller r with Ok mask => (0 <=? mask) && forallb (fun j => Bool.eqb (Z.testbit mask j) (r <=? off j)) (zrange 0 8) | _ => false end) (zrange 0 37) = true) by (vm_compute; reflexivity).
  rewrite forallb_forall in E. specialize (E r). rewrite in_zrange in E. specialize (E ltac:(lia)). destruct (aget unset_smaller r) as [mask|]; [|discriminate].
  exists mask. split; auto. rewrite andb_true_iff, Z.leb_le, forallb_forall in E. destruct E as [E0 E]. split; auto.
  intros j Hj. specialize (E j). rewrite in_zrange in E. now apply eqb_prop, E.
Qed.
Lemma unset_larger_ok r : 0 <= r <= 36 -> exists mask, aget unset_larger r = Ok mask /\ 0 <= mask /\ forall j, 0 <= j < 8 -> Z.testbit mask j = (off j <=? r).
Proof.
  intros H. assert (E : forallb (fun r => match aget unset_larger r with Ok mask => (0 <=? mask) && forallb (fun j => Bool.eqb (Z.testbit mask j) (off j <=? r)) (zrange 0 8) | _ => false end) (zrange 0 37) = true) by (vm_compute; reflexivity).
  rewrite forallb_forall in E. specialize (E r). rewrite in_zrange in E. specialize (E ltac:(lia)). destruct (aget unset_larger r) as [mask|]; [|discriminate].
  exists mask. split; auto. rewrite andb_true_iff, Z.leb_le, forallb_forall in E. destruct E as [E0 E]. split; auto.
  intros j Hj. specialize (E j). rewrite in_zrange in E. now apply eqb_prop, E.
Qed.

(** *** The invariant of Erat *)
Definition cls_small (stop L : Z) (e : esmall) (l : list Z) : Prop :=
  (es_on e = true /\ es_stop e = stop /\ 0 < es_l1 e /\ small_state L e l) \/ (es_on e = false /\ l = []).
Definition cls_medium (stop L : Z) (e : emedium) (l : list Z) : Prop :=
  (em_on e = true /\ em_stop e = stop /\ Forall (fun p => p <= 5 * 2 ^ 22) l /\ med_state L (em_buckets e) l) \/ (em_on e = false /\ l = []).
Definition cls_big (stop S L : Z) (e : ebig) (l : list Z) : Prop :=
  (eb_on e = true /\ eb_stop e = stop /\ big_state L S e l /\ forall p, 0 <= p <= Z.sqrt stop -> (S - 1 + p / 30 * 10 + 10) / S < zlen (eb_buckets e))
  \/ (eb_on e = false /\ l = []).

Record einv (e : erat) (ps : presieve) (added ls lm lb : list Z) : Prop := EI {
  ei_start : 7 <= e_start e <= e_stop e; ei_stop : e_stop e < 2 ^ 64;
  ei_size : exists k, 13 <= k <= 22 /\ e_size e = 2 ^ k;
  ei_len : zlen (e_sieve e) = e_size e; ei_bytes : bytes_ok (e_sieve e);
  ei_low : e_low e mod 30 = 0 /\ 0 <= e_low e /\ e_low e + 7 <= e_stop e;
  ei_first : e_low e = e_start e - byte_remainder (e_start e) \/ e_start e < e_low e;
  ei_high : e_high e = Z.min (e_low e + 30 * e_size e + 6) (e_stop e);
  ei_pre : pre_ok ps /\ ps_max ps = e_maxpre e;
  ei_mm : e_maxmedium e = 5 * e_size e;
  ei_small : cls_small (e_stop e) (e_low e) (e_small e) ls;
  ei_medium : cls_medium (e_stop e) (e_low e) (e_medium e) lm;
  ei_big : cls_big (e_stop e) (e_size e) (e_low e) (e_big e) lb;
  ei_son : Z.sqrt (e_stop e) > e_maxpre e -> es_on (e_small e) = true;
  ei_mon : Z.sqrt (e_stop e) > e_maxsmall e -> em_on (e_medium e) = true;
  ei_bon : Z.sqrt (e_stop e) > e_maxmedium e -> eb_on (e_big e) = true;
  ei_ge : forall p, In p ls \/ In p lm \/ In p lb -> 7 <= p;
  ei_added : forall p, In p added -> In p ls \/ In p lm \/ In p lb \/ spent 210 (e_low e) (e_stop e) p
}.
Lemma spent_210 L stop p : spent 30 L stop p -> spent 210 L stop p.
Proof. intros H q C. apply H. apply (cop_sub 210 30); auto. exact D210. Qed.

(** the parts of Erat that adding a prime leaves alone *)
Definition same_segment (e e' : erat) : Prop :=
  e_start e' = e_start e /\ e_stop e' = e_stop e /\ e_size e' = e_size e /\ e_low e' = e_low e /\ e_high e' = e_high e /\
  e_sieve e' = e_sieve e /\ e_maxpre e' = e_maxpre e.

Lemma size_bound k : 13 <= k <= 22 -> 8192 <= 2 ^ k <= 2 ^ 22.
Proof. intros H. split; [change 8192 with (2 ^ 13)|]; apply Z.pow_le_mono_r; lia. Qed.

Theorem erat_add_rule e ps added ls lm lb p (Q : erat -> Prop) : einv e ps added ls lm lb -> prime p -> e_maxpre e < p -> p * p <= e_high e ->
  (forall e' ls' lm' lb', einv e' ps (added ++ [p]) ls' lm' lb' -> same_segment e e' -> Q e') ->
  wp (erat_add p e) Q.
Proof.
  intros [I1 I2 (k & Hk & I3) I4 I5 (L1 & L2 & L3) I7 I8 (P1 & P2) I10 I11 I12 I13 I14 I15 I16 I17 I18] Hp Hpre Hpp HQ.
  destruct e as [st sp sz lo hi sv mp ms mm s m b]. cbn [e_start e_stop e_size e_low e_high e_sieve e_maxpre e_maxsmall e_maxmedium e_small e_medium e_big] in *.
  pose proof (size_bound k Hk) as SB. rewrite <- I3 in SB.
  assert (7 <= mp) by (destruct P1 as (? & _); lia).
  assert (Hsq : p <= Z.sqrt sp) by (apply Z.sqrt_le_square; lia).
  assert (P32 : p < 2 ^ 32) by nia.
  assert (C30 : cop 30 p = true) by (apply prime_cop30; auto; lia). assert (C210 : cop 210 p = true) by (apply prime_cop210; auto; lia).
  assert (AP : forall ls' lm' lb', (spent 210 lo sp p \/ In p ls' \/ In p lm' \/ In p lb') -> incl ls ls' -> incl lm lm' -> incl lb lb' ->
     forall x, In x (added ++ [p]) -> In x ls' \/ In x lm' \/ In x lb' \/ spent 210 lo sp x).
  { intros ls' lm' lb' C A1 A2 A3 x Hx. apply in_app_iff in Hx. destruct Hx as [Hx|[<-|[]]]; [destruct (I18 x Hx) as [?|[?|[?|?]]]; auto|tauto]. }
  unfold erat_add. rewrite !Z.gtb_ltb. destruct (Z.ltb_spec mm p) as [Hb|Hb]; [|destruct (Z.ltb_spec ms p) as [Hm|Hm]].
  - apply wp_bind. destruct I13 as [(B1 & B2 & B3 & B4)|(B1 & _)]; [|rewrite I16 in B1 by lia; discriminate].
    apply (ebig_add_rule lo sz b lb p); auto; try lia; [apply B4; lia| |].
    + intros SP. cbn [wp]. apply (HQ _ ls lm lb); [|repeat split].
      constructor; cbn [e_start e_stop e_size e_low e_high e_sieve e_maxpre e_maxsmall e_maxmedium e_small e_medium e_big]; auto; try (exists k; auto; fail).
      * left. auto.
      * apply AP; auto using incl_refl. left. now rewrite <- B2.
    + intros b' E1 E2 E3 E4 BS. cbn [wp]. apply (HQ _ ls lm (lb ++ [p])); [|repeat split].
      constructor; cbn [e_start e_stop e_size e_low e_high e_sieve e_maxpre e_maxsmall e_maxmedium e_small e_medium e_big]; auto; try (exists k; auto; fail).
      * left. rewrite E1, E2, E4. auto.
      * intros HH. rewrite E1. auto.
      * intros x [Hx|[Hx|Hx]]; auto. apply in_app_iff in Hx. destruct Hx as [Hx|[<-|[]]]; auto. lia.
      * apply AP; auto using incl_refl, incl_appl. do 3 right. apply in_app_iff. right. now left.
  - apply wp_bind. destruct I12 as [(B1 & B2 & B2' & B3)|(B1 & _)]; [|rewrite I15 in B1 by lia; discriminate].
    apply (emedium_add_rule lo m lm p sz); auto; try lia.
    + intros SP. cbn [wp]. apply (HQ _ ls lm lb); [|repeat split].
      constructor; cbn [e_start e_stop e_size e_low e_high e_sieve e_maxpre e_maxsmall e_maxmedium e_small e_medium e_big]; auto; try (exists k; auto; fail).
      * left. auto.
      * apply AP; auto using incl_refl. left. rewrite <- B2. now apply spent_210.
    + intros m' E1 E2 BS. cbn [wp]. apply (HQ _ ls (lm ++ [p]) lb); [|repeat split].
      constructor; cbn [e_start e_stop e_size e_low e_high e_sieve e_maxpre e_maxsmall e_maxmedium e_small e_medium e_big]; auto; try (exists k; auto; fail).
      * left. rewrite E1, E2. split; [auto|]. split; [auto|]. split; [|auto]. apply Forall_app. split; [auto|]. constructor; [lia|constructor].
      * intros HH. rewrite E1. auto.
      * intros x [Hx|[Hx|Hx]]; auto. apply in_app_iff in Hx. destruct Hx as [Hx|[<-|[]]]; auto. lia.
      * apply AP; auto using incl_refl, incl_appl. do 2 right. left. apply in_app_iff. right. now left.
  - apply wp_bind. destruct I11 as [(B1 & B2 & B2' & B3)|(B1 & _)]; [|rewrite I14 in B1 by lia; discriminate].
    apply (esmall_add_rule lo s ls p sz); auto; try lia.
    + intros SP. cbn [wp]. apply (HQ _ ls lm lb); [|repeat split].
      constructor; cbn [e_start e_stop e_size e_low e_high e_sieve e_maxpre e_maxsmall e_maxmedium e_small e_medium e_big]; auto; try (exists k; auto; fail).
      * left. auto.
      * apply AP; auto using incl_refl. left. rewrite <- B2. now apply spent_210.
    + intros s' E1 E2 E3 BS. cbn [wp]. apply (HQ _ (ls ++ [p]) lm lb); [|repeat split].
      constructor; cbn [e_start e_stop e_size e_low e_high e_sieve e_maxpre e_maxsmall e_maxmedium e_small e_medium e_big]; auto; try (exists k; auto; fail).
      * left. rewrite E1, E2, E3. auto.
      * intros HH. rewrite E1. auto.
      * intros x [Hx|[Hx|Hx]]; auto. apply in_app_iff in Hx. destruct Hx as [Hx|[<-|[]]]; auto. lia.
      * apply AP; auto using incl_refl, incl_appl. right. left. apply in_app_iff. right. now left.
Qed.
