(** Erat: initialisation and one segment. *)
From Coq Require Import ZArith List Lia Bool Znumtheory.
From Verif.Base Require Import Res Word Zl Each.
From Verif.Model Require Import PsTables PsMath PsErat.
From Verif.Spec Require Import PsSpec PsRunSpec Primes.
From Verif.Proofs Require Import Primes NT PsWheel PsCross PsSmall PsFirst PsMedium PsBig PsMathP PsAdd PsPre PsErat.
Import ListNotations.
Open Scope Z_scope.
Local Ltac Zify.zify_post_hook ::= idtac.

Ltac proj := cbn [e_start e_stop e_size e_low e_high e_sieve e_maxpre e_maxsmall e_maxmedium e_small e_medium e_big] in *.

(** *** init *)
Lemma sieve_bytes_pow n : 0 <= n < 2 ^ 64 -> exists k, 13 <= k <= 22 /\ sieve_bytes n = 2 ^ k.
Proof.
  intros Hn. unfold sieve_bytes, in_between. destruct (Z.eq_dec n 0) as [->|N].
  { exists 13. split; [lia|]. reflexivity. }
  rewrite floor_pow2_eq by lia. set (l := Z.log2 n). assert (0 <= l) by apply Z.log2_nonneg.
  destruct (Z.ltb_spec (2 ^ l) 8); [exists 13; split; [lia|reflexivity]|].
  rewrite Z.gtb_ltb. destruct (Z.ltb_spec 4096 (2 ^ l)); [exists 22; split; [lia|reflexivity]|].
  exists (l + 10). rewrite Z.pow_add_r by lia. change (2 ^ 10) with 1024. split; auto.
  assert (3 <= l) by (apply (Z.pow_le_mono_r_iff 2); lia). assert (l <= 12) by (apply (Z.pow_le_mono_r_iff 2); lia). lia.
Qed.

Theorem erat_init_rule c start stop sieve_size e ps (Q : _ -> Prop) :
  7 <= start <= stop -> stop < 2 ^ 64 -> 0 <= sieve_size < 2 ^ 64 -> ps = presieve0 \/ pre_ok ps ->
  e_small e = esmall0 -> e_medium e = emedium0 -> e_big e = ebig0 ->
  (forall e' ps', einv e' ps' [] [] [] [] -> e_start e' = start -> e_stop e' = stop -> ps_max ps <= ps_max ps' ->
     e_low e' = start - byte_remainder start -> e_size e' = sieve_bytes sieve_size ->
     presieve_init start stop ps = Ok ps' -> Q (e', ps')) ->
  wp (erat_init c start stop sieve_size e ps) Q.
Proof.
  intros Hs Hst Hsz Hps E1 E2 E3 HQ. unfold erat_init. rewrite Z.gtb_ltb. destruct (Z.ltb_spec stop start); [lia|].
  pose proof (presieve_init_ok start stop ps Hps) as HW. apply wp_bind.
  destruct (presieve_init start stop ps) as [ps'|] eqn:EP; [|destruct HW]. cbn [wp] in *. destruct HW as [HP HM]. cbn [wp].
  destruct (byte_remainder_eq start) as [BR BB]. destruct (sieve_bytes_pow sieve_size Hsz) as (k & Hk & ES). rewrite E1, E2, E3.
  pose proof (size_bound k Hk) as SB. rewrite ES. set (S := 2 ^ k) in *.
  assert (LOW : start - byte_remainder start = 30 * ((start - 7) / 30)) by lia.
  assert (0 <= (start - 7) / 30) by (apply Z.div_pos; lia).
  pose proof (Z.sqrt_nonneg stop). assert (SQ : Z.sqrt stop < 2 ^ 32) by (apply Z.sqrt_lt_square; lia).
  assert (HIGH : Z.min (checked_add (start - byte_remainder start) (S * 30 + 6)) stop = Z.min (start - byte_remainder start + 30 * S + 6) stop).
  { unfold checked_add, umax. rewrite Z.geb_leb. destruct (Z.leb_spec (2 ^ 64 - 1 - (S * 30 + 6)) (start - byte_remainder start)); lia. }
  destruct (ebig_init_state (start - byte_remainder start) stop k (Z.sqrt stop) ltac:(lia) ltac:(lia)) as (G1 & G2 & G3 & G4). fold S in G1, G2, G3, G4.
  apply HQ; auto. constructor; proj; auto.
  - exists k. auto.
  - apply amake_len. lia.
  - intros i Hi. rewrite amake_len in Hi by lia. exists 0. rewrite amake_get by auto. split; [reflexivity|lia].
  - split; [rewrite LOW, Z.mul_comm; apply Z.mod_mul; lia|lia].
  - lia.
  - unfold cls_small. rewrite Z.gtb_ltb. destruct (Z.ltb_spec (ps_max ps') (Z.sqrt stop)); [left|right; auto].
    split; [reflexivity|]. split; [reflexivity|]. split; [|split; constructor]. cbn [es_l1 esmall_init]. unfold l1_cache_size, in_between.
    destruct (cpu_l1 c) as [l1|]; [|lia]. destruct (Z.min l1 S <? 8192) eqn:?; [lia|]. apply Z.ltb_ge in Heqb. destruct (Z.min l1 S >? 4194304); lia.
  - unfold cls_medium. rewrite Z.gtb_ltb. destruct (Z.ltb_spec (cpu_small c (l1_cache_size c S)) (Z.sqrt stop)); [left|right; auto].
    split; [reflexivity|]. split; [reflexivity|]. split; [constructor|]. split; [reflexivity|]. split; [apply nonempty_empty|]. split; [intros i s H'; now apply mem_empty in H'|intros p []].
  - unfold cls_big. rewrite Z.gtb_ltb. destruct (Z.ltb_spec (S * 5) (Z.sqrt stop)); [left|right; auto]. split; [auto|]. split; [auto|]. split; [auto|].
    intros p Hp. apply G4. auto.
  - intros HG. rewrite Z.gtb_ltb. destruct (Z.ltb_spec (ps_max ps') (Z.sqrt stop)); [reflexivity|lia].
  - intros HG. rewrite Z.gtb_ltb. destruct (Z.ltb_spec (cpu_small c (l1_cache_size c S)) (Z.sqrt stop)); [reflexivity|lia].
  - intros HG. rewrite Z.gtb_ltb. destruct (Z.ltb_spec (S * 5) (Z.sqrt stop)); [reflexivity|lia].
  - intros p [[]|[[]|[]]].
Qed.

(** *** preSieve *)
Definition pre_bits (start mp lo m : Z) : bool := (presieved mp m || ((start <=? mp) && (lo <=? start) && (m <? lo + 37))) && (start <=? m).

Theorem erat_presieve_rule e ps sz (Q : list Z -> Prop) : pre_ok ps -> ps_max ps = e_maxpre e ->
  e_low e mod 30 = 0 -> 0 <= e_low e -> bytes_ok (e_sieve e) -> zlen (e_sieve e) <= 2 ^ 40 -> 1 <= sz <= zlen (e_sieve e) -> e_size e = sz ->
  (e_low e = e_start e - byte_remainder (e_start e) \/ e_start e < e_low e) ->
  (forall sieve B, zlen sieve = zlen (e_sieve e) -> holds sieve (e_low e) B ->
     (forall i j, 0 <= i < sz -> 0 <= j < 8 -> let m := e_low e + 30 * i + off j in B m = pre_bits (e_start e) (e_maxpre e) (e_low e) m) -> Q sieve) ->
  wp (erat_presieve e ps) Q.
Proof.
  intros HP HM HL HL0 HBy H40 Hsz <- HF HQ. set (lo := e_low e) in *. set (st := e_start e) in *. set (mp := e_maxpre e) in *.
  destruct (byte_remainder_eq st) as [BR BB]. unfold erat_presieve. apply wp_bind. fold lo st mp.
  apply presieve_copy_ok; auto. rewrite HM. intros l Hl Hrest Hpre.
  assert (BO : bytes_ok l).
  { intros i Hi. destruct (Z.lt_ge_cases i (e_size e)); [destruct (Hpre i ltac:(lia)) as (b & ? & ? & _); eauto|]. rewrite Hrest by lia. apply HBy. lia. }
  pose proof (holds_any l lo HL BO) as HA. set (B0 := fun m => _) in HA.
  assert (HB0 : forall i j, 0 <= i < e_size e -> 0 <= j < 8 -> B0 (lo + 30 * i + off j) = presieved mp (lo + 30 * i + off j)).
  { intros i j Hi Hj. unfold B0. rewrite place_byte, place_bit by auto. destruct (Hpre i Hi) as (b & -> & _ & T). now apply T. }
  clearbody B0. destruct (Z.leb_spec lo st) as [Hf|Hf].
  - destruct HF as [HF|HF]; [|lia]. apply wp_bind.
    assert (G : forall l1 B1, zlen l1 = zlen (e_sieve e) -> holds l1 lo B1 ->
       (forall i j, 0 <= i < e_size e -> 0 <= j < 8 -> let m := lo + 30 * i + off j in B1 m = presieved mp m || ((st <=? mp) && (lo <=? st) && (m <? lo + 37))) ->
       wp (m <- aget unset_smaller (byte_remainder st) ;; clear l1 0 m) Q).
    { intros l1 B1 Hl1 HH1 HB1. apply wp_bind. destruct (unset_smaller_ok (byte_remainder st) ltac:(lia)) as (mask & Em & Rm & Tm).
      apply (wp_of_eq _ mask); auto. eapply mask_rule; eauto; [lia|]. intros l2 Hl2 HH2. eapply HQ; [lia|exact HH2|].
      intros i j Hi Hj. cbv zeta beta. rewrite HB1 by auto. unfold pre_bits. f_equal. rewrite byte_eqb, place_bit, Tm by auto. pose proof (off_bound j Hj).
      destruct (Z.eqb_spec i 0) as [->|N]; cbn [negb orb].
      - apply eq_true_iff_eq. rewrite !Z.leb_le. lia.
      - symmetry. apply Z.leb_le. lia. }
    destruct (Z.leb_spec st mp).
    + eapply set_rule; eauto; [lia|]. intros l1 Hl1 HH1. eapply G; [lia|exact HH1|]. intros i j Hi Hj. cbv zeta beta.
      rewrite HB0, byte_eqb by auto. f_equal. destruct (Z.leb_spec st mp), (Z.leb_spec lo st); try lia. cbn [andb]. pose proof (off_bound j Hj).
      apply eq_true_iff_eq. rewrite Z.eqb_eq, Z.ltb_lt. lia.
    + cbn [wp]. eapply G; [lia|exact HA|]. intros i j Hi Hj. cbv zeta. rewrite HB0 by auto.
      destruct (Z.leb_spec st mp); [lia|]. cbn [andb]. now rewrite orb_false_r.
  - cbn [wp]. eapply HQ; [lia|exact HA|]. intros i j Hi Hj. cbv zeta. rewrite HB0 by auto. unfold pre_bits.
    pose proof (off_bound j Hj). destruct (Z.leb_spec lo st); [lia|]. rewrite andb_false_r. cbn [andb]. rewrite orb_false_r.
    destruct (Z.leb_spec st (lo + 30 * i + off j)); [now rewrite andb_true_r|lia].
Qed.

(** *** crossOff *)
Theorem erat_cross_rule e sieve sz S B ls lm lb (Q : _ -> Prop) :
  e_low e mod 30 = 0 -> 0 <= e_low e < 2 ^ 64 -> e_size e = sz -> 1 <= sz <= S -> S <= 2 ^ 22 -> zlen sieve = S -> holds sieve (e_low e) B ->
  cls_small (e_stop e) (e_low e) (e_small e) ls -> cls_medium (e_stop e) (e_low e) (e_medium e) lm -> cls_big (e_stop e) S (e_low e) (e_big e) lb ->
  (forall s m b sieve' B', zlen sieve' = S -> holds sieve' (e_low e) B' ->
     (forall i j, 0 <= i < sz -> 0 <= j < 8 -> let n := e_low e + 30 * i + off j in B' n = B n && negb (struck 30 ls n) && negb (struck 30 lm n) && negb (struck 210 lb n)) ->
     es_on s = es_on (e_small e) -> em_on m = em_on (e_medium e) -> eb_on b = eb_on (e_big e) ->
     cls_small (e_stop e) (e_low e + 30 * sz) s ls -> cls_medium (e_stop e) (e_low e + 30 * sz) m lm -> cls_big (e_stop e) S (e_low e + 30 * S) b lb -> Q (s, m, b, sieve')) ->
  wp (erat_cross sieve e) Q.
Proof.
  intros HL HLr <- Hsz HS22 Hlen HB CS CM CB HQ. set (lo := e_low e) in *. unfold erat_cross. apply wp_bind.
  set (sz := e_size e) in *.
  assert (IN : forall i j k, 0 <= i < k -> 0 <= j < 8 -> (lo + 6 <? lo + 30 * i + off j) = true /\ (lo + 30 * i + off j <? lo + 30 * k + 7) = true).
  { intros i j k Hi Hj. pose proof (off_bound j Hj). rewrite !Z.ltb_lt. lia. }
  (* small *)
  assert (W1 : wp (if es_on (e_small e) then esmall_cross sieve sz (e_small e) else Ok (e_small e, sieve))
     (fun '(s, sv) => zlen sv = S /\ es_on s = es_on (e_small e) /\ cls_small (e_stop e) (lo + 30 * sz) s ls /\
        exists B', holds sv lo B' /\ forall i j, 0 <= i < sz -> 0 <= j < 8 -> let n := lo + 30 * i + off j in B' n = B n && negb (struck 30 ls n))).
  { destruct CS as [(C1 & C2 & C3 & C4)|(C1 & ->)]; rewrite C1.
    - apply (esmall_cross_rule lo S sz B (e_small e) ls); auto; try lia. intros e' sv Hl E1 E2 E3 HSt HH. split; [auto|]. split; [congruence|].
      split; [left; rewrite E1, E2, E3; auto|]. eexists. split; [exact HH|]. intros i j Hi Hj. cbv zeta beta. destruct (IN i j sz Hi Hj) as [-> ->]. now rewrite !andb_true_r.
    - cbn [wp]. split; [auto|]. split; [auto|]. split; [right; auto|]. exists B. split; auto. intros. cbn. now rewrite andb_true_r. }
  eapply wp_mono; [exact W1|]. intros [s sv1] (L1 & O1 & S1 & B1 & H1 & E1). apply wp_bind. clear W1.
  assert (W2 : wp (if em_on (e_medium e) then emedium_cross sv1 sz (e_medium e) else Ok (e_medium e, sv1))
     (fun '(s, sv) => zlen sv = S /\ em_on s = em_on (e_medium e) /\ cls_medium (e_stop e) (lo + 30 * sz) s lm /\
        exists B', holds sv lo B' /\ forall i j, 0 <= i < sz -> 0 <= j < 8 -> let n := lo + 30 * i + off j in B' n = B1 n && negb (struck 30 lm n))).
  { destruct CM as [(C1 & C2 & C3 & C4)|(C1 & ->)]; rewrite C1.
    - apply (emedium_cross_rule lo sz S B1 lm); auto; try lia. intros e' sv Hl E2 E3 HSt HH. split; [auto|]. split; [congruence|].
      split; [left; rewrite E2, E3; auto|]. eexists. split; [exact HH|]. intros i j Hi Hj. cbv zeta beta. destruct (IN i j sz Hi Hj) as [-> ->]. now rewrite !andb_true_r.
    - cbn [wp]. split; [auto|]. split; [auto|]. split; [right; auto|]. exists B1. split; auto. intros. cbn. now rewrite andb_true_r. }
  eapply wp_mono; [exact W2|]. intros [m sv2] (L2 & O2 & S2 & B2 & H2 & E2). apply wp_bind. clear W2.
  assert (W3 : wp (if eb_on (e_big e) then ebig_cross sv2 (e_big e) else Ok (e_big e, sv2))
     (fun '(s, sv) => zlen sv = S /\ eb_on s = eb_on (e_big e) /\ cls_big (e_stop e) S (lo + 30 * S) s lb /\
        exists B', holds sv lo B' /\ forall i j, 0 <= i < sz -> 0 <= j < 8 -> let n := lo + 30 * i + off j in B' n = B2 n && negb (struck 210 lb n))).
  { destruct CB as [(C1 & C2 & C4 & C5)|(C1 & ->)]; rewrite C1.
    - apply (ebig_cross_rule lo S B2 lb); auto; try lia. intros e' sv Hl E3 E4 E5 E6 HSt HH. split; [auto|]. split; [congruence|].
      split; [left; rewrite E3, E4, E6; auto|]. eexists. split; [exact HH|]. intros i j Hi Hj. cbv zeta beta. destruct (IN i j S ltac:(lia) Hj) as [-> ->]. now rewrite !andb_true_r.
    - cbn [wp]. split; [auto|]. split; [auto|]. split; [right; auto|]. exists B2. split; auto. intros. cbn. now rewrite andb_true_r. }
  eapply wp_mono; [exact W3|]. intros [b sv3] (L3 & O3 & S3 & B3 & H3 & E3). cbn [wp].
  eapply HQ; eauto. intros i j Hi Hj. cbv zeta. rewrite E3, E2, E1 by auto. reflexivity.
Qed.

(** *** What is left *)
Lemma left_is_prime start mp lo hi stop ls lm lb added n :
  7 <= mp <= 19 -> 0 <= lo -> lo mod 30 = 0 -> lo + 6 < n -> cop 30 n = true -> start <= n <= hi -> hi <= stop -> 7 <= start ->
  (lo = start - byte_remainder start \/ start < lo) ->
  (forall p, In p ls \/ In p lm \/ In p lb -> 7 <= p) ->
  (forall p, In p added -> In p ls \/ In p lm \/ In p lb \/ spent 210 lo stop p) ->
  (forall p, prime p -> mp < p -> p * p <= hi -> In p added) ->
  pre_bits start mp lo n && negb (struck 30 ls n) && negb (struck 30 lm n) && negb (struck 210 lb n) = primeb n.
Proof.
  intros Hmp Hlo Hlo30 Hn Cn Hr Hhi Hst Hfirst Hge Hadd Hall.
  assert (NS : prime n -> struck 30 ls n = false /\ struck 30 lm n = false /\ struck 210 lb n = false).
  { intros Hp. repeat split; apply prime_not_struck; auto; intros p Hin; specialize (Hge p); intuition lia. }
  assert (SN : presieved mp n = true -> ~ prime n -> struck 30 ls n = true \/ struck 30 lm n = true \/ struck 210 lb n = true).
  { intros Pn NP. destruct (left_composite mp n Hmp ltac:(lia) Cn Pn NP) as (p & q & Pp & Hp & En & Hpq & Cq).
    pose proof (prime_ge_2 p Pp). assert (C30 : cop 30 q = true) by (apply (cop_sub 210 30); auto; exact D210).
    assert (ST : forall M, cop M q = true -> strikes M p n = true).
    { intros M CM. unfold strikes. rewrite En, (Z.mul_comm p q), Z.mod_mul, Z.div_mul, CM by lia. cbn. now apply Z.leb_le. }
    assert (A : In p added) by (apply Hall; auto; nia). destruct (Hadd p A) as [I|[I|[I|SP]]].
    - left. apply existsb_exists. exists p. auto.
    - right. left. apply existsb_exists. exists p. auto.
    - right. right. apply existsb_exists. exists p. auto.
    - exfalso. specialize (SP q Cq Hpq). rewrite <- En in SP. lia. }
  unfold pre_bits. replace (start <=? n) with true by (symmetry; apply Z.leb_le; lia). rewrite andb_true_r.
  destruct ((start <=? mp) && (lo <=? start) && (n <? lo + 37)) eqn:SPC.
  - rewrite orb_true_r. rewrite !andb_true_iff, !Z.leb_le, Z.ltb_lt in SPC. destruct (byte_remainder_eq start) as [BR BB].
    assert (lo = 0). { destruct Hfirst as [F|F]; [|lia]. apply Z.mod_divide in Hlo30; [|lia]. destruct Hlo30 as [t Ht]. lia. }
    assert (E : forallb (fun n => negb (cop 30 n) || primeb n) (zrange 7 37) = true) by (vm_compute; reflexivity).
    rewrite forallb_forall in E. specialize (E n). rewrite in_zrange in E. specialize (E ltac:(lia)). rewrite Cn in E. cbn [negb orb] in E.
    rewrite E. apply primeb_spec in E. destruct (NS E) as (-> & -> & ->). reflexivity.
  - rewrite orb_false_r. destruct (primeb n) eqn:E.
    + apply primeb_spec in E. destruct (NS E) as (-> & -> & ->). rewrite !andb_true_r.
      assert (mp < n).
      { destruct (Z.lt_ge_cases mp n); auto. exfalso. rewrite !andb_false_iff, !Z.leb_gt, Z.ltb_ge in SPC.
        destruct (byte_remainder_eq start) as [BR BB]. apply Z.mod_divide in Hlo30; [|lia]. destruct Hlo30 as [t Ht]. lia. }
      now apply prime_presieved.
    + apply primeb_false in E. destruct (presieved mp n) eqn:Pn; [|reflexivity].
      destruct (SN eq_refl E) as [-> | [-> | ->]]; cbn [negb]; rewrite ?andb_false_r; reflexivity.
Qed.

(** *** One segment *)
Theorem erat_segment_rule e ps added ls lm lb (Q : erat -> Prop) : einv e ps added ls lm lb ->
  (forall p, prime p -> e_maxpre e < p -> p * p <= e_high e -> In p added) ->
  (forall e' ls' lm' lb', e_start e' = e_start e -> e_stop e' = e_stop e -> e_maxpre e' = e_maxpre e ->
     zlen (e_sieve e') = e_size e -> 1 <= e_size e' <= e_size e -> bytes_ok (e_sieve e') ->
     shows_primes (e_sieve e') (8 * ((e_size e' + 7) / 8)) (e_low e) (e_start e) (e_stop e) ->
     (e_high e = e_stop e /\ e_low e' = e_stop e /\ e_stop e < e_low e + 30 * e_size e' + 7 /\ e_low e + 30 * e_size e' - 23 <= e_stop e \/
      e_high e < e_stop e /\ e_low e' = e_low e + 30 * e_size e /\ e_size e' = e_size e /\ einv e' ps added ls' lm' lb') -> Q e') ->
  wp (erat_segment e ps) Q.
Proof.
  intros [I1 I2 (k & Hk & I3) I4 I5 (L1 & L2 & L3) I7 I8 (P1 & P2) I10 I11 I12 I13 I14 I15 I16 I17 I18] Hall HQ.
  destruct e as [st sp sz lo hi sv mp ms mm s m b]. proj. pose proof (size_bound k Hk) as SB. rewrite <- I3 in SB.
  assert (S8 : sz mod 8 = 0).
  { rewrite I3. replace k with (3 + (k - 3)) by lia. rewrite Z.pow_add_r by lia. change (2 ^ 3) with 8. rewrite Z.mul_comm. apply Z.mod_mul. lia. }
  assert (Hmp : 7 <= mp <= 19) by (destruct P1 as (? & _); lia).
  unfold erat_segment. destruct (Z.eqb_spec hi sp) as [Hlast|Hlast].
  - destruct (byte_remainder_eq sp) as [BR BB]. set (rem := byte_remainder sp) in *.
    pose proof (Z.div_mod (sp - 7) 30 ltac:(lia)) as D1. pose proof (Z.mod_pos_bound (sp - 7) 30 ltac:(lia)) as D2.
    set (t := (sp - 7) / 30) in *. apply Z.mod_divide in L1 as L1'; [|lia]. destruct L1' as [u Hu].
    assert (UT : 0 <= u <= t) by lia.
    assert (EU : uwrap 64 (uwrap 64 (sp - rem) - lo) / 30 + 1 = t - u + 1).
    { assert (EA : uwrap 64 (sp - rem) = 30 * t) by (unfold uwrap; rewrite Z.mod_small; lia). rewrite EA.
      assert (EB : uwrap 64 (30 * t - lo) = (t - u) * 30) by (unfold uwrap; rewrite Z.mod_small; lia). rewrite EB, Z.div_mul; lia. }
    rewrite EU. set (z := t - u + 1). assert (Hz : 1 <= z <= sz) by lia. clearbody rem.
    apply wp_bind. apply (erat_presieve_rule _ ps z); proj; auto; try lia. intros sv1 B1 Hl1 HH1 HB1. apply wp_bind.
    apply (erat_cross_rule _ sv1 z sz B1 ls lm lb); proj; auto; try lia. intros s' m' b' sv2 B2 Hl2 HH2 HB2 _ _ _ _ _ _.
    apply wp_bind. destruct (unset_larger_ok rem ltac:(lia)) as (mask & Em & Rm & Tm). apply (wp_of_eq _ mask); auto. apply wp_bind.
    eapply mask_rule; eauto; [lia|]. intros sv3 Hl3 HH3. apply wp_bind.
    pose proof (Z.div_mod z 8 ltac:(lia)) as Z1. pose proof (Z.mod_pos_bound z 8 ltac:(lia)) as Z2.
    pose proof (Z.div_mod (z + 7) 8 ltac:(lia)) as Z3. pose proof (Z.mod_pos_bound (z + 7) 8 ltac:(lia)) as Z4.
    pose proof (Z.div_mod (8 - z mod 8) 8 ltac:(lia)) as Z5. pose proof (Z.mod_pos_bound (8 - z mod 8) 8 ltac:(lia)) as Z6.
    assert (EBY : z + (8 - z mod 8) mod 8 = 8 * ((z + 7) / 8)) by lia. set (bytes := (8 - z mod 8) mod 8) in *. remember (8 * ((z + 7) / 8)) as up eqn:EUP.
    assert (UP : up <= sz). { apply Z.mod_divide in S8; [|lia]. destruct S8 as [s8 S8]. lia. }
    clearbody bytes.
    apply for_rule with (Inv := fun i sv => zlen sv = sz /\ (forall x, 0 <= x < z -> aget sv x = aget sv3 x) /\ (forall x, z <= x < z + i -> aget sv x = Ok 0) /\ bytes_ok sv).
    + lia.
    + split; [lia|]. split; [auto|]. split; [intros; lia|]. eapply holds_bytes; eauto.
    + intros i svi Hi (J1 & J2 & J3 & J4). apply wp_aset; [lia|]. intros l Hl Hg. split; [lia|]. split; [|split].
      * intros x Hx. rewrite Hg. destruct (Z.eqb_spec x (z + i)); [lia|auto].
      * intros x Hx. rewrite Hg. destruct (Z.eqb_spec x (z + i)); [auto|]. apply J3. lia.
      * intros x Hx. rewrite Hg. destruct (x =? z + i); [exists 0; split; [auto|lia]|]. apply J4. lia.
    + intros sv4 (J1 & J2 & J3 & J4). cbn [wp]. apply (HQ _ ls lm lb); proj; auto; try lia.
      rewrite <- EUP. intros i Hi. destruct (Z.lt_ge_cases i z).
      * assert (Hiz : 0 <= i < z) by lia. rewrite J2 by lia. destruct (HH3 i ltac:(lia)) as (x & X1 & X2 & X3). exists x. split; auto. split; auto. intros j Hj. cbv zeta. rewrite X3 by auto. cbv beta.
        pose proof (off_bound j Hj). rewrite byte_eqb, place_bit, Tm, HB2, HB1 by auto. cbv zeta.
        destruct (Z.le_gt_cases st (lo + 30 * i + off j)) as [A|A].
        -- destruct (Z.le_gt_cases (lo + 30 * i + off j) sp) as [A2|A2].
           ++ rewrite (left_is_prime st mp lo hi sp ls lm lb added) by (auto; try lia; apply place_cop; auto).
              rewrite (proj2 (Z.leb_le st (lo + 30 * i + off j)) A), (proj2 (Z.leb_le _ sp) A2), !andb_true_r.
              replace (negb (i =? z - 1) || (off j <=? rem)) with true; [now rewrite andb_true_r|].
              symmetry. destruct (Z.eqb_spec i (z - 1)); [|reflexivity]. cbn [negb orb]. apply Z.leb_le. lia.
           ++ rewrite (proj2 (Z.leb_gt _ sp) A2), andb_false_r.
              assert (i = z - 1) by lia. subst i. rewrite Z.eqb_refl. cbn [negb orb]. replace (off j <=? rem) with false; [now rewrite andb_false_r|]. symmetry. apply Z.leb_gt. lia.
        -- unfold pre_bits. rewrite (proj2 (Z.leb_gt st (lo + 30 * i + off j)) A), !andb_false_r. reflexivity.
      * rewrite J3 by lia. exists 0. split; auto. split; [lia|]. intros j Hj. cbv zeta. rewrite Z.bits_0. symmetry. pose proof (off_bound j Hj).
        replace (lo + 30 * i + off j <=? sp) with false; [now rewrite andb_false_r|]. symmetry. apply Z.leb_gt. lia.
  - assert (Hhi : hi = lo + 30 * sz + 6 /\ hi < sp) by lia. destruct Hhi as [Hhi Hlt].
    apply wp_bind. apply (erat_presieve_rule _ ps sz); proj; auto; try lia. intros sv1 B1 Hl1 HH1 HB1. apply wp_bind.
    apply (erat_cross_rule _ sv1 sz sz B1 ls lm lb); proj; auto; try lia. intros s' m' b' sv2 B2 Hl2 HH2 HB2 O1 O2 O3 C1 C2 C3. cbn [wp].
    assert (CA : checked_add lo (sz * 30) = lo + 30 * sz).
    { unfold checked_add, umax. rewrite Z.geb_leb. destruct (Z.leb_spec (2 ^ 64 - 1 - sz * 30) lo); lia. }
    assert (CH : Z.min (checked_add hi (sz * 30)) sp = Z.min (lo + 30 * sz + 30 * sz + 6) sp).
    { unfold checked_add, umax. rewrite Z.geb_leb. destruct (Z.leb_spec (2 ^ 64 - 1 - sz * 30) hi); lia. }
    destruct (byte_remainder_eq st) as [BR BB].
    assert (E8 : 8 * ((sz + 7) / 8) = sz).
    { apply Z.mod_divide in S8; [|lia]. destruct S8 as [s8 S8]. rewrite S8. replace ((s8 * 8 + 7) / 8) with s8; [lia|]. apply Z.div_unique with 7; lia. }
    apply (HQ _ ls lm lb); proj; auto; try lia.
    + eapply holds_bytes; eauto.
    + rewrite E8. intros i Hi. destruct (HH2 i ltac:(lia)) as (x & X1 & X2 & X3). exists x. split; auto. split; auto. intros j Hj. cbv zeta. rewrite X3 by auto.
      pose proof (off_bound j Hj). rewrite HB2, HB1 by auto. cbv zeta.
      rewrite (proj2 (Z.leb_le (lo + 30 * i + off j) sp)), andb_true_r by lia.
      destruct (Z.le_gt_cases st (lo + 30 * i + off j)) as [A|A].
      * rewrite (left_is_prime st mp lo hi sp ls lm lb added) by (auto; try lia; apply place_cop; auto).
        rewrite (proj2 (Z.leb_le st (lo + 30 * i + off j)) A), andb_true_r. reflexivity.
      * unfold pre_bits. rewrite (proj2 (Z.leb_gt st (lo + 30 * i + off j)) A), !andb_false_r. reflexivity.
    + right. split; [auto|]. split; [auto|]. split; [auto|]. rewrite CA, CH. constructor; proj; auto; try lia.
      * exists k. auto.
      * eapply holds_bytes; eauto.
      * split; [|lia]. replace (lo + 30 * sz) with (lo + sz * 30) by ring. rewrite Z.mod_add by lia. auto.
      * intros H. rewrite O1. auto.
      * intros H. rewrite O2. auto.
      * intros H. rewrite O3. auto.
      * intros p Hp. destruct (I18 p Hp) as [?|[?|[?|SP]]]; auto. do 3 right. intros q Cq Pq Lq. apply SP; auto. lia.
Qed.
