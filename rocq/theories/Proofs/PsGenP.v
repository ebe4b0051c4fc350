(** PrimeGenerator delivers the primes of an interval in order. *)
From Coq Require Import ZArith List Lia Bool Znumtheory Sorted.
From Verif.Base Require Import Res Word Zl Each.
From Verif.Model Require Import PsTables PsMath PsErat PsCache PsGen.
From Verif.Spec Require Import PsSpec PsRunSpec PsGenSpec Primes.
From Verif.Proofs Require Import Primes NT PsWheel PsMathP PsAdd PsPre PsErat PsSeg PsWord PsSvp.
Import ListNotations.
Open Scope Z_scope.
Local Ltac Zify.zify_post_hook ::= idtac.

(** *** The cached primes *)
Lemma sorted_app_lt (l1 l2 : list Z) : StronglySorted Z.lt (l1 ++ l2) -> forall x y, In x l1 -> In y l2 -> x < y.
Proof.
  induction l1 as [|a l1 IH]; cbn [app]; intros H x y [] Hy; subst; inversion H; subst.
  - rewrite Forall_forall in H3. apply H3. apply in_app_iff. now right.
  - now apply IH.
Qed.
Lemma skipn_count s (l : list Z) : StronglySorted Z.lt l -> skipn (length (filter (fun x => x <? s) l)) l = filter (fun x => s <=? x) l.
Proof.
  induction l as [|a l IH]; intros H; [reflexivity|]. inversion H; subst. cbn [filter]. rewrite Z.leb_antisym. destruct (Z.ltb_spec a s); cbn [negb length skipn]; [now apply IH|].
  assert (E : filter (fun x => x <? s) l = []). { apply filter_none. intros x Hx. rewrite Forall_forall in H3. specialize (H3 x Hx). apply Z.ltb_ge. lia. }
  rewrite E. cbn [length skipn]. f_equal. rewrite <- IH by auto. rewrite E. reflexivity.
Qed.
Lemma firstn_count s (l : list Z) : StronglySorted Z.lt l -> firstn (length (filter (fun x => x <=? s) l)) l = filter (fun x => x <=? s) l.
Proof.
  induction l as [|a l IH]; intros H; [reflexivity|]. inversion H; subst. cbn [filter]. destruct (Z.leb_spec a s); cbn [length firstn]; [f_equal; now apply IH|].
  assert (E : filter (fun x => x <=? s) l = []). { apply filter_none. intros x Hx. rewrite Forall_forall in H3. specialize (H3 x Hx). apply Z.leb_gt. lia. }
  rewrite E. reflexivity.
Qed.
Lemma small_primes_all : small_primes = filter primeb (zrange 0 720).
Proof. vm_compute. reflexivity. Qed.
Lemma max_cached_eq : max_cached = 719.
Proof. reflexivity. Qed.
Lemma prime_pi_all : forallb (fun n => match aget prime_pi n with Ok c => c =? zlen (filter (fun x => x <=? n) small_primes) | _ => false end) (zrange 0 720) = true.
Proof. vm_compute. reflexivity. Qed.
Lemma prime_pi_ok n : 0 <= n < 720 -> aget prime_pi n = Ok (zlen (filter (fun x => x <=? n) small_primes)).
Proof.
  intros H. pose proof prime_pi_all as A. rewrite forallb_forall in A. specialize (A n (proj2 (in_zrange _ _ _) H)).
  destruct (aget prime_pi n); [|discriminate]. apply Z.eqb_eq in A. now subst.
Qed.
Lemma small_sorted : StronglySorted Z.lt small_primes.
Proof. rewrite small_primes_all. apply sorted_filter, zrange_sorted. Qed.
Lemma primes_in_in a b m : In m (primes_in a b) <-> prime m /\ a <= m <= b.
Proof. unfold primes_in. rewrite filter_In, in_zrange, primeb_spec. intuition lia. Qed.
Lemma primes_in_sorted a b : StronglySorted Z.lt (primes_in a b).
Proof. apply sorted_filter, zrange_sorted. Qed.
Lemma small_in m : In m small_primes <-> prime m /\ m <= 719.
Proof. rewrite small_primes_all, filter_In, in_zrange, primeb_spec. split; [intuition lia|]. intros [P ?]. pose proof (prime_ge_2 m P). intuition lia. Qed.
Lemma small_len : zlen small_primes = 128.
Proof. reflexivity. Qed.
Global Opaque small_primes prime_pi.
Lemma count_mono s t (l : list Z) : s <= t + 1 -> zlen (filter (fun x => x <? s) l) <= zlen (filter (fun x => x <=? t) l).
Proof. intros H. induction l as [|a l IH]; [reflexivity|]. cbn [filter]. destruct (Z.ltb_spec a s), (Z.leb_spec a t); rewrite ?zlen_cons; lia. Qed.
Lemma count_len (f : Z -> bool) (l : list Z) : zlen (filter f l) <= zlen l.
Proof. unfold zlen. pose proof (filter_len f l). lia. Qed.

Lemma cached_rule start stop (Q : list Z -> Prop) : 0 <= start <= stop -> (forall l, l = primes_in start (Z.min stop 719) -> zlen l <= 128 -> Q l) -> wp (cached_primes start stop) Q.
Proof.
  intros H HQ. unfold cached_primes. rewrite max_cached_eq. destruct (Z.leb_spec start 719) as [Hs|Hs].
  2: { cbn [wp]. apply HQ; [|unfold zlen; cbn; lia]. symmetry. apply filter_none. intros x Hx. apply in_zrange in Hx. lia. }
  set (a := zlen (filter (fun x => x <? start) small_primes)). set (b := zlen (filter (fun x => x <=? stop) small_primes)).
  assert (EA : start_idx start = Ok a).
  { unfold start_idx. rewrite Z.gtb_ltb. destruct (Z.ltb_spec 1 start).
    - rewrite prime_pi_ok by lia. unfold a. do 2 f_equal. apply filter_ext. intros x. destruct (Z.leb_spec x (start - 1)), (Z.ltb_spec x start); lia || reflexivity.
    - unfold a. rewrite filter_none; [reflexivity|]. intros x Hx. apply small_in in Hx. destruct Hx as [P _]. pose proof (prime_ge_2 x P). apply Z.ltb_ge. lia. }
  assert (EB : stop_idx stop = Ok b).
  { unfold stop_idx. rewrite max_cached_eq. destruct (Z.ltb_spec stop 719); [apply prime_pi_ok; lia|]. unfold b. f_equal. f_equal. symmetry. 
    assert (G : forall l : list Z, (forall x, In x l -> x <= stop) -> filter (fun x => x <=? stop) l = l).
    { induction l as [|c l IH]; intros Hl; [reflexivity|]. cbn [filter]. rewrite (proj2 (Z.leb_le _ _)) by (apply Hl; now left). f_equal. apply IH. intros x Hx. apply Hl. now right. }
    apply G. intros x Hx. apply small_in in Hx. lia. }
  rewrite EA, EB. cbn [bind].
  assert (AB : a <= b) by (apply count_mono; lia). assert (BL : b <= zlen small_primes) by apply count_len.
  rewrite (proj2 (Z.leb_le a b)), (proj2 (Z.leb_le b _)) by auto. cbn [andb wp]. pose proof small_len as SL. apply HQ.
  - rewrite firstn_skipn_comm. assert (0 <= a) by (unfold a, zlen; lia). replace (Z.to_nat a + Z.to_nat (b - a))%nat with (Z.to_nat b) by lia.
    assert (E1 : firstn (Z.to_nat b) small_primes = filter (fun x => x <=? stop) small_primes) by (unfold b, zlen; rewrite Nat2Z.id; apply firstn_count, small_sorted).
    rewrite E1. set (l := filter (fun x => x <=? stop) small_primes).
    assert (SS : StronglySorted Z.lt l) by apply sorted_filter, small_sorted.
    assert (E2 : Z.to_nat a = length (filter (fun x => x <? start) l)).
    { unfold a, zlen. rewrite Nat2Z.id. unfold l. generalize small_primes as m. induction m as [|c m IH]; [reflexivity|]. cbn [filter].
      destruct (Z.ltb_spec c start), (Z.leb_spec c stop); try lia; cbn [filter]; rewrite ?(proj2 (Z.ltb_lt c start)), ?(proj2 (Z.ltb_ge c start)) by lia; cbn [length]; auto. }
    rewrite E2, skipn_count by auto. apply sorted_ext; [now apply sorted_filter|apply primes_in_sorted|]. intros x. unfold l. rewrite !filter_In, small_in, primes_in_in, !Z.leb_le. intuition lia.
  - unfold zlen. rewrite firstn_length, skipn_length. unfold zlen in SL. lia.
Qed.

(** *** PrimeGenerator *)
Lemma primes_in_split a b c : a <= b + 1 -> b <= c -> primes_in a c = primes_in a b ++ primes_in (b + 1) c.
Proof. intros H1 H2. unfold primes_in. rewrite (zrange_app a (b + 1) (c + 1)) by lia. apply filter_app. Qed.
Lemma sel_primes_in start stop P : P + 7 <= start -> sel start stop (P + 7) (stop + 1) = primes_in start stop.
Proof. intros H. apply sorted_ext; [apply sel_sorted|apply primes_in_sorted|]. intros x. rewrite sel_in, primes_in_in. intuition lia. Qed.

Lemma sel_cut start stop P P' : P <= P' -> sel start stop (P + 7) (stop + 1) = sel start stop (P + 7) (P' + 7) ++ sel start stop (P' + 7) (stop + 1).
Proof.
  intros H. destruct (Z.lt_ge_cases (P' + 7) (stop + 1)); [apply sel_app; lia|]. rewrite (sel_none _ _ (P' + 7)) by lia. rewrite app_nil_r.
  destruct (Z.lt_ge_cases (P + 7) (stop + 1)); [|now rewrite !sel_none by lia].
  rewrite (sel_app _ _ (P + 7) (stop + 1) (P' + 7)) by lia. rewrite (sel_none _ _ (stop + 1)) by lia. now rewrite app_nil_r.
Qed.
(** the prime fetched last, and the ones behind it *)
Definition pend (q : Z) (R L : list Z) : Prop := (q = 0 /\ L = R) \/ (0 < q < umax 64 /\ L = q :: R) \/ (q = umax 64 /\ L = [] /\ R = []).
Definition svready (p : pgen) (added : list Z) (stop : Z) : Prop :=
  let mx := ps_max (p_ps p) in let T := Z.sqrt stop in
  e_maxpre (p_e p) = mx /\ 7 <= mx /\ exists R L, svinv (p_ps p) T (p_sv p) R /\ pend (p_prime p) R L /\ sel (mx + 1) T 7 (T + 1) = added ++ L.
Definition pginv (p : pgen) (start stop : Z) (R : list Z) : Prop :=
  p_init p = true /\ e_start (p_e p) = start /\ e_stop (p_e p) = stop /\ 0 <= stop < 2 ^ 64 /\
  exists added P, cursor (p_e p) (p_ps p) added start stop (p_idx p) P /\ 0 <= P /\ (p_idx p < e_size (p_e p) -> p_low p = uwrap 64 P) /\
    R = sel start stop (P + 7) (stop + 1) /\ (erat_has_next (p_e p) = true -> svready p added stop).

Lemma pend_next g p ps T sv R L (Q : _ -> Prop) : genv_ok g -> 0 <= T < 2 ^ 32 -> svinv ps T sv R -> pend p R L -> (forall x, In x L -> 0 < x < umax 64) ->
  (forall q sv' R', svinv ps T sv' R' -> pend q R' L -> 0 < q -> Q (q, sv')) ->
  wp (if p =? 0 then svp_next g sv ps else Ok (p, sv)) Q.
Proof.
  intros HG HT HS HP HL HQ. destruct (Z.eqb_spec p 0) as [->|Hp].
  - destruct HP as [(_ & ->)|[(X & _)|(X & _)]]; [|lia|discriminate]. eapply svp_next_rule; eauto.
    + intros v' r R' -> HV. eapply HQ; eauto; [right; left; split; auto|]; apply HL; now left.
    + intros v' -> HV. eapply HQ; eauto; [right; right; auto|reflexivity].
  - cbn [wp]. eapply HQ; eauto. destruct HP as [(X & _)|[(X & _)|(X & _)]]; [lia|lia|]. subst. reflexivity.
Qed.

Lemma pgen_segment_rule g p start stop R (Q : pgen -> Prop) : genv_ok g -> pginv p start stop R -> e_size (p_e p) <= p_idx p -> erat_has_next (p_e p) = true ->
  (forall p', pginv p' start stop R -> 0 <= p_idx p' < e_size (p_e p') -> e_size (p_e p') <= 2 ^ 22 -> e_low (p_e p) < e_low (p_e p') -> p_idx p' = 0 -> Q p') ->
  wp (pgen_segment g p) Q.
Proof.
  intros HG (G1 & G2 & G3 & G4 & added & P & G5 & G6 & G7 & G8 & G9) Hidx HN HQ.
  specialize (G9 HN). destruct G9 as (S1 & S2 & R' & L & S3 & S4 & S5).
  destruct G5 as [W|(_ & [(R1 & R2 & R3 & ls & lm & lb & R4)|(R1 & _)])]; [pose proof (within_bound _ _ _ _ _ _ _ W); lia| |congruence].
  set (T := Z.sqrt stop) in *. set (mx := ps_max (p_ps p)) in *.
  assert (HT : 0 <= T < 2 ^ 32). { unfold T. split; [apply Z.sqrt_nonneg|]. apply Z.sqrt_lt_square; lia. }
  assert (HH : 0 <= e_high (p_e p) <= stop).
  { rewrite (ei_high _ _ _ _ _ _ R4), G3. destruct (ei_size _ _ _ _ _ _ R4) as (k & Hk & ES). pose proof (size_bound k Hk). destruct (ei_low _ _ _ _ _ _ R4). lia. }
  assert (HSQ : 0 <= Z.sqrt (e_high (p_e p)) <= T) by (split; [apply Z.sqrt_nonneg|apply Z.sqrt_le_mono; lia]).
  assert (HL : forall x, In x (added ++ L) -> prime x /\ mx < x <= T). { intros x Hx. rewrite <- S5 in Hx. apply sel_in in Hx. intuition lia. }
  assert (HSO : StronglySorted Z.lt (added ++ L)) by (rewrite <- S5; apply sel_sorted).
  unfold pgen_segment. apply wp_bind. eapply pend_next; eauto.
  { intros x Hx. destruct (HL x) as [? ?]; [apply in_app_iff; now right|]. unfold umax. lia. }
  intros q sv2 R2' V2 P2 Q2. apply wp_bind.
  apply (loop_rule _ (fun '((q, sv, e) : Z * svp * erat) => 0 < q /\ same_segment (p_e p) e /\ exists added R L ls lm lb,
     einv e (p_ps p) added ls lm lb /\ svinv (p_ps p) T sv R /\ pend q R L /\ sel (mx + 1) T 7 (T + 1) = added ++ L) (fun '((q, _, _) : Z * svp * erat) => Z.max 0 (T + 1 - q))).
  - intros [[q' sv] e] (J1 & J2 & ad & R3' & L3 & l1 & l2 & l3 & J3 & J4 & J5 & J6). destruct J2 as (U1 & U2 & U3 & U4 & U5 & U6 & U7).
    assert (HL3 : forall x, In x (ad ++ L3) -> prime x /\ mx < x <= T). { intros x Hx. rewrite <- J6 in Hx. apply sel_in in Hx. intuition lia. }
    assert (HSO3 : StronglySorted Z.lt (ad ++ L3)) by (rewrite <- J6; apply sel_sorted).
    destruct (Z.leb_spec q' (Z.sqrt (e_high (p_e p)))) as [Hq|Hq].
    + assert (EL : L3 = q' :: R3'). { destruct J5 as [(X & _)|[(_ & X)|(X & _)]]; [lia|auto|]. subst q'. unfold umax in Hq. lia. }
      destruct (HL3 q') as [Pq Hq2]; [rewrite EL; apply in_app_iff; right; now left|].
      assert (HQQ : q' * q' <= e_high e). { rewrite U5. pose proof (Z.sqrt_spec (e_high (p_e p)) ltac:(lia)) as SS. cbv zeta in SS. apply Z.le_trans with (Z.sqrt (e_high (p_e p)) * Z.sqrt (e_high (p_e p))); [|apply SS]. apply Z.mul_le_mono_nonneg; lia. }
      apply wp_bind. eapply erat_add_rule; eauto; [lia|]. intros e' m1 m2 m3 K1 (X1 & X2 & X3 & X4 & X5 & X6 & X7). apply wp_bind.
      assert (EQ : sel (mx + 1) T 7 (T + 1) = (ad ++ [q']) ++ R3') by (rewrite <- app_assoc; cbn [app]; congruence).
      assert (SG : same_segment (p_e p) e') by (unfold same_segment; repeat split; congruence).
      eapply svp_next_rule; eauto.
      * intros v' r R4' ER HV. cbn [wp]. destruct (HL3 r) as [Pr Hr]. { rewrite EL, ER. apply in_app_iff. right. right. now left. }
        pose proof (prime_ge_2 r Pr). split.
        -- split; [lia|]. split; auto. exists (ad ++ [q']), R4', (r :: R4'), m1, m2, m3. split; auto. split; auto. split; [right; left; split; auto; unfold umax; lia|]. now rewrite <- ER.
        -- assert (q' < r); [|lia]. rewrite EL, ER in HSO3. apply (sorted_app_lt (ad ++ [q']) (r :: R4')).
           ++ now rewrite <- app_assoc.
           ++ apply in_app_iff. right. now left.
           ++ now left.
      * intros v' ER HV. cbn [wp]. split; [|unfold umax; lia]. split; [reflexivity|]. split; auto. exists (ad ++ [q']), [], [], m1, m2, m3. split; auto. split; auto.
        split; [right; right; auto|]. rewrite ER in EQ. exact EQ.
    + cbn [wp]. apply wp_bind. eapply segment_within; eauto.
      * intros x Px Hx Hxx. rewrite U7, S1 in Hx. rewrite U5 in Hxx.
        assert (HXs : x <= Z.sqrt (e_high (p_e p))) by (apply Z.sqrt_le_square; pose proof (prime_ge_2 x Px); lia).
        assert (IN : In x (ad ++ L3)). { rewrite <- J6. apply sel_in. split; auto. fold mx in S2. lia. }
        apply in_app_iff in IN. destruct IN as [IN|IN]; auto. exfalso.
        destruct J5 as [(X & _)|[(_ & X)|(X & X2 & _)]]; [lia| |subst L3; destruct IN].
        rewrite X in IN, HSO3. destruct IN as [<-|IN]; [lia|]. pose proof (sorted_app_lt (ad ++ [q']) R3' ltac:(now rewrite <- app_assoc) q' x ltac:(apply in_app_iff; right; now left) IN). lia.
      * rewrite U1, U2, U4, U7, G2, G3. intros e' F1 F2 F3 F4 F5. cbn [wp]. pose proof (within_bound _ _ _ _ _ _ _ F5) as FB. cbn [p_e p_idx]. apply HQ; cbn [p_e p_idx]; try lia.
        unfold pginv. cbn [p_e p_low p_idx p_prime p_ps p_sv p_init]. split; auto. split; auto. split; auto. split; auto. exists ad, P. rewrite R2 in F5 |- *.
        split; [now left|]. split; auto. split; [intros _; unfold uwrap; symmetry; apply Z.mod_small; lia|]. split; auto.
        intros _. unfold svready. cbn [p_e p_low p_idx p_prime p_ps p_sv p_init]. split; [exact (eq_trans F3 S1)|]. split; [exact S2|]. exists R3', L3. auto.
  - split; auto. split; [unfold same_segment; repeat split|]. exists added, R2', L, ls, lm, lb. auto.
  - lia.
Qed.

Lemma pgen_erat_rule g start stop (Q : pgen -> Prop) : genv_ok g -> 0 <= start <= stop -> stop < 2 ^ 64 ->
  (forall p', pginv p' (e_start (p_e p')) stop (primes_in (Z.max 720 start) stop) -> p_idx p' = umax 64 -> e_size (p_e p') <= 2 ^ 22 -> 0 <= e_low (p_e p') -> Q p') ->
  wp (pgen_erat g (pgen0 start stop)) Q.
Proof.
  intros HG Hs Hst HQ. unfold pgen_erat, pgen0. cbn [p_e p_low p_idx p_prime p_ps p_sv p_init erat0 e_start e_stop]. rewrite max_cached_eq. change (719 + 1) with 720.
  destruct HG as (HG1 & HG2 & HG3). destruct (Z.leb_spec (Z.max 720 start) stop) as [H|H].
  - apply wp_bind. apply erat_init_rule; auto; [lia|]. intros e' ps' EI E1 E2 _ E3 E4 E5. destruct (ei_pre _ _ _ _ _ _ EI) as (PO & PM).
    destruct (ei_size _ _ _ _ _ _ EI) as (k & Hk & ES). pose proof (size_bound k Hk) as SB. destruct (ei_low _ _ _ _ _ _ EI) as (L1 & L2 & L3).
    apply wp_bind. eapply svp_init_rule; [split; eauto|rewrite E2; exact E5|now left|exact PO|lia|lia|]. intros v HV. cbn [wp]. destruct (byte_remainder_eq (Z.max 720 start)) as [_ BB].
    apply HQ; cbn [p_e p_idx]; auto; [|lia]. unfold pginv. cbn [p_e p_low p_idx p_prime p_ps p_sv p_init]. split; auto. split; auto. split; auto. split; [lia|].
    exists [], (e_low e'). rewrite E1. split; [right; split; [unfold umax; lia|]; left; split; [unfold erat_has_next; apply Z.ltb_lt; lia|]; split; auto; split; [lia|eauto]|].
    split; auto. split; [unfold umax; lia|]. split; [symmetry; apply sel_primes_in; lia|].
    intros _. unfold svready. cbn [p_e p_low p_idx p_prime p_ps p_sv p_init]. split; auto. destruct PO as (MX & _). split; [lia|]. eexists _, _. split; [rewrite E2 in HV; exact HV|]. split; [left; auto|]. reflexivity.
  - cbn [wp]. apply HQ; cbn [p_e p_idx erat0 e_size e_low]; auto; [|lia|unfold umax; lia]. unfold pginv. cbn [p_e p_low p_idx p_prime p_ps p_sv p_init erat0 e_start e_stop]. split; auto. split; auto. split; auto. split; [lia|].
    assert (NH : erat_has_next (erat0 start stop) = false). { unfold erat_has_next. cbn [erat0 e_low e_stop]. apply Z.ltb_ge. unfold umax. lia. }
    exists [], (2 ^ 64). split; [right; split; [cbn [erat0 e_size]; unfold umax; lia|]; right; split; auto; lia|]. split; [lia|]. split; [reflexivity|]. split.
    + rewrite sel_none by lia. apply filter_none. intros x Hx. apply in_zrange in Hx. lia.
    + intros X. exfalso. unfold erat0 in NH, X. congruence.
Qed.

(** what a generator still has to deliver *)
Definition pgstate (p : pgen) (stop : Z) (R : list Z) : Prop :=
  (exists start, p = pgen0 start stop /\ 0 <= start <= stop /\ stop < 2 ^ 64 /\ R = primes_in start stop) \/ (pginv p (e_start (p_e p)) stop R /\ e_size (p_e p) <= 2 ^ 22 /\ 0 <= p_idx p /\ 0 <= e_low (p_e p)).
Lemma primes_in_cached start stop : 0 <= start <= stop -> primes_in start stop = primes_in start (Z.min stop 719) ++ primes_in (Z.max 720 start) stop.
Proof.
  intros H. apply sorted_ext; [apply primes_in_sorted| |].
  - destruct (Z.le_gt_cases start 719), (Z.le_gt_cases stop 719).
    + rewrite Z.min_l by lia. replace (primes_in (Z.max 720 start) stop) with (@nil Z); [rewrite app_nil_r; apply primes_in_sorted|]. symmetry. apply filter_none. intros x Hx. apply in_zrange in Hx. lia.
    + rewrite Z.min_r, Z.max_l by lia. change 720 with (719 + 1). rewrite <- (primes_in_split start 719 stop) by lia. apply primes_in_sorted.
    + lia.
    + rewrite Z.min_r, Z.max_r by lia. replace (primes_in start 719) with (@nil Z); [apply primes_in_sorted|]. symmetry. apply filter_none. intros x Hx. apply in_zrange in Hx. lia.
  - intros x. rewrite in_app_iff, !primes_in_in. split; [intros (P & Hx); destruct (Z.le_gt_cases x 719); [left|right]; (split; [auto|lia])|intros [(P & Hx)|(P & Hx)]; (split; [auto|lia])].
Qed.

Lemma sieve_next_rule g p stop R (Q : _ -> Prop) : genv_ok g -> pgstate p stop R -> e_size (p_e p) <= p_idx p ->
  (forall p', pgstate p' stop R -> p_init p' = true -> 0 <= p_idx p' < e_size (p_e p') -> p_idx p' = 0 -> (p_init p = true -> e_low (p_e p) < e_low (p_e p') /\ e_low (p_e p) < stop) -> Q (true, p', [])) ->
  (forall p' l R', R = l ++ R' -> l <> [] -> zlen l <= 256 -> pgstate p' stop R' -> Q (false, p', l)) ->
  (forall p', R = [] -> pgstate p' stop R -> Q (false, p', if stop >=? umax 64 then [umax 64] else [])) ->
  wp (pgen_sieve_next g p) Q.
Proof.
  intros HG HP Hidx HQ1 HQ2 HQ3. unfold pgen_sieve_next. apply wp_bind.
  assert (K : forall p', pginv p' (e_start (p_e p')) stop R -> e_size (p_e p') <= 2 ^ 22 -> e_size (p_e p') <= p_idx p' -> 0 <= p_idx p' /\ 0 <= e_low (p_e p') -> (p_init p = true -> p' = p) ->
    wp (if negb (zlen (@nil Z) =? 0) then Ok (false, p', []) else
        if erat_has_next (p_e p') then p <- pgen_segment g p' ;; Ok (true, p, []) else Ok (false, p', if e_stop (p_e p') >=? umax 64 then [umax 64] else [])) Q).
  { intros p' I1 I2 I3 I4 I5. change (zlen (@nil Z) =? 0) with true. cbn [negb]. destruct (erat_has_next (p_e p')) eqn:HN.
    - apply wp_bind. eapply pgen_segment_rule; eauto. intros p2 J1 J2 J3 J4 J5. cbn [wp]. apply HQ1; auto.
      + right. split; [|split; [auto|lia]]. destruct J1 as (K1 & K2 & K3). rewrite K2. split; auto.
      + apply J1.
      + intros E. rewrite <- (I5 E). split; auto. destruct I1 as (_ & _ & X & _). apply Z.ltb_lt in HN. lia.
    - cbn [wp]. pose proof I1 as (G1 & G2 & G3 & G4 & added & P & G5 & G6 & G7 & G8 & G9). rewrite G3.
      assert (ER : R = []). { destruct G5 as [W|(_ & [(X & _)|(_ & X)])]; [pose proof (within_bound _ _ _ _ _ _ _ W); lia|congruence|]. rewrite G8. apply sel_none. lia. }
      apply HQ3; auto. right. auto. }
  destruct HP as [(start & -> & Hs & Hst & ->)|(I1 & I2 & I3)].
  - cbn [pgen0 p_init p_e erat0 e_start e_stop]. apply wp_bind. apply cached_rule; auto. intros l El Hl. rewrite (proj2 (Z.leb_le _ _)) by lia.
    apply wp_bind. apply pgen_erat_rule; auto. intros p' J1 J2 J3 J4. cbn [wp]. pose proof (primes_in_cached start stop Hs) as EC. rewrite <- El in EC.
    destruct l as [|x l].
    + apply K; auto; rewrite ?J2; try (unfold umax; lia); [now rewrite EC|discriminate].
    + assert (NZ : zlen (x :: l) =? 0 = false) by (apply Z.eqb_neq; rewrite zlen_cons; unfold zlen; lia). rewrite NZ. cbn [negb wp]. eapply HQ2; [exact EC|discriminate|lia|].
      right. split; auto. split; auto. rewrite J2. unfold umax. lia.
  - assert (EI : p_init p = true) by apply I1. rewrite EI. cbn [wp]. apply K; auto.
Qed.

Lemma pgen_fill_next_rule g p stop R (Q : _ -> Prop) : genv_ok g -> pgstate p stop R ->
  (forall p' l R', R = l ++ R' -> l <> [] -> zlen l <= 256 -> pgstate p' stop R' -> Q (p', l)) ->
  (forall p', R = [] -> pgstate p' stop R -> Q (p', if stop >=? umax 64 then [umax 64] else [])) ->
  wp (pgen_fill_next g p) Q.
Proof.
  intros HG HP HQ1 HQ2. unfold pgen_fill_next.
  apply (loop_rule _ (fun p => pgstate p stop R) (fun p => (if p_init p then 0 else 2 ^ 100) + Z.max 0 (stop - e_low (p_e p)) * 2 ^ 24 + Z.max 0 (e_size (p_e p) - p_idx p))).
  - clear p HP. intros p HP.
    assert (WF : forall p2, pgstate p2 stop R -> p_init p2 = true -> 0 <= p_idx p2 < e_size (p_e p2) ->
       (p_init p = false \/ (e_low (p_e p) < e_low (p_e p2) /\ e_low (p_e p) < stop) \/ p2 = p) ->
       wp (' (l, idx, low) <- fill_words g 256 (p_e p2) (p_idx p2) (p_low p2) ;;
           let p := PG (p_e p2) low idx (p_prime p2) (p_ps p2) (p_sv p2) (p_init p2) in
           if zlen l =? 0 then Ok (inl p) else Ok (inr (p, l)))
       (fun x : pgen + pgen * list Z => match x with
         | inl s' => pgstate s' stop R /\ 0 <= (if p_init s' then 0 else 2 ^ 100) + Z.max 0 (stop - e_low (p_e s')) * 2 ^ 24 + Z.max 0 (e_size (p_e s') - p_idx s') <
              (if p_init p then 0 else 2 ^ 100) + Z.max 0 (stop - e_low (p_e p)) * 2 ^ 24 + Z.max 0 (e_size (p_e p) - p_idx p)
         | inr r => Q r end)).
    { intros p2 H2 HI Hidx HM. destruct H2 as [(start & -> & _)|(I1 & I2 & I3)]; [discriminate|].
      destruct I1 as (G1 & G2 & G3 & G4 & added & P & G5 & G6 & G7 & G8 & G9). destruct G5 as [W|(X & _)]; [|lia].
      rewrite G7 by lia. pose proof (within_bound _ _ _ _ _ _ _ W) as WB.
      apply wp_bind. eapply fill_words_rule; eauto; [lia|lia|]. intros l idx' P' Hi HP' El Hl HC. cbv zeta.
      set (p3 := PG (p_e p2) (uwrap 64 P') idx' (p_prime p2) (p_ps p2) (p_sv p2) (p_init p2)).
      assert (ER : R = l ++ sel (e_start (p_e p2)) stop (P' + 7) (stop + 1)).
      { rewrite G8, El. apply sel_cut. lia. }
      assert (H3 : pgstate p3 stop (sel (e_start (p_e p2)) stop (P' + 7) (stop + 1))).
      { right. split; [|split; [exact I2|cbn [p3 p_idx p_e]; lia]]. unfold pginv. cbn [p3 p_e p_low p_idx p_prime p_ps p_sv p_init]. split; auto. split; auto. split; auto. split; auto.
        exists added, P'. split; auto. split; [lia|]. split; auto. }
      destruct l as [|x l].
      - change (zlen (@nil Z) =? 0) with true. cbn [wp]. cbn [app] in ER. split; [now rewrite ER|]. cbn [p3 p_e p_idx p_init]. rewrite HI.
        destruct HM as [HM|[HM|HM]].
        + rewrite HM. lia.
        + destruct (p_init p); lia.
        + subst p2. rewrite HI. lia.
      - assert (NZ : zlen (x :: l) =? 0 = false) by (apply Z.eqb_neq; rewrite zlen_cons; unfold zlen; lia). rewrite NZ. cbn [wp]. eapply HQ1; eauto. discriminate. }
    rewrite Z.geb_leb. destruct (Z.leb_spec (e_size (p_e p)) (p_idx p)) as [Hidx|Hidx].
    + apply wp_bind. eapply sieve_next_rule; [exact HG|exact HP|exact Hidx|..].
      * intros p' J1 J2 J3 J4 J5. apply WF; auto. destruct (p_init p); auto.
      * intros p' l R' E1 E2 E3 E4. cbn [wp]. eapply HQ1; eauto.
      * intros p' E1 E2. cbn [wp]. now apply HQ2.
    + cbn [bind]. destruct HP as [(start & -> & X)|HP]; [cbn in Hidx; unfold umax in Hidx; lia|]. apply WF; auto; [now right|apply HP|lia].
  - exact HP.
  - destruct HP as [(start & -> & Hs & Hst & _)|(I1 & I2 & I3)].
    + cbn [pgen0 p_init p_e erat0 e_low e_size p_idx]. unfold umax. lia.
    + destruct I1 as (G1 & _ & _ & G4 & _). rewrite G1. lia.
Qed.

Lemma sieve_prev_rule g p stop R primes (Q : _ -> Prop) : genv_ok g -> pgstate p stop R -> e_size (p_e p) <= p_idx p ->
  (forall p' l R', R = l ++ R' -> pgstate p' stop R' -> p_init p' = true -> 0 <= p_idx p' < e_size (p_e p') -> (p_init p = true -> e_low (p_e p) < e_low (p_e p') /\ e_low (p_e p) < stop) ->
     Q (true, p', primes ++ l)) ->
  (forall p', Q (false, p', primes ++ R)) ->
  wp (pgen_sieve_prev g p primes) Q.
Proof.
  intros HG HP Hidx HQ1 HQ2. unfold pgen_sieve_prev. apply wp_bind.
  assert (K : forall p' l R', R = l ++ R' -> pginv p' (e_start (p_e p')) stop R' -> e_size (p_e p') <= 2 ^ 22 -> e_size (p_e p') <= p_idx p' -> 0 <= p_idx p' /\ 0 <= e_low (p_e p') ->
    (p_init p = true -> p' = p) ->
    wp (if erat_has_next (p_e p') then p <- pgen_segment g p' ;; Ok (true, p, primes ++ l) else Ok (false, p', primes ++ l)) Q).
  { intros p' l R' ER I1 I2 I3 I4 I5. destruct (erat_has_next (p_e p')) eqn:HN.
    - apply wp_bind. eapply pgen_segment_rule; eauto. intros p2 J1 J2 J3 J4 J5. cbn [wp]. eapply HQ1; eauto.
      + right. split; [|split; [auto|lia]]. destruct J1 as (K1 & K2 & K3). rewrite K2. split; auto.
      + apply J1.
      + intros E. rewrite <- (I5 E). split; auto. destruct I1 as (_ & _ & X & _). apply Z.ltb_lt in HN. lia.
    - cbn [wp]. pose proof I1 as (G1 & G2 & G3 & G4 & added & P & G5 & G6 & G7 & G8 & G9).
      assert (E0 : R' = []). { destruct G5 as [W|(_ & [(X & _)|(_ & X)])]; [pose proof (within_bound _ _ _ _ _ _ _ W); lia|congruence|]. rewrite G8. apply sel_none. lia. }
      rewrite E0, app_nil_r in ER. rewrite <- ER. apply HQ2. }
  destruct HP as [(start & -> & Hs & Hst & ->)|(I1 & I2 & I3)].
  - cbn [pgen0 p_init p_e erat0 e_start e_stop]. apply wp_bind. apply cached_rule; auto. intros l El Hl.
    apply wp_bind. apply pgen_erat_rule; auto. intros p' J1 J2 J3 J4. cbn [wp]. pose proof (primes_in_cached start stop Hs) as EC. rewrite <- El in EC.
    eapply K; eauto; rewrite ?J2; try (unfold umax; lia). discriminate.
  - assert (EI : p_init p = true) by apply I1. rewrite EI. cbn [wp]. replace primes with (primes ++ []) by apply app_nil_r. apply (K p [] R); auto.
Qed.

Lemma decode_all_rule g p stop R primes (Q : _ -> Prop) : genv_ok g -> pgstate p stop R -> p_init p = true -> 0 <= p_idx p < e_size (p_e p) ->
  (forall idx low l R', R = l ++ R' -> e_size (p_e p) <= idx -> pgstate (PG (p_e p) low idx (p_prime p) (p_ps p) (p_sv p) (p_init p)) stop R' -> Q (idx, low, primes ++ l)) ->
  wp (loop (fun '((idx, low, primes) : Z * Z * list Z) =>
          if idx <? e_size (p_e p) then
            bits <- le64 (e_sieve (p_e p)) idx ;;
            primes <- decode g None low bits primes ;;
            Ok (inl (idx + 8, uwrap 64 (low + 8 * 30), primes))
          else Ok (inr (idx, low, primes))) (p_idx p, p_low p, primes)) Q.
Proof.
  intros HG HP HI Hidx HQ. destruct HP as [(start & -> & _)|(I1 & I2 & I3)]; [discriminate|].
  destruct I1 as (G1 & G2 & G3 & G4 & added & P & G5 & G6 & G7 & G8 & G9).
  set (start := e_start (p_e p)) in *.
  apply (loop_rule _ (fun '((idx, low, l) : Z * Z * list Z) => exists P', P <= P' /\ l = primes ++ sel start stop (P + 7) (P' + 7) /\ cursor (p_e p) (p_ps p) added start stop idx P' /\
     0 <= idx /\ (idx < e_size (p_e p) -> low = uwrap 64 P')) (fun '((idx, _, _) : Z * Z * list Z) => Z.max 0 (e_size (p_e p) - idx))).
  - intros [[idx low] l] (P' & J1 & J2 & J3 & J4 & J5). destruct (Z.ltb_spec idx (e_size (p_e p))) as [Hi|Hi].
    + destruct J3 as [W|(X & _)]; [|lia]. rewrite J5 by auto. rewrite <- (bind_assoc (le64 (e_sieve (p_e p)) idx) (fun bits => decode g None (uwrap 64 P') bits l)). apply wp_bind.
      eapply (word_rule g None (p_e p) (p_ps p) added start stop); [exact HG|lia|exact W|exact I|]. intros SL. cbn [wp]. split; [|lia]. exists (P' + 240). split; [lia|]. split.
      * rewrite J2, <- app_assoc. f_equal. replace (P' + 240 + 7) with (P' + 247) by lia. symmetry. apply sel_app. lia.
      * split; [now apply within_next|]. split; [lia|]. intros _. change (8 * 30) with 240. apply uwrap_next.
    + cbn [wp]. rewrite J2. eapply HQ; auto.
      * rewrite G8. apply (sel_cut start stop P P'). lia.
      * right. split; [|split; [exact I2|cbn [p_idx p_e]; lia]]. unfold pginv. cbn [p_e p_low p_idx p_prime p_ps p_sv p_init]. split; auto. split; auto. split; auto. split; auto.
        exists added, P'. split; auto. split; [lia|]. split; auto.
  - exists P. split; [lia|]. split; [now rewrite sel_none, app_nil_r by lia|]. auto with zarith.
  - lia.
Qed.

Lemma pgen_fill_prev_rule g p stop R primes (Q : _ -> Prop) : genv_ok g -> pgstate p stop R -> e_size (p_e p) <= p_idx p -> Q (primes ++ R) -> wp (pgen_fill_prev g p primes) Q.
Proof.
  intros HG HP Hidx HQ. unfold pgen_fill_prev.
  apply (loop_rule _ (fun '((p', primes') : pgen * list Z) => exists R', pgstate p' stop R' /\ e_size (p_e p') <= p_idx p' /\ primes ++ R = primes' ++ R')
     (fun '((p, _) : pgen * list Z) => (if p_init p then 0 else 2 ^ 100) + Z.max 0 (stop - e_low (p_e p)))).
  - clear p HP Hidx. intros [p l] (R' & HP & Hidx & ER). apply wp_bind. eapply sieve_prev_rule; [exact HG|exact HP|exact Hidx|..].
    + intros p' l1 R1 E1 H1 H2 H3 H4. apply wp_bind. eapply decode_all_rule; [exact HG|exact H1|exact H2|exact H3|]. intros idx low l2 R2 E2 H5 H6. cbn [wp].
      split.
      * exists R2. split; auto. split; [exact H5|]. rewrite ER, E1, E2, !app_assoc. reflexivity.
      * cbn [p_init p_e]. rewrite H2. destruct H1 as [(start & -> & _)|(I1 & I2 & I3)]; [discriminate|]. destruct I1 as (_ & _ & _ & G4 & _).
        destruct (p_init p); [specialize (H4 eq_refl)|]; lia.
    + intros p'. cbn [wp]. rewrite <- ER. exact HQ.
  - exists R. auto.
  - destruct HP as [(start & -> & Hs & Hst & _)|(I1 & I2 & I3)].
    + cbn [pgen0 p_init p_e erat0 e_low]. unfold umax. lia.
    + destruct I1 as (G1 & _ & _ & G4 & _). rewrite G1. lia.
Qed.
