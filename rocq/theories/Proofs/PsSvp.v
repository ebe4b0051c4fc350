(** SievingPrimes delivers the sieving primes in order. *)
From Coq Require Import ZArith List Lia Bool Znumtheory Sorted.
From Verif.Base Require Import Res Word Zl Each.
From Verif.Model Require Import PsTables PsMath PsErat PsGen.
From Verif.Spec Require Import PsSpec PsRunSpec PsGenSpec Primes.
From Verif.Proofs Require Import Primes NT PsWheel PsMathP PsAdd PsPre PsErat PsSeg PsWord.
Import ListNotations.
Open Scope Z_scope.
Local Ltac Zify.zify_post_hook ::= idtac.

(** *** tinySieve *)
Definition tiny_ok (n : Z) (t : list bool) : Prop :=
  zlen t = n + 1 /\ forall m, 3 <= m <= n -> Z.odd m = true -> aget t m = Ok (primeb m).
Definition sieved (i m : Z) : Prop := exists d, prime d /\ 3 <= d < i /\ d * d <= m /\ (d | m).
Lemma prime_odd p : prime p -> 3 <= p -> Z.odd p = true.
Proof.
  intros P H. destruct (Z.odd p) eqn:E; auto. rewrite <- Z.negb_even in E. apply negb_false_iff, Z.even_spec in E. destruct E as [k E].
  exfalso. assert (D : (2 | p)) by (exists k; lia). apply prime_div_prime in D; auto using prime_2. lia.
Qed.
Lemma sieved_prime i m : prime m -> ~ sieved i m.
Proof. intros P (d & Pd & Hd & Hdd & D). apply prime_div_prime in D; auto. subst d. nia. Qed.
Lemma sieved_comp i m : 3 <= m -> Z.odd m = true -> m < i * i -> 0 < i -> ~ prime m -> sieved i m.
Proof.
  intros Hm Ho Hi Hi0 NP. destruct (composite_divisor m ltac:(lia) NP) as (d & Pd & D & Hdd). exists d. pose proof (prime_ge_2 d Pd).
  assert (d <> 2). { intros ->. destruct D as [k ->]. rewrite Z.odd_mul in Ho. cbn in Ho. rewrite andb_false_r in Ho. discriminate. }
  split; auto. split; [split; [lia|nia]|]. split; auto.
Qed.
Lemma tiny_sieve_rule n (Q : list bool -> Prop) : 0 <= n < 2 ^ 64 -> (forall t, tiny_ok n t -> Q t) -> wp (tiny_sieve n) Q.
Proof.
  intros Hn HQ. unfold tiny_sieve.
  apply (loop_rule _ (fun '((i, t) : Z * list bool) => 3 <= i /\ Z.odd i = true /\ zlen t = n + 1 /\
     forall m, 3 <= m <= n -> Z.odd m = true -> exists b, aget t m = Ok b /\ (b = false <-> sieved i m)) (fun '((i, _) : Z * list bool) => Z.max 0 (n + 3 - i))).
  - intros [i t] (I1 & I2 & I3 & I4). destruct (Z.leb_spec (i * i) n) as [Hi|Hi].
    + assert (Hin : 3 <= i <= n) by nia. destruct (I4 i Hin I2) as (b & Eb & Sb). rewrite Eb. cbn [bind].
      assert (PB : b = true <-> prime i).
      { split; [intros ->|intros P].
        - destruct (prime_dec' i) as [|NP]; auto. exfalso. assert (true = false); [|discriminate]. apply Sb. apply sieved_comp; auto; nia.
        - destruct b; auto. exfalso. now apply (sieved_prime i i P), Sb. }
      apply wp_bind.
      assert (W : wp (if b then for_step (i * i) (n + 1) (i * 2) (fun j t => aset t j false) t else Ok t) (fun t' => zlen t' = n + 1 /\
         forall m, 3 <= m <= n -> Z.odd m = true -> exists b, aget t' m = Ok b /\ (b = false <-> sieved (i + 2) m))).
      { assert (ODD : forall d, prime d -> 3 <= d < i + 2 -> d < i \/ d = i).
        { intros d Pd Hd. destruct (Z.eq_dec d (i + 1)) as [->|]; [|lia]. pose proof (prime_odd _ Pd ltac:(lia)) as O. rewrite Z.add_1_r, Z.odd_succ, <- Z.negb_odd, I2 in O. discriminate. }
        destruct b.
        - assert (Pi : prime i) by now apply PB.
          apply for_step_rule with (Inv := fun j t' => zlen t' = n + 1 /\ forall m, 3 <= m <= n -> Z.odd m = true -> exists b, aget t' m = Ok b /\ (b = false <-> sieved i m \/ ((i | m) /\ i * i <= m < j))).
          + lia.
          + lia.
          + split; auto. intros m Hm Om. destruct (I4 m Hm Om) as (b & E1 & E2). exists b. split; auto. rewrite E2. split; [auto|]. intros [|[_ X]]; [auto|lia].
          + intros j t' Hj Dj (J1 & J2). apply wp_aset; [lia|]. intros t2 Hl Hg. split; [lia|]. intros m Hm Om. rewrite Hg. destruct (Z.eqb_spec m j) as [->|Nm].
            * exists false. split; auto. split; auto. intros _. right. split; [|nia]. destruct Dj as [k Dj]. exists (i + 2 * k). lia.
            * destruct (J2 m Hm Om) as (b & E1 & E2). exists b. split; auto. rewrite E2. split.
              -- intros [|[D X]]; auto. right. split; auto. nia.
              -- intros [|[D X]]; auto. destruct (Z.lt_ge_cases m j) as [|G]; [right; split; auto; lia|]. exfalso. destruct D as [k ->]. destruct Dj as [k2 Dj].
                 assert (Ok1 : Z.odd k = true) by (rewrite Z.odd_mul in Om; apply andb_true_iff in Om; tauto).
                 assert (EJ : j = (i + 2 * k2) * i) by lia. assert (K1 : i + 2 * k2 < k) by nia. assert (K2 : k < i + 2 * k2 + 2) by nia.
                 rewrite Z.odd_spec in Ok1, I2. destruct Ok1 as [u ->]. destruct I2 as [v ->]. lia.
          + intros j t' Hj1 Hj2 Dj _ (J1 & J2). split; auto. intros m Hm Om. destruct (J2 m Hm Om) as (b & E1 & E2). exists b. split; auto. rewrite E2. split.
            * intros [(d & X1 & X2 & X3)|[D X]]; [exists d; split; auto; split; [lia|auto]|]. exists i. split; auto. split; [lia|]. split; [lia|auto].
            * intros (d & X1 & X2 & X3 & X4). destruct (ODD d X1 X2) as [L| ->]; [left; exists d; split; auto; split; [lia|auto]|right; split; auto; lia].
        - cbn [wp]. split; auto. intros m Hm Om. destruct (I4 m Hm Om) as (b & E1 & E2). exists b. split; auto. rewrite E2. split.
          + intros (d & X1 & X2 & X3). exists d. split; auto. split; [lia|auto].
          + intros (d & X1 & X2 & X3 & X4). destruct (ODD d X1 X2) as [L| ->]; [exists d; split; auto; split; [lia|auto]|]. exfalso. apply PB in X1. discriminate. }
      eapply wp_mono; [exact W|]. intros t' (W1 & W2). cbn [wp]. split; [|nia]. split; [lia|]. split; [|auto]. now rewrite Z.odd_add, I2.
    + cbn [wp]. apply HQ. split; auto. intros m Hm Om. destruct (I4 m Hm Om) as (b & E1 & E2). rewrite E1. f_equal. destruct (primeb m) eqn:Pm.
      * apply primeb_spec in Pm. destruct b; auto. exfalso. now apply (sieved_prime i m Pm), E2.
      * apply primeb_false in Pm. apply E2. apply sieved_comp; auto; lia.
  - split; [lia|]. split; [reflexivity|]. split; [apply amake_len; lia|]. intros m Hm Om. exists true. split; [apply amake_get; lia|]. split; [discriminate|].
    intros (d & _ & X & _). lia.
  - lia.
Qed.

(** *** Reading primes off a segment *)
(** what follows behind the current segment: the next one, at P, or the end *)
Definition rest (e : erat) (ps : presieve) (added : list Z) (stop P : Z) : Prop :=
  (erat_has_next e = true /\ e_low e = P /\ P + 7 <= stop /\ exists ls lm lb, einv e ps added ls lm lb) \/ (erat_has_next e = false /\ stop < P + 7).
(** the bytes from idx on show the primes from P + 7 on *)
Definition within (e : erat) (ps : presieve) (added : list Z) (start stop idx P : Z) : Prop :=
  exists L, P = L + 30 * idx /\ 0 <= idx < e_size e /\ idx mod 8 = 0 /\ 0 <= L /\ L mod 30 = 0 /\ e_size e <= 2 ^ 22 /\
    shows_primes (e_sieve e) (8 * ((e_size e + 7) / 8)) L start stop /\
    (e_size e mod 8 = 0 \/ stop < L + 30 * e_size e + 7) /\ L + 30 * e_size e - 23 <= stop /\ rest e ps added stop (L + 30 * e_size e).

Lemma rest_beyond e ps added stop P P' : rest e ps added stop P -> P <= P' -> stop < P + 7 -> rest e ps added stop P'.
Proof. intros [(H1 & H2 & H3 & H4)|(H1 & H2)] HP HS; [lia|]. right. split; auto. lia. Qed.

Lemma word_rule g cap e ps added start stop idx P acc (Q : list Z -> Prop) : genv_ok g -> stop < 2 ^ 64 -> within e ps added start stop idx P ->
  (match cap with Some c => zlen acc <= c - 64 | None => True end) ->
  (zlen (sel start stop (P + 7) (P + 247)) <= 64 -> Q (acc ++ sel start stop (P + 7) (P + 247))) ->
  wp (bits <- le64 (e_sieve e) idx ;; decode g cap (uwrap 64 P) bits acc) Q.
Proof.
  intros HG Hst (L & EP & Hi & I8 & HL0 & HL & HS & SH & HE & HT0 & HR) Hc HQ. apply wp_bind.
  assert (HB : forall j, 0 <= j < 8 -> 0 <= idx + j < 8 * ((e_size e + 7) / 8)).
  { intros j Hj. pose proof (Z.div_mod (e_size e + 7) 8 ltac:(lia)). pose proof (Z.mod_pos_bound (e_size e + 7) 8 ltac:(lia)).
    pose proof (Z.div_mod idx 8 ltac:(lia)). lia. }
  apply le64_rule.
  - intros j Hj. destruct (SH (idx + j) (HB j Hj)) as (b & E & Hb & _). eauto.
  - intros w Hw HT. pose proof (set_bits_len w) as SL.
    assert (PT : forall k, 0 <= k < 64 -> let m := P + bit_value k in Z.testbit w k = primeb m && (start <=? m) && (m <=? stop)).
    { intros k Hk. pose proof (Z.div_mod k 8 ltac:(lia)). pose proof (Z.mod_pos_bound k 8 ltac:(lia)).
      destruct (SH (idx + k / 8) (HB (k / 8) ltac:(lia))) as (b & E & Hb & Tb). rewrite (HT k b Hk E), (Tb (k mod 8)) by lia. cbv zeta. unfold bit_value.
      replace (L + 30 * (idx + k / 8) + off (k mod 8)) with (P + (30 * (k / 8) + off (k mod 8))) by lia. reflexivity. }
    assert (P30 : P mod 30 = 0) by (rewrite EP; replace (L + 30 * idx) with (L + idx * 30) by ring; rewrite Z.mod_add by lia; auto).
    assert (EM : map (fun k => uwrap 64 (uwrap 64 P + bit_value k)) (set_bits w) = sel start stop (P + 7) (P + 247)).
    { rewrite <- (word_sel w P start stop) by (auto; lia). apply map_ext. intros k. unfold uwrap. now rewrite Zplus_mod_idemp_l. }
    apply decode_rule; auto.
    + destruct cap as [c|]; auto. lia.
    + rewrite EM. apply HQ. rewrite <- EM. unfold zlen. rewrite map_length. exact SL.
Qed.

(** after a word: within the segment or behind it *)
Definition cursor (e : erat) (ps : presieve) (added : list Z) (start stop idx P : Z) : Prop :=
  within e ps added start stop idx P \/ (e_size e <= idx /\ rest e ps added stop P).
Lemma within_next e ps added start stop idx P : within e ps added start stop idx P -> cursor e ps added start stop (idx + 8) (P + 240).
Proof.
  intros (L & EP & Hi & I8 & HL0 & HL & HS & SH & HE & HT0 & HR). destruct (Z.lt_ge_cases (idx + 8) (e_size e)) as [H|H].
  - left. exists L. repeat split; auto; try lia. rewrite Zplus_mod, I8. reflexivity.
  - right. split; auto. destruct HE as [S8|HE].
    + assert (idx + 8 = e_size e). { pose proof (Z.div_mod idx 8 ltac:(lia)). pose proof (Z.div_mod (e_size e) 8 ltac:(lia)). lia. }
      replace (P + 240) with (L + 30 * e_size e) by lia. exact HR.
    + eapply rest_beyond; [exact HR|lia|lia].
Qed.
Lemma bind_assoc {A B C} (m : res A) (f : A -> res B) (k : B -> res C) : bind (bind m f) k = bind m (fun x => bind (f x) k).
Proof. destruct m; reflexivity. Qed.
Lemma uwrap_next P d : uwrap 64 (uwrap 64 P + d) = uwrap 64 (P + d).
Proof. unfold uwrap. now rewrite Zplus_mod_idemp_l. Qed.

Lemma within_bound e ps added start stop idx P : within e ps added start stop idx P -> 0 <= P <= stop /\ 0 <= idx < e_size e /\ e_size e <= 2 ^ 22.
Proof. intros (L & EP & Hi & I8 & HL0 & HL & HS & SH & HE & HT0 & HR). lia. Qed.

Lemma fill_words_rule g cap e ps added start stop idx P (Q : _ -> Prop) : genv_ok g -> stop < 2 ^ 64 -> within e ps added start stop idx P -> 64 <= cap ->
  (forall l idx' P', idx < idx' -> P + 240 <= P' <= stop + 240 -> l = sel start stop (P + 7) (P' + 7) -> zlen l <= cap -> cursor e ps added start stop idx' P' -> Q (l, idx', uwrap 64 P')) ->
  wp (fill_words g cap e idx (uwrap 64 P)) Q.
Proof.
  intros HG Hst HW Hcap HQ. unfold fill_words.
  apply (loop_rule _ (fun '((acc, idx', low) : list Z * Z * Z) => exists P', idx <= idx' /\ P <= P' /\ acc = sel start stop (P + 7) (P' + 7) /\ zlen acc <= cap - 64 /\ low = uwrap 64 P' /\
     within e ps added start stop idx' P') (fun '((_, idx', _) : list Z * Z * Z) => e_size e - idx')).
  - intros [[acc idx'] low] (P' & I0 & I1 & I2 & I3 & -> & I5). pose proof (within_bound _ _ _ _ _ _ _ I5) as IB.
    rewrite <- (bind_assoc (le64 (e_sieve e) idx') (fun bits => decode g (Some cap) (uwrap 64 P') bits acc)). apply wp_bind.
    eapply word_rule; [exact HG|exact Hst|exact I5|cbn; lia|]. intros SL.
    assert (EA : acc ++ sel start stop (P' + 7) (P' + 247) = sel start stop (P + 7) (P' + 240 + 7)).
    { rewrite I2. replace (P' + 240 + 7) with (P' + 247) by lia. symmetry. apply sel_app. lia. }
    rewrite EA. cbv zeta. change (8 * 30) with 240. rewrite uwrap_next. pose proof (within_next _ _ _ _ _ _ _ I5) as [W|W].
    + pose proof (within_bound _ _ _ _ _ _ _ W) as WB. rewrite (proj2 (Z.ltb_lt _ _)) by lia. rewrite andb_true_r.
      destruct (Z.leb_spec (zlen (sel start stop (P + 7) (P' + 240 + 7))) (cap - 64)).
      * cbn [wp]. split; [|lia]. exists (P' + 240). repeat split; auto; lia.
      * cbn [wp]. apply HQ; auto; try lia; [|now left]. rewrite <- EA, zlen_app. lia.
    + destruct W as [W1 W2]. rewrite (proj2 (Z.ltb_ge _ _)) by lia. rewrite andb_false_r. cbn [wp]. apply HQ; auto; try lia; [|right; auto]. rewrite <- EA, zlen_app. lia.
  - exists P. split; [lia|]. split; [lia|]. split; [now rewrite sel_none by lia|]. split; [unfold zlen; cbn; lia|]. auto.
  - pose proof (within_bound _ _ _ _ _ _ _ HW). lia.
Qed.

(** *** One segment *)
Lemma segment_within e ps added ls lm lb (Q : erat -> Prop) : einv e ps added ls lm lb ->
  (forall p, prime p -> e_maxpre e < p -> p * p <= e_high e -> In p added) ->
  (forall e', e_start e' = e_start e -> e_stop e' = e_stop e -> e_maxpre e' = e_maxpre e -> e_low e < e_low e' -> within e' ps added (e_start e) (e_stop e) 0 (e_low e) -> Q e') ->
  wp (erat_segment e ps) Q.
Proof.
  intros HI Hall HQ. eapply erat_segment_rule; eauto. intros e' ls' lm' lb' E1 E2 E3 E4 E5 _ SH HC. assert (HLT : e_low e < e_low e').
  { destruct (ei_size _ _ _ _ _ _ HI) as (k & Hk & ES). pose proof (size_bound k Hk). destruct (ei_low _ _ _ _ _ _ HI). destruct HC as [(C1 & C2 & C3 & C4)|(C1 & C2 & C3 & C4)]; lia. }
  apply HQ; auto.
  destruct (ei_size _ _ _ _ _ _ HI) as (k & Hk & ES). destruct (ei_low _ _ _ _ _ _ HI) as (L1 & L2 & L3). pose proof (size_bound k Hk) as SB. rewrite <- ES in SB.
  exists (e_low e). split; [lia|]. split; [lia|]. split; [reflexivity|]. split; [auto|]. split; [auto|]. split; [lia|]. split; [exact SH|].
  destruct HC as [(C1 & C2 & C3 & C4)|(C1 & C2 & C3 & C4)].
  - split; [right; lia|]. split; [lia|]. right. split; [|lia]. unfold erat_has_next. rewrite E2, C2. apply Z.ltb_irrefl.
  - destruct (ei_low _ _ _ _ _ _ C4) as (M1 & M2 & M3). rewrite E2 in M3. split; [left|split; [lia|]].
    + rewrite C3, ES. replace k with (3 + (k - 3)) by lia. rewrite Z.pow_add_r by lia. change (2 ^ 3) with 8. rewrite Z.mul_comm. apply Z.mod_mul. lia.
    + left. rewrite C3, <- C2. split; [unfold erat_has_next; rewrite E2; apply Z.ltb_lt; lia|]. split; auto. split; [lia|]. eauto.
Qed.

(** *** SievingPrimes *)
Definition svinv (ps : presieve) (T : Z) (v : svp) (R : list Z) : Prop :=
  e_start (v_e v) = ps_max ps + 1 /\ e_stop (v_e v) = T /\ T < 2 ^ 32 /\ e_maxpre (v_e v) = ps_max ps /\ 7 <= ps_max ps /\
  tiny_ok (Z.sqrt T) (v_tiny v) /\ Z.odd (v_tidx v) = true /\ ps_max ps < v_tidx v /\
  exists added P, cursor (v_e v) ps added (ps_max ps + 1) T (v_idx v) P /\ v_low v = P /\ 0 <= P <= T + 240 /\
    (forall p, prime p -> ps_max ps < p < v_tidx v -> In p added) /\
    0 <= v_i v <= zlen (v_primes v) /\ skipn (Z.to_nat (v_i v)) (v_primes v) ++ sel (ps_max ps + 1) T (P + 7) (T + 1) = R.
Definition svend (ps : presieve) (T : Z) (v : svp) (R : list Z) : Prop :=
  R = [] /\ v_i v = 0 /\ v_primes v = [umax 64] /\ svinv ps T (SV (v_e v) 1 (v_low v) (v_tidx v) (v_idx v) (v_primes v) (v_tiny v)) [].

Lemma svp_fill_rule g ps T v R (Q : svp -> Prop) : genv_ok g -> svinv ps T v R -> v_i v = zlen (v_primes v) ->
  (forall v', svinv ps T v' R -> v_low v < v_low v' <= T + 240 -> Q v') -> (forall v', svend ps T v' R -> v_low v' = v_low v -> Q v') ->
  wp (svp_fill g v ps) Q.
Proof.
  intros HG (V1 & V2 & V3 & V4 & V5 & V6 & V7 & V8 & added & P & V9 & V10 & V11 & V12 & V13 & V14) Hi HQ HE.
  assert (EI : skipn (Z.to_nat (v_i v)) (v_primes v) = []) by (rewrite Hi; unfold zlen; rewrite Nat2Z.id; apply skipn_all).
  rewrite EI in V14. cbn [app] in V14.
  assert (WF : forall e tidx idx added P low, P = low -> 0 <= P -> within e ps added (ps_max ps + 1) T idx P -> e_start e = ps_max ps + 1 -> e_stop e = T -> e_maxpre e = ps_max ps ->
     v_low v = P -> Z.odd tidx = true -> ps_max ps < tidx -> (forall p, prime p -> ps_max ps < p < tidx -> In p added) -> sel (ps_max ps + 1) T (P + 7) (T + 1) = R ->
     wp (' (l, idx, low) <- fill_words g 128 e idx low ;; Ok (SV e 0 low tidx idx l (v_tiny v))) Q).
  { intros e tidx idx added' P' low EL HP' W W1 W2 W3 EV W4 W5 W6 ER. subst low. apply wp_bind. replace P' with (uwrap 64 P') at 1.
    2: { unfold uwrap. apply Z.mod_small. pose proof (within_bound _ _ _ _ _ _ _ W). lia. }
    eapply fill_words_rule; eauto; [lia|lia|]. intros l idx' P2 _ HP2 El Hl HC. cbn [wp].
    assert (EU : uwrap 64 P2 = P2) by (unfold uwrap; apply Z.mod_small; lia). rewrite EU.
    apply HQ; [|cbn [v_low]; lia]. unfold svinv. cbn [v_e v_i v_low v_tidx v_idx v_primes v_tiny].
    repeat (split; [solve [auto]|]). exists added', P2. repeat (split; [solve [auto|lia|unfold zlen; lia]|]).
    cbn [Z.to_nat skipn]. rewrite El, <- ER. destruct (Z.lt_ge_cases (P2 + 7) (T + 1)).
    - symmetry. apply sel_app. lia.
    - rewrite (sel_none _ _ (P2 + 7)) by lia. rewrite app_nil_r. destruct (Z.lt_ge_cases (P' + 7) (T + 1)).
      + rewrite (sel_app _ _ (P' + 7) (T + 1) (P2 + 7)) by lia. rewrite (sel_none _ _ (T + 1)) by lia. apply app_nil_r.
      + rewrite !sel_none by lia. reflexivity. }
  unfold svp_fill. rewrite Z.geb_leb. destruct V9 as [W|(W1 & W2)].
  - pose proof (within_bound _ _ _ _ _ _ _ W) as WB. rewrite (proj2 (Z.leb_gt _ _)) by lia. cbn [bind]. apply (WF (v_e v) (v_tidx v) (v_idx v) added P (v_low v)); auto; lia.
  - rewrite (proj2 (Z.leb_le _ _)) by lia. apply wp_bind. unfold svp_segment. destruct W2 as [(R1 & R2 & R3 & ls & lm & lb & R4)|(R1 & R2)]; rewrite R1.
    + apply wp_bind. assert (HH : e_high (v_e v) <= T) by (rewrite (ei_high _ _ _ _ _ _ R4); lia).
      apply (loop_rule _ (fun '((i, e) : Z * erat) => Z.odd i = true /\ ps_max ps < i /\ same_segment (v_e v) e /\
         exists added ls lm lb, einv e ps added ls lm lb /\ forall p, prime p -> ps_max ps < p < i -> In p added) (fun '((i, _) : Z * erat) => Z.max 0 (T + 2 - i))).
      * intros [i e] (J1 & J2 & J3 & ad & ls' & lm' & lb' & J4 & J5). destruct J3 as (S1 & S2 & S3 & S4 & S5 & S6 & S7).
        destruct (Z.leb_spec (i * i) (e_high (v_e v))) as [Hii|Hii].
        -- assert (Hin : 3 <= i <= Z.sqrt T) by (split; [lia|]; apply Z.sqrt_le_square; lia).
           destruct V6 as [T1 T2]. rewrite (T2 i Hin J1). cbn [bind]. assert (HM : 0 <= Z.max 0 (T + 2 - (i + 2)) < Z.max 0 (T + 2 - i)) by nia.
           destruct (primeb i) eqn:Pi.
           ++ apply primeb_spec in Pi. apply wp_bind. eapply erat_add_rule; eauto; [lia|lia|]. intros e' l1 l2 l3 K1 (U1 & U2 & U3 & U4 & U5 & U6 & U7). cbn [wp].
              split; [|lia]. split; [now rewrite Z.odd_add, J1|]. split; [lia|]. split; [unfold same_segment; repeat split; congruence|]. exists (ad ++ [i]), l1, l2, l3. split; auto.
              intros p Pp Hp. apply in_app_iff. destruct (Z.eq_dec p i) as [->|]; [right; now left|]. left. apply J5; auto.
              destruct (Z.eq_dec p (i + 1)) as [->|]; [|lia]. pose proof (prime_odd _ Pp ltac:(lia)) as O. rewrite Z.add_1_r, Z.odd_succ, <- Z.negb_odd, J1 in O. discriminate.
           ++ cbn [bind wp]. split; [|lia]. split; [now rewrite Z.odd_add, J1|]. split; [lia|]. split; [unfold same_segment; repeat split; congruence|]. exists ad, ls', lm', lb'. split; auto.
              intros p Pp Hp. apply J5; auto. apply primeb_false in Pi. destruct (Z.eq_dec p i) as [->|]; [contradiction|].
              destruct (Z.eq_dec p (i + 1)) as [->|]; [|lia]. pose proof (prime_odd _ Pp ltac:(lia)) as O. rewrite Z.add_1_r, Z.odd_succ, <- Z.negb_odd, J1 in O. discriminate.
        -- cbn [wp]. apply wp_bind. eapply segment_within; eauto.
           ++ intros p Pp Hp Hpp. apply J5; auto. rewrite S7, V4 in Hp. split; auto. rewrite S5 in Hpp. nia.
           ++ rewrite S1, S2, S4, S7, V1, V2, V4. intros e' F1 F2 F3 _ F4. cbn [wp v_e v_low v_idx v_tidx]. rewrite R2 in F4. apply (WF e' i 0 ad P (v_low v)); auto; lia.
      * split; auto. split; auto. split; [unfold same_segment; repeat split|]. exists added, ls, lm, lb. auto.
      * lia.
    + cbn [wp]. apply HE; [|reflexivity]. unfold svend. cbn [v_e v_i v_low v_tidx v_idx v_primes v_tiny]. rewrite sel_none in V14 by lia.
      split; auto. split; auto. split; auto. unfold svinv. cbn [v_e v_i v_low v_tidx v_idx v_primes v_tiny].
      repeat (split; [solve [auto]|]). exists added, P. split; [right; split; auto; right; auto|]. repeat (split; [solve [auto]|]). split; [unfold zlen; cbn; lia|].
      cbn [Z.to_nat Pos.to_nat Pos.iter_op Nat.add skipn app]. rewrite sel_none by lia. reflexivity.
Qed.

Lemma svp_next_rule g ps T v R (Q : _ -> Prop) : genv_ok g -> svinv ps T v R ->
  (forall v' r R', R = r :: R' -> svinv ps T v' R' -> Q (r, v')) -> (forall v', R = [] -> svinv ps T v' [] -> Q (umax 64, v')) ->
  wp (svp_next g v ps) Q.
Proof.
  intros HG HV HQ HE. unfold svp_next. apply wp_bind.
  apply (loop_rule _ (fun v => svinv ps T v R \/ svend ps T v R)
    (fun v => Z.max 0 (T + 300 - v_low v) * 2 + (if v_i v >=? zlen (v_primes v) then 1 else 0))).
  - intros v' [HI|HI].
    + rewrite Z.geb_leb. destruct (Z.leb_spec (zlen (v_primes v')) (v_i v')) as [Hz|Hz].
      * apply wp_bind. assert (Hi : v_i v' = zlen (v_primes v')). { destruct HI as (_ & _ & _ & _ & _ & _ & _ & _ & ad & P & _ & _ & _ & _ & X & _). lia. }
        eapply svp_fill_rule; eauto.
        -- intros v2 I2 L2. cbn [wp]. split; [now left|]. destruct (v_i v2 >=? zlen (v_primes v2)); lia.
        -- intros v2 I2 L2. cbn [wp]. split; [now right|]. destruct I2 as (_ & I3 & I4 & _). rewrite I3, I4, L2. change (0 >=? zlen [umax 64]) with false. lia.
      * cbn [wp]. destruct v' as [e i low tidx idx primes tiny]. destruct HI as (U1 & U2 & U3 & U4 & U5 & U6 & U7 & U8 & ad & P & U9 & U10 & U11 & U12 & U13 & U14).
        cbn [v_e v_i v_low v_tidx v_idx v_primes v_tiny] in *.
        apply wp_bind. apply wp_aget; [lia|]. intros x Hx.
        assert (SK : skipn (Z.to_nat i) primes = x :: skipn (Z.to_nat (i + 1)) primes).
        { unfold aget in Hx. rewrite (proj2 (Z.ltb_ge i 0)) in Hx by lia. replace (Z.to_nat (i + 1)) with (S (Z.to_nat i)) by lia. destruct (nth_error primes (Z.to_nat i)) eqn:NE; [|discriminate].
          injection Hx as ->. clear - NE. revert NE. generalize (Z.to_nat i) as n. induction primes as [|a l IH]; intros [|n] NE; cbn in NE; try discriminate; [injection NE as ->; reflexivity|]. cbn [skipn]. now apply IH. }
        rewrite SK in U14. cbn [wp]. eapply HQ; [symmetry; exact U14|]. unfold svinv. cbn [v_e v_i v_low v_tidx v_idx v_primes v_tiny].
        repeat (split; [solve [auto]|]). exists ad, P. repeat (split; [solve [auto|lia]|]). reflexivity.
    + destruct HI as (I1 & I2 & I3 & I4). rewrite I2, I3. change (0 >=? zlen [umax 64]) with false. cbn [wp]. rewrite I2, I3. change (aget [umax 64] 0) with (Ok (umax 64)). cbn [bind wp].
      apply HE; auto. destruct v' as [e i low tidx idx primes tiny]. cbn [v_e v_i v_low v_tidx v_idx v_primes v_tiny] in *. subst. exact I4.
  - now left.
  - destruct HV as (_ & _ & X & _ & _ & _ & _ & _ & ad & P & _ & Y & Z1 & _). destruct (v_i v >=? zlen (v_primes v)); lia.
Qed.

Lemma presieve_stays start stop start' stop' ps0 ps : presieve_init start stop ps0 = Ok ps -> ps0 = presieve0 \/ pre_ok ps0 -> 0 <= stop ->
  0 <= stop' - start' < 2 ^ 64 -> stop' - start' <= Z.sqrt stop -> Z.sqrt stop' <= Z.sqrt stop -> presieve_init start' stop' ps = Ok ps.
Proof.
  intros E H0 Hs H1 H2 H3. unfold presieve_init in E |- *. set (t := Z.max _ _ / 100) in E. set (t' := Z.max _ _ / 100).
  assert (HT : t' <= t). { unfold t, t'. apply Z.div_le_mono; [lia|]. unfold uwrap. rewrite (Z.mod_small (stop' - start')) by lia. lia. }
  clearbody t t'.
  assert (M : forall l : list Z, lower_bound_count l t' <= lower_bound_count l t).
  { intros l. unfold lower_bound_count. induction l as [|a l IH]; [cbn; lia|]. cbn [filter]. destruct (Z.ltb_spec a t'), (Z.ltb_spec a t); rewrite ?zlen_cons in *; lia. }
  assert (I : forall t, 0 <= lower_bound_count (removelast pre_products) t < 5).
  { intros t0. unfold lower_bound_count. split; [unfold zlen; lia|].
    assert (G : forall (f : Z -> bool) (l : list Z), zlen (filter f l) <= zlen l).
    { intros f. induction l as [|a l IH]; [cbn; lia|]. cbn [filter]. destruct (f a); rewrite !zlen_cons in *; lia. }
    specialize (G (fun x => x <? t0) (removelast pre_products)). change (zlen (removelast pre_products)) with 4 in G. lia. }
  pose proof (I t) as I1. pose proof (I t') as I2. specialize (M (removelast pre_products)).
  destruct (good_products _ I1) as (p & prod & E1 & E2 & G & P). destruct (good_products _ I2) as (p' & prod' & E1' & E2' & G' & P').
  rewrite E1 in E. rewrite E1'. cbn [bind] in *.
  assert (PP : p' <= p).
  { clear - E1 E1' M I1 I2. revert M I1 I2 E1 E1'. generalize (lower_bound_count (removelast pre_products) t) as a. generalize (lower_bound_count (removelast pre_products) t') as b.
    intros b a M I1 I2 E1 E2.
    assert (A : a = 0 \/ a = 1 \/ a = 2 \/ a = 3 \/ a = 4) by lia. assert (B : b = 0 \/ b = 1 \/ b = 2 \/ b = 3 \/ b = 4) by lia.
    destruct A as [->|[->|[->|[->| ->]]]]; destruct B as [->|[->|[->|[->| ->]]]]; try lia; vm_compute in E1, E2; injection E1 as <-; injection E2 as <-; lia. }
  assert (PM : p <= ps_max ps).
  { rewrite E2 in E. cbn [bind] in E. rewrite Z.gtb_ltb in E. destruct (Z.ltb_spec (ps_max ps0) p).
    - assert (W : wp (presieve_buffer p prod) (fun ps => pre_ok ps /\ ps_max ps = p)) by (apply presieve_buffer_ok; auto). rewrite E in W. cbn in W. lia.
    - injection E as ->. lia. }
  rewrite Z.gtb_ltb, (proj2 (Z.ltb_ge _ _)) by lia. reflexivity.
Qed.

Lemma svp_init_rule g e ps start ps0 (Q : _ -> Prop) : genv_ok g -> presieve_init start (e_stop e) ps0 = Ok ps -> ps0 = presieve0 \/ pre_ok ps0 -> pre_ok ps ->
  720 <= e_stop e < 2 ^ 64 -> 0 <= e_size e < 2 ^ 64 ->
  (forall v, svinv ps (Z.sqrt (e_stop e)) v (sel (ps_max ps + 1) (Z.sqrt (e_stop e)) 7 (Z.sqrt (e_stop e) + 1)) -> Q (v, ps)) ->
  wp (svp_init g e ps svp0) Q.
Proof.
  intros HG EP H0 HP Hst Hsz HQ. unfold svp_init. set (T := Z.sqrt (e_stop e)) in *. pose proof HP as HP'. destruct HP' as (MX & _).
  assert (HT : 26 <= T < 2 ^ 32). { unfold T. split; [apply Z.sqrt_le_square; lia|apply Z.sqrt_lt_square; lia]. }
  assert (EU : uwrap 64 (ps_max ps + 1) = ps_max ps + 1) by (unfold uwrap; apply Z.mod_small; lia). rewrite EU.
  assert (HTT : Z.sqrt T <= T) by (apply Z.sqrt_le_lin; lia).
  apply wp_bind. apply erat_init_rule; auto; try lia.
  { rewrite Z.shiftr_div_pow2 by lia. split; [apply Z.div_pos; lia|]. apply Z.div_lt_upper_bound; lia. }
  intros ve ps' EI E1 E2 _ E3 E4 E5.
  assert (EQ : ps' = ps). { pose proof (presieve_stays start (e_stop e) (ps_max ps + 1) T ps0 ps EP H0 ltac:(lia) ltac:(lia) ltac:(lia) ltac:(lia)) as X. congruence. }
  subst ps'. apply wp_bind. rewrite E2. pose proof (Z.sqrt_nonneg T). apply tiny_sieve_rule; [lia|]. intros t Ht. cbn [wp]. apply HQ.
  unfold svinv, svp0. cbn [v_e v_i v_low v_tidx v_idx v_primes v_tiny]. rewrite E1.
  destruct (ei_pre _ _ _ _ _ _ EI) as (_ & E6). destruct (ei_low _ _ _ _ _ _ EI) as (L1 & L2 & L3). destruct (byte_remainder_eq (ps_max ps + 1)) as [_ BB].
  assert (E7 : e_low ve = 0). { pose proof (Z.div_mod (e_low ve) 30 ltac:(lia)). lia. }
  destruct (ei_size _ _ _ _ _ _ EI) as (k & Hk & ES). pose proof (size_bound k Hk) as SB.
  set (i := ps_max ps + 1 + Z.land (umax 64 - (ps_max ps + 1)) 1).
  assert (HI : Z.odd i = true /\ ps_max ps < i <= ps_max ps + 2).
  { unfold i. assert (C : ps_max ps = 7 \/ ps_max ps = 8 \/ ps_max ps = 9 \/ ps_max ps = 10 \/ ps_max ps = 11 \/ ps_max ps = 12 \/ ps_max ps = 13 \/ ps_max ps = 14 \/ ps_max ps = 15 \/ ps_max ps = 16 \/ ps_max ps = 17 \/ ps_max ps = 18 \/ ps_max ps = 19) by lia.
    repeat (destruct C as [->|C]; [vm_compute; intuition discriminate|]). rewrite C. vm_compute; intuition discriminate. }
  split; auto. split; auto. split; [lia|]. split; auto. split; [lia|]. split; auto. split; [apply HI|]. split; [lia|].
  exists [], 0. split; [right; split; [unfold umax; lia|]; left; split; [unfold erat_has_next; rewrite E2; apply Z.ltb_lt; lia|]; split; [lia|]; split; [lia|]; eauto|].
  split; auto. split; [lia|]. split.
  { intros p Pp Hp. exfalso. assert (p = ps_max ps + 1) by lia. assert (i = ps_max ps + 2) by lia. pose proof (prime_odd p Pp ltac:(lia)) as O.
    destruct HI as [HI _]. replace i with (Z.succ p) in HI by lia. rewrite Z.odd_succ, <- Z.negb_odd, O in HI. discriminate. }
  split; [unfold zlen; cbn; lia|]. reflexivity.
Qed.
