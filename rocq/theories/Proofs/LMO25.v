(** Correctness of the models of src/lmo/pi_lmo2.cpp, pi_lmo3.cpp, pi_lmo4.cpp and
    pi_lmo5.cpp. *)
From Coq Require Import ZArith List Bool Lia Znumtheory.
From Verif.Base Require Import Res Word Zl Arr IType Par.
From Verif.Spec Require Import Primes IntSpec LMOSpec S2Spec WheelSpec.
From Verif.Model Require Import Accum Imath Primesieve Tables PhiTiny P2 S1 BitSieve Fenwick Wheel S2 S2Hard Oracles LMO.
From Verif.Proofs Require Import Primes NT LMO Accum Imath Primesieve PhiSum Tables PhiTiny Phi P2 S1 Leaf S2Leaf S2 Fenwick Wheel BitSieve Bounds HardLeaf HardBound HardSieve HardLoops LMO1 DelegliseRivat LMOLeaf LMOSeg LMOQuery LMOSieve.
Import ListNotations.
Open Scope Z_scope.
Local Ltac Zify.zify_post_hook ::= idtac.

(** ** Bit sieves *)
Definition bits_ok (sieve : bitsieve) (seg N low high a : Z) : Prop :=
  bs_size sieve = seg /\ exists F, bs_rep sieve N F /\ forall i, 0 <= i -> low + 2 * i < high -> F i = roughb a (low + 2 * i).

Lemma bits_get sieve seg N low high a i : bits_ok sieve seg N low high a -> high - low <= seg -> 0 <= i < high - low -> (2 | i) ->
  bs_getz sieve i = Ok (Z.b2z (roughb a (low + i))).
Proof.
  intros (S1 & F & R & HF) Hs Hi [h Hh]. unfold bs_getz. replace i with (2 * h) by lia. rewrite (bs_get_ok sieve N F h R) by lia. rewrite bind_Ok.
  rewrite HF by lia. reflexivity.
Qed.
Lemma bits_init sieve seg N F0 c low high : bs_size sieve = seg -> bs_rep sieve N F0 -> N < 2 ^ 58 -> 0 <= c < 10 -> Z.odd low = true -> 1 <= low < 2 ^ 63 ->
  wp (pre_sieve sieve c low) (fun s => bits_ok s seg N low high c).
Proof.
  intros S1 R HN Hc Ho Hl. apply (pre_sieve_ok sieve N F0); auto. intros bs' B1 B2. split; [congruence|]. exists (fun i => roughb c (low + 2 * i)). split; auto.
Qed.
Lemma lmo5_cross_ok y primes sieve seg N low high b it : aget primes b = Ok (pr y b) -> 5 <= b <= pi y -> y < 2 ^ 31 -> Z.odd low = true -> 0 < seg < 2 ^ 62 ->
  1 <= low < high -> high <= low + seg -> high < 2 ^ 62 -> bits_ok sieve seg N low high (b - 1) -> item_at (pr y b) low it ->
  wp (lmo5_cross primes low high b sieve it) (fun '(s', it') => bits_ok s' seg N low high b /\ item_at (pr y b) high it').
Proof.
  intros Hpr Hb Hy Ho Hseg Hl Hh H62 (S1 & F & R & HF) HI. unfold lmo5_cross. rewrite Hpr, bind_Ok. destruct (pr_spec y b ltac:(lia)) as (P1 & P2 & P3).
  set (p := pr y b) in *. assert (H11 : 11 <= p).
  { destruct (Z.lt_ge_cases p 11) as [L|]; auto. exfalso. pose proof (pi_mono p 10 ltac:(lia)) as M. change (pi 10) with 4 in M. lia. }
  apply (wheel_for_rule p low high it _ (fun n (s : bitsieve) => bs_size s = seg /\ bs_rep s N (crossed F low p n))); auto; try lia.
  - split; auto. eapply bs_rep_ext; [exact R|]. intros i Hi. symmetry. apply crossed_low. lia.
  - intros n s Hn HW (Z1 & Z2). destruct (odd_pos low Ho n ltac:(lia) (hit_odd p P1 H11 n HW)) as (i & Ei & Hi).
    replace (n - low) with (2 * i) by lia. apply (bs_unset_ok s N (crossed F low p n) i); auto; [lia|]. intros s' Z1' Z2'. split; [congruence|].
    eapply bs_rep_ext; [exact Z2'|]. intros j Hj. cbv beta. now apply crossed_next.
  - intros n s Hn HW (Z1 & Z2). split; auto. eapply bs_rep_ext; [exact Z2|]. intros j Hj. now apply crossed_skip.
  - intros s it' (Z1 & Z2) HI'. split; auto. split; auto. exists (crossed F low p high). split; auto. intros i Hi Hlt. unfold crossed. rewrite HF by auto.
    destruct (Z.ltb_spec (low + 2 * i) high); [|lia]. cbn [andb]. rewrite <- P2. symmetry. apply rough_next; auto; lia.
Qed.
Lemma wheel_make_gen y primes n low : (forall b, 1 <= b < n -> aget primes b = Ok (pr y b)) -> 1 <= n <= pi y + 1 -> 1 <= y < 2 ^ 31 -> 1 <= low < 2 ^ 62 ->
  wp (wheel_make primes n low) (fun l => exists w, arr l n w /\ forall b, 1 <= b < n -> item_at (pr y b) low (w b)).
Proof.
  intros Hpr Hn Hy Hlow. unfold wheel_make.
  apply (for_rule _ _ _ (fun i l => zlen l = i /\ forall b, 1 <= b < i -> exists it, aget l b = Ok it /\ item_at (pr y b) low it)).
  - pose proof (pi_le y ltac:(lia)). assert (2 ^ 58 < 2 ^ 400) by reflexivity. lia.
  - split; [reflexivity|]. intros b Hb. lia.
  - intros i l Hi (L1 & L2). destruct (pr_spec y i ltac:(lia)) as (P1 & P2 & P3). rewrite Hpr by lia. rewrite bind_Ok. pose proof (pr_ge2 y i ltac:(lia)).
    apply wp_bind. apply wheel_start_ok; [lia|lia|lia|]. intros it HI. apply wp_ok. split; [rewrite zlen_app, L1; reflexivity|].
    intros b Hb. rewrite aget_app. destruct (Z.ltb_spec b (zlen l)); [apply L2; lia|]. replace (b - zlen l) with 0 by lia. exists it. split; [reflexivity|].
    now replace b with i by lia.
  - intros l (L1 & L2). replace (Z.max 1 n) with n in * by lia. exists (fun k => nth (Z.to_nat k) l (0, 0)). split.
    + rewrite <- L1. apply arr_nth.
    + intros b Hb. destruct (L2 b ltac:(lia)) as (it & I1 & I2). rewrite (aget_ok l b (0, 0)) in I1 by lia. congruence.
Qed.

(** ** The sums over the special leaves *)
Lemma hf_1 b n : hf b 1 n = phi_sum n (b - 1).
Proof. unfold hf. replace (phi_sum (1 - 1) (b - 1)) with 0 by reflexivity. ring. Qed.
Lemma qF_hf b lo low n : qF low (b - 1) (hD b lo low) n = hf b lo n.
Proof. unfold qF, hf, hD. ring. Qed.
(** [ar] computes with the representations [r v] of the values v up to K *)
Definition arith (ar : Z -> res Z) (r : Z -> Z) (K : Z) : Prop := 0 <= K /\ r 0 = 0 /\
  (forall v d, Z.abs (v + d) <= K -> ar (r v + d) = Ok (r (v + d))) /\
  (forall w v, Z.abs (w * v) <= K -> ar (w * r v) = Ok (r (w * v))) /\
  (forall v v', Z.abs (v + v') <= K -> ar (r v + r v') = Ok (r (v + v'))) /\
  (forall v v', Z.abs (v - v') <= K -> ar (r v - r v') = Ok (r (v - v'))).
Lemma arith_schk n : 1 <= n -> arith (schk n) (fun v => v) (smax n).
Proof.
  intros Hn. assert (0 < 2 ^ (n - 1)) by (apply Z.pow_pos_nonneg; lia). split; [unfold smax; lia|]. split; [reflexivity|].
  assert (E : forall v, Z.abs v <= smax n -> schk n v = Ok v) by (intros v Hv; apply schk_ok, in_s_abs, Hv). repeat split; auto.
Qed.
Lemma arith_wrap n K : 1 <= n -> 0 <= K -> arith (wrap n) (swrap n) K.
Proof.
  intros Hn HK. assert (0 < 2 ^ (n - 1)) by (apply Z.pow_pos_nonneg; lia). split; [exact HK|]. split; [apply swrap_id; [lia|]; unfold in_s, smin, smax; lia|].
  assert (P : 2 ^ n <> 0) by (apply Z.pow_nonzero; lia). unfold wrap.
  repeat split; intros; f_equal; apply swrap_congr.
  - now rewrite Z.add_mod, swrap_mod, <- Z.add_mod by lia.
  - now rewrite Z.mul_mod, swrap_mod, <- Z.mul_mod by lia.
  - now rewrite Z.add_mod, !swrap_mod, <- Z.add_mod by lia.
  - now rewrite Zminus_mod, !swrap_mod, <- Zminus_mod by lia.
Qed.
Section Ar.
  Context (ar : Z -> res Z) (r : Z -> Z) (K : Z).
  Hypothesis HA : arith ar r K.
  Definition accs (s u acc : Z) : Prop := acc = r s.
  Lemma ar_plus_ok v d : 0 <= v -> 0 <= d -> v + d <= K -> ar_plus ar (r v) d = Ok (r (v + d)).
  Proof. intros. destruct HA as (_ & _ & H2 & _). apply H2. lia. Qed.
  Lemma adds_sub y low high F Ub : adds y low high F r accs K Ub Z.sub (sub_leaf ar).
  Proof.
    intros w n s u acc _ _ -> H1 H2 _. destruct HA as (_ & _ & _ & A1 & _ & A2). unfold sub_leaf. rewrite A1 by exact H1. rewrite bind_Ok, A2 by exact H2. now apply wp_ok.
  Qed.
  Lemma adds_add y low high F Ub : adds y low high F r accs K Ub Z.add (add_leaf ar).
  Proof.
    intros w n s u acc _ _ -> H1 H2 _. destruct HA as (_ & _ & _ & A1 & A2 & _). unfold add_leaf. rewrite A1 by exact H1. rewrite bind_Ok, A2 by exact H2. now apply wp_ok.
  Qed.
End Ar.

Section S2.
  Context (x y : Z) (lpf mut : list Z).
  Hypothesis (Hy : 1 <= y < 2 ^ 31 - 1) (Hyx : y * y <= x) (Hxy : x < 2 ^ 63) (Hlim : 4 <= x / y + 1 < 2 ^ 61).
  Hypothesis (HL : arr lpf (y + 1) lpf_value) (HM : arr mut (y + 1) (fun k => if k =? 0 then 1 else mu k)).
  Let c := Z.min 6 (pi y).
  Let limit := x / y + 1.
  Let primes := prime_table y.
  Context (ar : Z -> res Z) (r : Z -> Z) (K : Z).
  Hypothesis (HAr : arith ar r K) (HK : c < pi y -> S2_abs x y c <= K) (HKp : phi_sum (x / y) 0 <= K).

  Lemma Hpr b : 0 <= b <= pi y -> aget primes b = Ok (pr y b). Proof. apply pr_get. Qed.
  Lemma prod_lim b high : 0 <= b < pi y -> 0 <= high <= limit -> pr y b * high < 2 ^ 63.
  Proof.
    clear Hlim. intros Hb Hh. pose proof (pr_mono y b (pi y) ltac:(lia) ltac:(lia) ltac:(lia)) as M. pose proof (pr_le y (pi y) ltac:(lia) ltac:(lia)).
    assert (L : pr y b * high <= (y - 1) * limit) by (pose proof (pr_le y b ltac:(lia) ltac:(lia)); apply Z.mul_le_mono_nonneg; lia).
    pose proof (Z.mul_div_le x y ltac:(lia)). assert (y <= x / y) by (apply Z.div_le_lower_bound; lia). unfold limit in *. nia.
  Qed.
  Lemma c_6 b : c < b <= pi y -> c = 6 /\ 7 <= b /\ 17 <= pr y b.
  Proof.
    intros Hb. unfold c in *. split; [lia|]. split; [lia|]. destruct (pr_spec y b ltac:(lia)) as (P1 & P2 & P3).
    destruct (Z.lt_ge_cases (pr y b) 17) as [L|]; auto. exfalso. pose proof (pi_mono (pr y b) 16 ltac:(lia)) as M. assert (E : pi 16 = 6) by (vm_compute; reflexivity). lia.
  Qed.
  Lemma c_range : 0 <= c <= pi y. Proof. pose proof (pi_nonneg y). unfold c. lia. Qed.
  Lemma seg_size : exists seg, next_power_of_2 i64 (Z.sqrt limit) = Ok seg /\ (2 | seg) /\ 0 < seg <= 2 ^ 31.
  Proof.
    pose proof (Z.sqrt_nonneg limit). assert (S1 : Z.sqrt limit < 2 ^ 31) by (apply Z.sqrt_lt_square; unfold limit; lia).
    assert (S2 : 2 <= Z.sqrt limit) by (apply Z.sqrt_le_square; unfold limit; lia).
    destruct (wp_inv _ _ (next_power_of_2_ok i64 (Z.sqrt limit) ltac:(cbn; tauto) ltac:(change (tdigits i64 - 1) with 62; lia))) as (seg & E & (k & Hk) & H2 & H3).
    exists seg. split; auto. specialize (H3 (2 ^ 31) ltac:(exists 31; lia) ltac:(lia)). split; [|lia].
    destruct Hk as [Hk ->]. assert (k <> 0) by (intros ->; change (2 ^ 0) with 1 in *; lia). exists (2 ^ (k - 1)). replace (2 ^ (k - 1) * 2) with (2 ^ (k - 1) * 2 ^ 1) by reflexivity.
    rewrite <- Z.pow_add_r by lia. f_equal. ring.
  Qed.

  Definition pok (alive : Z -> Z -> bool) (b pos p : Z) : Prop := alive (pr y b) pos = true -> p = r (hD b 1 pos).
  Lemma pok_dead alive b pos pos' p : (forall p p' low low', prime p -> prime p' -> p <= p' -> 1 <= low <= low' -> alive p' low' = true -> alive p low = true) ->
    1 <= b <= pi y -> 1 <= pos <= pos' -> alive (pr y b) pos = false -> pok alive b pos p -> pok alive b pos' p.
  Proof.
    intros AM Hb Hp A _ A'. exfalso. destruct (pr_spec y b Hb) as (P1 & _ & _). rewrite (AM (pr y b) (pr y b) pos pos') in A; auto; try lia; discriminate.
  Qed.
  Lemma hf_bound b n : 1 <= b -> 0 <= n < limit -> 0 <= hf b 1 n <= K.
  Proof.
    intros Hb Hn. rewrite hf_1. split; [apply phi_sum_nonneg|]. pose proof (phi_sum_diff (b - 1) 0 n ltac:(lia)) as D. change (phi_sum 0 (b - 1)) with 0 in D. change (phi_sum 0 0) with 0 in D.
    pose proof (phi_sum_mono 0 n (x / y) ltac:(unfold limit in Hn; lia)). lia.
  Qed.
  Lemma base_ok b low : 1 <= b -> 1 <= low <= limit -> 0 <= hD b 1 low.
  Proof. intros Hb Hl. apply (hD_bounds b 1 low). lia. Qed.
  Lemma budget : sumr (c + 1) (pi y) (fun b => Wal x y (pr y b) 1 (Z.max 1 limit) (hf b 1)) <= K.
  Proof.
    pose proof HAr as (K0 & _). destruct (Z.le_gt_cases (pi y) c) as [LL|LL]; [now rewrite sumr_empty by lia|]. eapply Z.le_trans; [|exact (HK LL)].
    replace (pi y) with (pi y - 1 + 1) by ring. replace (Z.max 1 limit) with limit by (unfold limit; lia).
    eapply Z.le_trans; [|apply (Wa_sum (fun _ _ => true) x y c y (pi y - 1) limit); unfold c in *; pose proof (pi_nonneg y); lia].
    apply sumr_le. intros b Hb. apply Z.eq_le_incl, Wa_ext. intros n Hn. apply hf_1.
  Qed.
  Lemma room_ok p low high f s : Z.abs s + Wal x y p low high f <= K -> room x y p low high f K (Wal x y p low high (fun _ => 1)) s 0.
  Proof. intros H. split; [exact H|]. cbn [Z.abs]. lia. Qed.
  Lemma qF_ext p b lo low high : Wl x y p low high (qF low (b - 1) (hD b lo low)) = Wl x y p low high (hf b lo).
  Proof. apply W_ext. intros n Hn. apply qF_hf. Qed.
  Lemma qFa_ext p b lo low high : Wal x y p low high (qF low (b - 1) (hD b lo low)) = Wal x y p low high (hf b lo).
  Proof. apply Wa_ext. intros n Hn. apply qF_hf. Qed.
  Lemma seg_post_ok (alive : Z -> Z -> bool) low high b s2 o : 1 <= low < high ->
    seg_post x y r (accs r) low high b (hD b 1 low) s2 0 o -> exists p', o = Some (p', r (s2 + Wl x y (pr y b) low high (hf b 1))) /\ pok alive b high p'.
  Proof.
    intros Hl (acc' & -> & HA). unfold accs in HA. rewrite qF_ext in HA. subst acc'. rewrite qF_hf. exists (r (hf b 1 (high - 1))). split; [reflexivity|]. intros _. reflexivity.
  Qed.
  Lemma all_leaves : sumr (c + 1) (pi y) (fun b => Wl x y (pr y b) 1 (Z.max 1 limit) (hf b 1)) = S2_sum x y c.
  Proof.
    rewrite (S2_sum_Wl x y ltac:(lia) Hyx c (proj1 c_range)). apply sumr_ext. intros b Hb. replace (Z.max 1 limit) with limit by (unfold limit; lia). unfold Wl. apply W_ext.
    intros n Hn. apply hf_1.
  Qed.
  Lemma limit_ok : schk 64 (x / y + 1) = Ok limit.
  Proof. apply schk64. unfold limit in *. lia. Qed.
  Lemma len_primes : zlen primes = pi y + 1. Proof. apply prime_table_len. Qed.
  Lemma pi_y_ok : pi_bsearch primes y = Ok (pi y).
  Proof. apply pi_bsearch_ok; [|lia]. assert (2 ^ 31 < 2 ^ 300) by reflexivity. lia. Qed.

  (** *** pi_lmo2 *)
  Theorem lmo2_S2_ok : lmo2_S2 ar x y c primes lpf mut = Ok (r (S2_sum x y c)).
  Proof.
    apply wp_eq. unfold lmo2_S2. pose proof (x_pos x y ltac:(lia) Hyx). rewrite zdiv_ok by lia. rewrite bind_Ok, limit_ok, bind_Ok, pi_y_ok, bind_Ok. pose proof c_range as Hc.
    assert (P400 : 2 ^ 31 < 2 ^ 400) by reflexivity. pose proof (pi_le y ltac:(lia)). assert (L4 : 4 <= limit < 2 ^ 61) by (unfold limit; lia).
    apply wp_bind. apply (for_rule 1 (c + 1) _ (fun b sv => exists S, arr sv limit S /\ sieved S 0 1 limit (b - 1))).
    - lia.
    - exists (fun _ => 1). split; [apply arr_make; lia|]. intros j Hj Hr. rewrite roughb_le0 by lia. reflexivity.
    - intros b sv Hb (S & A1 & A2). rewrite Hpr by lia. rewrite bind_Ok. destruct (pr_spec y b ltac:(lia)) as (P1 & P2 & P3). apply wp_bind.
      eapply wp_mono; [apply (mark_prime sv 0 1 (pr y b) limit (pr y b) b (pr y b) limit S); auto; try lia; now apply next_ok_first|].
      intros [sv' k'] [(S' & B1 & B2 & _) _]. apply wp_ok. exists S'. split; auto. now replace (b + 1 - 1) with b by ring.
    - intros sv. rewrite Z.max_r by lia. replace (c + 1 - 1) with c by ring. intros HS. apply wp_bind.
      apply (for_rule (c + 1) (pi y) _ (fun b '(sv, s2) => (exists S, arr sv limit S /\ sieved S 0 1 limit (b - 1)) /\
        s2 = r (sumr (c + 1) b (fun b => Wl x y (pr y b) 1 (Z.max 1 limit) (hf b 1))))).
      + lia.
      + replace (c + 1 - 1) with c by ring. split; [exact HS|]. rewrite sumr_empty by lia. symmetry. apply HAr.
      + clear sv HS. intros b [sv s2] Hb [(S & A1 & A2) ->]. rewrite Hpr by lia. rewrite bind_Ok. destruct (pr_spec y b ltac:(lia)) as (P1 & P2 & P3). pose proof (prime_ge_2 _ P1).
        rewrite zdiv_ok by lia. rewrite bind_Ok. apply wp_bind.
        assert (E1 : y / pr y b = Z.max (x / (pr y b * limit)) (y / pr y b)).
        { rewrite Z.max_r; auto. rewrite (Z.mul_comm (pr y b)), <- Z.div_div by lia. apply Z.div_le_mono; [lia|].
          assert (x / limit < y); [|lia]. apply Z.div_lt_upper_bound; [lia|]. unfold limit. pose proof (Z.mul_succ_div_gt x y ltac:(lia)). lia. }
        assert (E2 : y = Z.min (x / (pr y b * 1)) y).
        { rewrite Z.min_r; auto. rewrite Z.mul_1_r. apply Z.div_le_lower_bound; [lia|]. assert (pr y b * y <= y * y) by (apply Z.mul_le_mono_nonneg_r; lia). lia. }
        match goal with |- wp (leaves_m ?q ?a ?l ?m ?x' ?p _ _ ?st ?acc) _ =>
          replace (leaves_m q a l m x' p (y / pr y b) y st acc) with (leaves_m q a l m x' p (Z.max (x / (pr y b * limit)) (y / pr y b)) (Z.min (x / (pr y b * 1)) y) st acc) by (now rewrite <- E1, <- E2) end.
        set (F := qF 0 (b - 1) 0). assert (EF : forall n, F n = hf b 1 n) by (intros n; unfold F, qF; rewrite hf_1; replace (phi_sum (0 - 1) (b - 1)) with 0 by reflexivity; ring).
        set (sp := sumr (c + 1) b (fun b => Wl x y (pr y b) 1 (Z.max 1 limit) (hf b 1))) in *.
        assert (RM : Z.abs sp + Wal x y (pr y b) 1 limit F <= K).
        { eapply Z.le_trans; [|exact budget]. rewrite (sumr_split (c + 1) b (pi y)), (sumr_cons b (pi y)) by lia. rewrite Z.max_r by lia.
          assert (N0 : 0 <= sumr (b + 1) (pi y) (fun b => Wal x y (pr y b) 1 limit (hf b 1))) by (apply sumr_nonneg; intros; apply Wa_nonneg).
          assert (E0 : Wal x y (pr y b) 1 limit F = Wal x y (pr y b) 1 limit (hf b 1)) by (apply Wa_ext; intros; apply EF).
          assert (Z.abs sp <= sumr (c + 1) b (fun b => Wal x y (pr y b) 1 limit (hf b 1))); [|lia].
          unfold sp. rewrite Z.max_r by lia. eapply Z.le_trans; [apply sumr_abs|]. apply sumr_le. intros b' _. apply W_abs. }
        eapply wp_mono; [apply (leaves_m_ok x y ltac:(lia) Hyx (lmo2_query ar sv) (pr y b) 1 limit F (qI r 0 (b - 1) 0 1) P1 P3 ltac:(lia) ltac:(lia)) with (rf := r) (Rep := accs r) (Sb := K) (Ub := Wal x y (pr y b) 1 limit (fun _ => 1)) (s := sp) (u := 0)|]; auto.
        * intros; eapply qI_mono; eauto.
        * intros xn st Hxn HI. unfold lmo2_query. replace xn with (xn - 0) by ring. apply wp_bind.
          eapply wp_mono; [apply (sum_until_ok (ar_plus ar) r (aget sv) 0 limit (b - 1) 0 1 K)|]; auto; try lia.
          { intros i Hi Hi1 _. rewrite (arr_get _ _ _ i A1) by lia. f_equal. apply A2; lia. }
          { apply (ar_plus_ok ar r K HAr). }
          { fold F. rewrite EF. apply hf_bound; lia. }
          { replace (xn - 0) with xn by ring. intros st' [Q1 Q2]. apply wp_ok. auto. }
        * apply adds_sub. exact HAr.
        * now apply room_ok.
        * reflexivity.
        * unfold qI. cbn [fst snd]. split; [lia|]. split; [lia|]. split; [apply Z.divide_1_l|]. unfold qF. replace (phi_sum (0 + 1 - 1) (b - 1)) with 0 by reflexivity. replace (phi_sum (0 - 1) (b - 1)) with 0 by reflexivity. symmetry. apply HAr.
        * intros [st s2] [_ HA]. unfold accs in HA. cbn [snd] in HA. apply wp_bind.
          eapply wp_mono; [apply (mark_prime sv 0 1 (pr y b) limit (pr y b * 2) b (pr y b) limit S); auto; try lia|].
          { destruct (c_6 b ltac:(lia)) as (_ & _ & ?). rewrite Z.mul_comm. apply next_ok_first2; auto. lia. }
          intros [sv' k'] [(S' & B1 & B2 & _) _]. apply wp_ok. split.
          { exists S'. split; auto. now replace (b + 1 - 1) with b by ring. }
          rewrite HA, sumr_snoc by lia. fold sp. f_equal. f_equal. rewrite Z.max_r by lia. unfold Wl. apply W_ext. intros n Hn. apply EF.
      + intros [sv' s2] [_ ->]. apply wp_ok. f_equal. rewrite <- all_leaves. destruct (Z.le_gt_cases (c + 1) (pi y)); [now rewrite Z.max_r by lia|].
        rewrite !sumr_empty by lia. reflexivity.
  Qed.

  (** *** pi_lmo3 *)
  Definition next_item (b pos k : Z) : Prop := if b <=? c then next_ok (pr y b) (pr y b) pos k else next_ok (pr y b) (2 * pr y b) pos k.
  Lemma next_item_first b : 1 <= b < pi y + 1 -> next_item b 1 (pr y b).
  Proof.
    intros Hb. destruct (pr_spec y b ltac:(lia)) as (P1 & _). unfold next_item. destruct (Z.leb_spec b c); [now apply next_ok_first|]. apply next_ok_first2; auto.
    destruct (c_6 b ltac:(lia)) as (_ & _ & ?). lia.
  Qed.
  Lemma next_first b pos k : b <= c -> next_item b pos k <-> next_ok (pr y b) (pr y b) pos k.
  Proof. intros H. unfold next_item. destruct (Z.leb_spec b c); [tauto|lia]. Qed.
  Lemma next_later b pos k : c < b -> next_item b pos k <-> next_ok (pr y b) (2 * pr y b) pos k.
  Proof. intros H. unfold next_item. destruct (Z.leb_spec b c); [lia|tauto]. Qed.
  Lemma sieve_init seg low high next w : 0 < seg -> seg_ok seg 1 limit low high -> arr next (pi y + 1) w -> (forall b, 1 <= b <= c -> next_item b low (w b)) ->
    wp (mark_first primes c low high (amake seg 1) next) (fun '(sieve', next') => (exists S', arr sieve' seg S' /\ sieved S' low low high c /\ forall j, S' j = 0 \/ S' j = 1) /\
      exists w', arr next' (pi y + 1) w' /\ (forall b, 1 <= b <= c -> next_item b high (w' b)) /\ forall b, c < b < pi y + 1 -> w' b = w b).
  Proof.
    intros Hseg (K1 & K2 & K3 & K4) HW HI. pose proof c_range. unfold limit in *.
    eapply wp_mono; [apply (mark_first_ok y primes c low high (amake seg 1) next seg (pi y + 1) (fun _ => 1) w); auto; try lia|].
    - intros b Hb. apply Hpr. lia.
    - apply arr_make. lia.
    - intros j Hj Hr. rewrite roughb_le0 by lia. reflexivity.
    - intros b Hb. apply next_first; [lia|]. auto.
    - intros [sv nx] [A (w' & W1 & W2 & W3)]. split; auto. exists w'. split; auto. split; auto. intros b Hb. apply next_first; [lia|]. auto.
  Qed.

  Theorem lmo3_S2_ok : lmo3_S2 ar x y c primes lpf mut = Ok (r (S2_sum x y c)).
  Proof.
    apply wp_eq. unfold lmo3_S2. pose proof (x_pos x y ltac:(lia) Hyx). rewrite zdiv_ok by lia. rewrite bind_Ok, limit_ok, bind_Ok. destruct seg_size as (seg & E & Hs2 & Hseg).
    rewrite E, bind_Ok, pi_y_ok, bind_Ok. pose proof c_range as Hc. assert (L4 : 4 <= limit < 2 ^ 61) by (unfold limit; lia). apply wp_bind. rewrite len_primes.
    eapply wp_mono; [apply (segments_ok x y c (pi y) seg 1 limit (pi y + 1) (pi y + 1) _ _ _ r K (alive_m x y) (fun _ => True)
      (fun low high a sv => exists S, arr sv seg S /\ sieved S low low high a) next_item (pok (alive_m x y))) with (Q0 := fun _ => 0) (w := pr y)|]; auto; try lia.
    - apply alive_m_mono; auto. lia.
    - intros. now apply (dead_m x y).
    - intros low high _ next w Ks _ HW HI. eapply wp_mono; [apply (sieve_init seg); eauto; lia|]. intros [sv nx] [(S & A1 & A2 & _) R]. split; eauto.
    - apply HAr.
    - exact budget.
    - intros low high b sv p s2 Ks Hb (S & A1 & A2) HP RM. pose proof Ks as (K1 & K2 & K3 & K4).
      eapply wp_mono; [apply (seg_leaves_m_ok x y primes lpf mut Hy Hyx Hpr HL HM (ar_plus ar) r (accs r) (aget sv) low high 1 b (hD b 1 low) p K K (Wal x y (pr y b) low high (fun _ => 1)) s2 0)|]; auto; try lia.
      + apply prod_lim; lia.
      + intros i Hi _ _. rewrite (arr_get _ _ _ i A1) by lia. f_equal. apply A2; lia.
      + apply (ar_plus_ok ar r K HAr).
      + apply base_ok; lia.
      + rewrite qF_hf. apply hf_bound; lia.
      + reflexivity.
      + apply room_ok. now rewrite qFa_ext.
      + apply adds_sub. exact HAr.
      + intros o. cbv beta. destruct (alive_m x y (pr y b) low) eqn:A; auto. apply (seg_post_ok (alive_m x y)); auto.
    - intros low high b sv k Ks Hb A (S & A1 & A2) HI. pose proof Ks as (K1 & K2 & K3 & K4). rewrite Hpr by lia. rewrite bind_Ok. destruct (pr_spec y b ltac:(lia)) as (P1 & P2 & P3).
      apply next_later in HI; [|lia]. destruct (c_6 b ltac:(lia)) as (_ & B7 & _). rewrite (Z.mul_comm (pr y b) 2).
      eapply wp_mono; [apply (mark_prime sv low low k high (2 * pr y b) b (pr y b) seg S); auto; lia|]. intros [sv' k'] [(S' & B1 & B2 & _) N]. split; [eauto|]. apply next_later; [lia|auto].
    - intros b pos pos' p Hb. apply pok_dead; [apply alive_m_mono; auto; lia|lia].
    - apply arr_make. lia.
    - intros b Hb _. symmetry. unfold hD. replace (phi_sum (1 - 1) (b - 1)) with 0 by reflexivity. apply HAr.
    - apply pr_arr.
    - apply next_item_first.
    - intros [phi s2] [_ ->]. apply wp_ok. now rewrite all_leaves.
  Qed.

  (** *** pi_lmo4 *)
  Theorem lmo4_S2_ok : lmo4_S2 ar x y c primes lpf mut = Ok (r (S2_sum x y c)).
  Proof.
    apply wp_eq. unfold lmo4_S2. pose proof (x_pos x y ltac:(lia) Hyx). rewrite zdiv_ok by lia. rewrite bind_Ok, limit_ok, bind_Ok. destruct seg_size as (seg & E & Hs2 & Hseg).
    rewrite E, bind_Ok, pi_y_ok, bind_Ok. pose proof c_range as Hc. assert (L4 : 4 <= limit < 2 ^ 61) by (unfold limit; lia). apply wp_bind. rewrite len_primes.
    eapply wp_mono; [apply (segments_ok x y c (pi y) seg 1 limit (pi y + 1) (pi y + 1) _ _ _ r K (alive_m x y) (fun _ => True)
      (fun low high a v => exists S, arr (fst v) seg S /\ (forall j, 0 <= j < seg -> S j = 0 \/ S j = 1) /\ tree_ok (snd v) seg low S /\ sieved S low low high a) next_item (pok (alive_m x y))) with (Q0 := fun _ => 0) (w := pr y)|]; auto; try lia.
    - apply alive_m_mono; auto. lia.
    - intros. now apply (dead_m x y).
    - intros low high [sv0 tree0] next w Ks _ HW HI. cbn [snd]. apply wp_bind.
      eapply wp_mono; [apply (sieve_init seg low high next w); auto; lia|]. intros [sv nx] [(S & A1 & A2 & A3) (w' & W1 & W2 & W3)]. apply wp_bind. pose proof Ks as (K1 & K2 & K3 & K4).
      apply (bit_init_ok tree0 seg (aget sv) low (fun i => S (2 * i))).
      + lia.
      + lia.
      + lia.
      + intros i Hi. assert (2 * (seg / 2) <= seg) by (apply Z.mul_div_le; lia). split; [replace (i * 2) with (2 * i) by ring; apply (arr_get _ _ _ _ A1); lia|]. destruct (A3 (2 * i)) as [-> | ->]; lia.
      + intros tree HT. apply wp_ok. split; [|exists w'; auto]. exists S. cbn [fst snd]. split; auto.
    - apply HAr.
    - exact budget.
    - intros low high b [sv tree] p s2 Ks Hb (S & A1 & A01 & AT & A2) HP RM. pose proof Ks as (K1 & K2 & K3 & K4). cbn [fst snd] in *. unfold lmo4_leaves. rewrite Hpr by lia. rewrite bind_Ok.
      destruct (pr_spec y b ltac:(lia)) as (P1 & P2 & P3). pose proof (prime_ge_2 _ P1). destruct (c_6 b ltac:(lia)) as (_ & B7 & _).
      rewrite (m_range_ok x y Hy Hyx) by (try lia; apply prod_lim; lia). rewrite bind_Ok. cbv beta iota. unfold alive_m.
      destruct (Z.geb_spec (pr y b) (Z.min (x / (pr y b * low)) y)) as [G|G].
      + apply wp_ok. destruct (Z.ltb_spec (pr y b) (Z.min (x / (pr y b * low)) y)); [lia|reflexivity].
      + assert (A : alive_m x y (pr y b) low = true) by (apply Z.ltb_lt; lia). unfold alive_m in A. rewrite A. fold (alive_m x y (pr y b) low) in A. apply wp_bind.
        assert (Q : forall n, 0 <= n < high - low -> bit_sum tree n = Ok (phi_sum (low + n) (b - 1) - phi_sum (low - 1) (b - 1))) by (intros n Hn; apply (tree_query tree seg (b - 1) low high n S); auto; lia).
        assert (PL : forall n, low <= n < high -> ar_plus ar (r (hD b 1 low)) (phi_sum (low + (n - low)) (b - 1) - phi_sum (low - 1) (b - 1)) = Ok (r (hf b 1 n))).
        { intros n Hn. replace (low + (n - low)) with n by ring. assert (E1 : hD b 1 low + (phi_sum n (b - 1) - phi_sum (low - 1) (b - 1)) = hf b 1 n) by (unfold hD, hf; ring). rewrite <- E1. apply (ar_plus_ok ar r K HAr).
          - apply base_ok; lia.
          - pose proof (phi_sum_mono (b - 1) (low - 1) n ltac:(lia)). lia.
          - rewrite E1. apply hf_bound; lia. }
        eapply wp_mono; [apply (leaves_m_ok x y ltac:(lia) Hyx (lmo4_query ar tree low p) (pr y b) low high (hf b 1) (fun _ _ => True) P1 P3 ltac:(lia) ltac:(lia)) with (rf := r) (Rep := accs r) (Sb := K) (Ub := Wal x y (pr y b) low high (fun _ => 1)) (s := s2) (u := 0)|]; auto.
        * intros xn st Hxn _. unfold lmo4_query. rewrite Q by lia. rewrite bind_Ok, (HP A), PL by lia. rewrite bind_Ok. apply wp_ok. auto.
        * apply adds_sub. exact HAr.
        * now apply room_ok.
        * reflexivity.
        * intros [st s2'] [_ HA]. unfold accs in HA. cbn [snd] in HA. rewrite Q by lia. rewrite bind_Ok. rewrite (HP A). replace (high - 1 - low) with (high - 1 - low) by ring. rewrite (PL (high - 1)) by lia. rewrite bind_Ok. apply wp_ok.
          eexists. split; [rewrite HA; reflexivity|]. intros _. reflexivity.
    - intros low high b [sv tree] k Ks Hb A (S & A1 & A01 & AT & A2) HI. pose proof Ks as (K1 & K2 & K3 & K4). cbn [fst snd] in *. apply next_later in HI; [|lia]. destruct (c_6 b ltac:(lia)) as (_ & B7 & _).
      eapply wp_mono; [apply (lmo4_cross_ok y primes sv tree seg low high b k S); auto; try lia; apply Hpr; lia|]. intros [v' k'] [R N]. split; [exact R|]. apply next_later; [lia|exact N].
    - intros b pos pos' p Hb. apply pok_dead; [apply alive_m_mono; auto; lia|lia].
    - apply arr_make. lia.
    - intros b Hb _. symmetry. unfold hD. replace (phi_sum (1 - 1) (b - 1)) with 0 by reflexivity. apply HAr.
    - apply pr_arr.
    - apply next_item_first.
    - intros [phi s2] [_ ->]. apply wp_ok. now rewrite all_leaves.
  Qed.

  (** *** pi_lmo5 *)
  Theorem lmo5_S2_ok : lmo5_S2 ar x y c primes lpf mut = Ok (r (S2_sum x y c)).
  Proof.
    apply wp_eq. unfold lmo5_S2. pose proof (x_pos x y ltac:(lia) Hyx). rewrite zdiv_ok by lia. rewrite bind_Ok, limit_ok, bind_Ok. destruct seg_size as (seg & E & Hs2 & Hseg).
    rewrite E, bind_Ok. pose proof c_range as Hc. assert (L4 : 4 <= limit < 2 ^ 61) by (unfold limit; lia).
    destruct (bs_make_ok seg) as (N & N1 & N2 & NM); [lia|]. apply wp_bind. eapply wp_mono; [exact NM|]. intros bs [S1 S2]. rewrite len_primes.
    apply wp_bind. eapply wp_mono; [apply (wheel_make_gen y primes (pi y + 1) 1)|]; try lia.
    { intros b Hb. apply Hpr. lia. }
    intros wl (w & AW & HW). apply wp_bind. eapply wp_mono; [apply generate_pi_ok; lia|]. intros pit HP.
    pose proof (Z.sqrt_nonneg y). assert (SY : Z.sqrt y <= y) by (apply Z.sqrt_le_lin; lia).
    rewrite (arr_get _ _ _ _ HP) by lia. rewrite bind_Ok. rewrite (arr_get _ _ _ _ HP) by lia. rewrite bind_Ok. apply wp_bind.
    eapply wp_mono; [apply (segments_ok x y c (pi y) seg 1 limit (pi y + 1) (pi y + 1) _ _ _ r K (alive_l x y) (fun sv => bs_size sv = seg /\ exists F, bs_rep sv N F)
      (fun low high a sv => bits_ok sv seg N low high a) (fun b pos it => item_at (pr y b) pos it \/ b <= c) (pok (alive_l x y))) with (Q0 := fun _ => 0) (w := w)|]; auto; try lia.
    - apply alive_l_mono; auto. lia.
    - intros. now apply (dead_l x y).
    - intros low high sv next w' Ks (Z1 & F & Z2) HW' HI. pose proof Ks as (K1 & K2 & K3 & K4). apply wp_bind.
      eapply wp_mono; [apply (bits_init sv seg N F c low high); auto; try lia; unfold c; lia|]. intros sv' R. apply wp_ok. split; auto. exists w'. split; auto. split; auto. intros; right; lia.
    - apply HAr.
    - exact budget.
    - intros low high b sv p s2 Ks Hb R HP' RM. pose proof Ks as (K1 & K2 & K3 & K4). destruct (c_6 b ltac:(lia)) as (_ & B7 & _).
      assert (HG : forall i, 0 <= i < high - low -> 1 <= low + i -> (2 | i) -> bs_getz sv i = Ok (Z.b2z (roughb (b - 1) (low + i)))) by (intros i Hi _ Hd; apply (bits_get sv seg N low high); auto; lia).
      assert (HS : forall o, (if alive_l x y (pr y b) low then seg_post x y r (accs r) low high b (hD b 1 low) s2 0 o else o = None) ->
        if alive_l x y (pr y b) low then exists p', o = Some (p', r (s2 + Wl x y (pr y b) low high (hf b 1))) /\ pok (alive_l x y) b high p' else o = None).
      { intros o. destruct (alive_l x y (pr y b) low) eqn:A; auto. apply (seg_post_ok (alive_l x y)); auto. }
      destruct (Z.ltb_spec b (pi (Z.sqrt y))) as [L|L].
      + eapply wp_mono; [apply (seg_leaves_m_ok x y primes lpf mut Hy Hyx Hpr HL HM (ar_plus ar) r (accs r) (bs_getz sv) low high 2 b (hD b 1 low) p K K (Wal x y (pr y b) low high (fun _ => 1)) s2 0)|]; auto; try lia.
        * apply prod_lim; lia.
        * right. split; auto. split; auto. lia.
        * apply (ar_plus_ok ar r K HAr).
        * apply base_ok; lia.
        * rewrite qF_hf. apply hf_bound; lia.
        * reflexivity.
        * apply room_ok. now rewrite qFa_ext.
        * intros A. apply HP'. destruct (pr_spec y b ltac:(lia)) as (_ & P2 & _). unfold alive_l. rewrite P2. destruct (Z.ltb_spec b (pi (Z.sqrt y))); [exact A|lia].
        * apply adds_sub. exact HAr.
        * intros o Ho. apply HS. unfold alive_l. destruct (pr_spec y b ltac:(lia)) as (_ & P2 & _). rewrite P2. destruct (Z.ltb_spec b (pi (Z.sqrt y))); [exact Ho|lia].
      + eapply wp_mono; [apply (seg_leaves_l_ok x y primes pit Hy Hyx Hpr (ar_plus ar) r (accs r) (bs_getz sv) low high 2 b (hD b 1 low) p K K (Wal x y (pr y b) low high (fun _ => 1)) s2 0)|]; auto; try lia.
        * apply prod_lim; lia.
        * right. split; auto. split; auto. lia.
        * apply (ar_plus_ok ar r K HAr).
        * apply base_ok; lia.
        * rewrite qF_hf. apply hf_bound; lia.
        * reflexivity.
        * apply room_ok. now rewrite qFa_ext.
        * apply adds_add. exact HAr.
    - intros low high b sv it Ks Hb A R HI. pose proof Ks as (K1 & K2 & K3 & K4). destruct (c_6 b ltac:(lia)) as (_ & B7 & _). destruct HI as [HI|HI]; [|lia].
      eapply wp_mono; [apply (lmo5_cross_ok y primes sv seg N low high b it); auto; try lia; apply Hpr; lia|]. intros [sv' it'] [R' I']. auto.
    - intros low high a sv (Z1 & F & Z2 & _). split; auto. exists F. auto.
    - intros b pos pos' p Hb. apply pok_dead; [apply alive_l_mono; auto; lia|lia].
    - split; auto. eexists. exact S2.
    - apply arr_make. lia.
    - intros b Hb _. symmetry. unfold hD. replace (phi_sum (1 - 1) (b - 1)) with 0 by reflexivity. apply HAr.
    - intros [phi s2] [_ ->]. apply wp_ok. now rewrite all_leaves.
  Qed.
End S2.

(** ** The complete computation *)
(** The environment of a computation for x: y lies where the clamped tuning factor can put
    it and fits into the tables of int32_t. *)
Definition valid_lmo (o : lmo_oracles) (x : Z) : Prop :=
  valid_oracles (lo_base o) /\ 0 <= lo_root6 o <= 2 ^ 22 /\ 0 <= lo_root3 o <= 2 ^ 21 /\
  forall r3 r6, is_root 3 r3 x -> is_root 6 r6 x -> let y := lo_y o r3 r6 in r3 <= y <= r3 * r6 /\ y < 2 ^ 31 - 1.

Lemma lmo_z x r3 r6 y : 3 <= x < 2 ^ 63 -> is_root 3 r3 x -> is_root 6 r6 x -> r3 <= y <= r3 * r6 -> 3 <= x / y < 2 ^ 61 - 1.
Proof.
  intros Hx R3 R6 HY. destruct (y_range x r3 r6 y ltac:(lia) R3 R6 HY) as (Hy & Hyx). destruct R3 as (A0 & A1 & A2), R6 as (B0 & B1 & B2).
  split.
  - apply Z.div_le_lower_bound; [lia|]. destruct (Z.lt_ge_cases x 8) as [L|G].
    + assert (r3 < 2). { apply cube_lt; [lia|lia|]. change (2 ^ 3) with 8. lia. }
      assert (r6 < 2). { apply (Z.pow_lt_mono_l_iff r6 2 6); lia. }
      assert (r3 * r6 <= 1 * 1) by (apply Z.mul_le_mono_nonneg; lia). lia.
    + destruct (Z.le_gt_cases 3 y); [nia|]. lia.
  - apply Z.div_lt_upper_bound; [lia|]. destruct (Z.lt_ge_cases x (2 ^ 60)) as [L|G]; [nia|].
    assert (99 < r3 + 1). { apply cube_lt; [lia|lia|]. eapply Z.lt_trans; [|exact A2]. eapply Z.lt_le_trans; [|exact G]. reflexivity. }
    nia.
Qed.

(** 64-bit reduction of the result hides the one of S2 *)
Lemma swrap_swrap n m a b : 0 < n <= m -> swrap n (a + swrap m b) = swrap n (a + b).
Proof.
  intros H. assert (E : exists k, swrap m b = b + k * 2 ^ n).
  { unfold swrap. assert (M : b mod 2 ^ m = b - b / 2 ^ m * 2 ^ m) by (rewrite Z.mod_eq by (apply Z.pow_nonzero; lia); ring).
    assert (P : 2 ^ m = 2 ^ (m - n) * 2 ^ n) by (rewrite <- Z.pow_add_r by lia; f_equal; ring).
    cbv zeta. rewrite M. destruct (_ <? _).
    - exists (- (b / 2 ^ m * 2 ^ (m - n))). rewrite P at 2. ring.
    - exists (- (b / 2 ^ m * 2 ^ (m - n)) - 2 ^ (m - n)). rewrite P at 2 3. ring. }
  destruct E as [k ->]. unfold swrap. replace (a + (b + k * 2 ^ n)) with (a + b + k * 2 ^ n) by ring. now rewrite Z.mod_add by (apply Z.pow_nonzero; lia).
Qed.

Theorem lmo_main_ok (r : Z -> Z) S2 o x : r 0 = 0 -> (forall a b, swrap 64 (a + r b) = swrap 64 (a + b)) ->
  (forall y lpf mut, 1 <= y < 2 ^ 31 - 1 -> y * y <= x -> x < 2 ^ 63 -> 4 <= x / y + 1 < 2 ^ 61 -> arr lpf (y + 1) lpf_value -> arr mut (y + 1) (fun k => if k =? 0 then 1 else mu k) ->
    S2 x y (Z.min 6 (pi y)) (prime_table y) lpf mut = Ok (r (S2_sum x y (Z.min 6 (pi y))))) ->
  (forall lpf mut, S2 2 1 0 [0] lpf mut = Ok 0) ->
  valid_lmo o x -> x < 2 ^ 63 -> lmo_main S2 o x = Ok (swrap 64 (prime_sum x)).
Proof.
  intros Hr0 Hr HS2 H2 (HO & HR6 & HR3 & HY) Hx63. pose proof HO as (HO1 & HO2 & HO3 & HO4 & HO5). unfold lmo_main. destruct (Z.ltb_spec x 2) as [L|G].
  { now rewrite prime_sum_small by lia. }
  assert (T1 : tmax i128 = 2 ^ 127 - 1) by reflexivity. assert (T2 : tmax i64 = 2 ^ 63 - 1) by reflexivity.
  assert (C1 : 2 ^ 63 < 2 ^ 122) by reflexivity. assert (C2 : 2 ^ 122 < 2 ^ 127 - 1) by reflexivity.
  destruct (iroot_widths i128 6) as (W1 & W2 & W3); [cbn; tauto|cbn; tauto|].
  destruct (iroot_all i128 6 (lo_root6 o) x W1 W2 W3) as (r6 & E6 & R6); [lia|change ((tdigits i128 + 6 - 1) / 6) with 22; lia|]. rewrite E6, bind_Ok.
  destruct (iroot_widths i64 3) as (U1 & U2 & U3); [cbn; tauto|cbn; tauto|].
  destruct (iroot_all i64 3 (lo_root3 o) x U1 U2 U3) as (r3 & E3 & R3); [lia|change ((tdigits i64 + 3 - 1) / 3) with 21; lia|]. rewrite E3, bind_Ok. cbv zeta.
  destruct (HY r3 r6 R3 R6) as (HY1 & HY2). cbv zeta in HY1, HY2. set (y := lo_y o r3 r6) in *.
  destruct (y_range x r3 r6 y G R3 R6 HY1) as (Hy & Hyx). rewrite get_c_ok by lia. rewrite bind_Ok. set (c := Z.min 6 (pi y)).
  assert (Hz : x / Z.max y 1 < 2 ^ 62).
  { rewrite Z.max_l by lia. destruct (Z.eq_dec x 2) as [->|]; [apply Z.div_lt_upper_bound; lia|]. pose proof (lmo_z x r3 r6 y ltac:(lia) R3 R6 HY1). lia. }
  rewrite P2_ok; [|lia|lia|exact Hz|lia|exact HO3|exact HO4]. rewrite bind_Ok. unfold generate_primes. rewrite map_swrap32 by lia.
  apply wp_eq. apply wp_bind. eapply wp_mono; [apply generate_lpf_ok; lia|]. intros lpf Hlpf.
  apply wp_bind. eapply wp_mono; [apply generate_moebius_ok; lia|]. intros mut Hmu.
  pose proof (c_small y) as Hc. fold c in Hc. pose proof (pi_nonneg y).
  rewrite S1_ok; [|exact HO5|lia|lia|exact Hc| |apply c_two; lia|].
  2:{ intros _ _. change (smax 64) with (2 ^ 63 - 1). lia. }
  2:{ intros n' Hn'. apply window_free_64. change (smax 64) with (2 ^ 63 - 1). assert (x / n' <= x) by (apply Z.div_le_upper_bound; nia). lia. }
  rewrite bind_Ok. assert (HS : S2 x y c (prime_table y) lpf mut = Ok (r (S2_sum x y c))).
  { destruct (Z.eq_dec x 2) as [E|N2].
    - assert (y = 1) by nia. clearbody y. subst x y. unfold c. change (pi 1) with 0. change (Z.min 6 0) with 0. change (prime_table 1) with [0]. rewrite H2.
      change (S2_sum 2 1 0) with 0. now rewrite Hr0.
    - apply HS2; auto; try lia. pose proof (lmo_z x r3 r6 y ltac:(lia) R3 R6 HY1). lia. }
  rewrite HS, bind_Ok. rewrite prime_sum_tiny_ok by lia. rewrite bind_Ok. rewrite lmo_formula_ok, bind_Ok. apply wp_ok.
  pose proof (prime_sum_combine x y c ltac:(nia) ltac:(lia) ltac:(unfold c; lia)) as F.
  rewrite <- (Z.add_0_l (swrap 256 _)), swrap_swrap, Z.add_0_l by lia.
  transitivity (swrap 64 (S1_sum x y c + prime_sum y - 1 - P2_sum x y + r (S2_sum x y c))); [f_equal; ring|]. rewrite Hr. f_equal. lia.
Qed.

(** the room that the sums of S2 need *)
Lemma S2_room w x y : w = 64 /\ x <= 2900000000 \/ w = 128 /\ x < 2 ^ 63 -> 1 <= y -> y * y <= x -> x / y + 1 < 2 ^ 61 ->
  (Z.min 6 (pi y) < pi y -> S2_abs x y (Z.min 6 (pi y)) <= smax w) /\ phi_sum (x / y) 0 <= smax w.
Proof.
  intros Hw Hy Hyx Hz. assert (Q : 0 <= x / y <= x) by (split; [apply Z.div_pos; nia|apply Z.div_le_upper_bound; nia]).
  pose proof (phi_sum_sq (x / y) 0 ltac:(lia)) as PS. destruct Hw as [(-> & Hx)|(-> & Hx)]; split.
  - intros HC. eapply Z.le_trans; [apply S2_abs_le; lia|]. assert (YB : y <= 6 * 2 ^ 14).
    { destruct (Z.le_gt_cases y (6 * 2 ^ 14)); auto. assert ((6 * 2 ^ 14) * (6 * 2 ^ 14) <= y * y) by (apply Z.mul_le_mono_nonneg; lia). assert (2900000000 < (6 * 2 ^ 14) * (6 * 2 ^ 14)) by reflexivity. lia. }
    pose proof (G6_square x y 14 ltac:(nia) ltac:(lia) Hyx ltac:(lia) YB) as G. change (smax 64) with (2 ^ 63 - 1).
    assert (XX : x * x <= 2900000000 * 2900000000) by (apply Z.mul_le_mono_nonneg; nia).
    replace (2100 * x * (x + 7)) with (2100 * (x * x) + 14700 * x) in G by ring. lia.
  - eapply Z.le_trans; [exact PS|]. assert (x / y * (x / y) <= 2900000000 * 2900000000) by (apply Z.mul_le_mono_nonneg; lia). change (smax 64) with (2 ^ 63 - 1). lia.
  - intros HC. apply S2_abs_128; lia.
  - eapply Z.le_trans; [exact PS|]. assert (x / y * (x / y) <= 2 ^ 61 * 2 ^ 61) by (apply Z.mul_le_mono_nonneg; lia). change (smax 128) with (2 ^ 127 - 1). lia.
Qed.
Definition S2_spec (S2 : (Z -> res Z) -> Z -> Z -> Z -> list Z -> list Z -> list Z -> res Z) : Prop :=
  (forall x y lpf mut, 1 <= y < 2 ^ 31 - 1 -> y * y <= x -> x < 2 ^ 63 -> 4 <= x / y + 1 < 2 ^ 61 -> arr lpf (y + 1) lpf_value -> arr mut (y + 1) (fun k => if k =? 0 then 1 else mu k) ->
    forall ar r K, arith ar r K -> (Z.min 6 (pi y) < pi y -> S2_abs x y (Z.min 6 (pi y)) <= K) -> phi_sum (x / y) 0 <= K ->
    S2 ar x y (Z.min 6 (pi y)) (prime_table y) lpf mut = Ok (r (S2_sum x y (Z.min 6 (pi y))))) /\
  (forall ar lpf mut, S2 ar 2 1 0 [0] lpf mut = Ok 0).
Lemma pi_lmo_wrap S2 o x : S2_spec S2 -> valid_lmo o x -> x < 2 ^ 63 -> lmo_main (S2 (wrap 64)) o x = Ok (swrap 64 (prime_sum x)).
Proof.
  intros (HS & H2) HV Hx. apply (lmo_main_ok (swrap 64)); auto; [intros; apply swrap_swrap; lia|]. intros y lpf mut Hy Hyx Hxy Hz HL HM. destruct (S2_room 128 x y) as (R1 & R2); try lia.
  apply (HS x y lpf mut Hy Hyx Hxy Hz HL HM _ _ (smax 128)); auto. apply arith_wrap; [lia|discriminate].
Qed.
Lemma pi_lmo_checked w S2 o x : S2_spec S2 -> valid_lmo o x -> w = 64 /\ x <= 2900000000 \/ w = 128 /\ x < 2 ^ 63 -> lmo_main (S2 (schk w)) o x = Ok (swrap 64 (prime_sum x)).
Proof.
  intros (HS & H2) HV Hx. apply (lmo_main_ok (fun v => v)); auto; [|lia]. intros y lpf mut Hy Hyx Hxy Hz HL HM. destruct (S2_room w x y) as (R1 & R2); try lia.
  apply (HS x y lpf mut Hy Hyx Hxy Hz HL HM _ (fun v => v) (smax w)); auto. apply arith_schk. lia.
Qed.
Lemma lmo2_spec : S2_spec lmo2_S2.
Proof. split; [intros; now apply (lmo2_S2_ok x y lpf mut) with (K := K)|intros; vm_compute; reflexivity]. Qed.
Lemma lmo3_spec : S2_spec lmo3_S2.
Proof. split; [intros; now apply (lmo3_S2_ok x y lpf mut) with (K := K)|intros; vm_compute; reflexivity]. Qed.
Lemma lmo4_spec : S2_spec lmo4_S2.
Proof. split; [intros; now apply (lmo4_S2_ok x y lpf mut) with (K := K)|intros; vm_compute; reflexivity]. Qed.
Lemma lmo5_spec : S2_spec lmo5_S2.
Proof. split; [intros; now apply (lmo5_S2_ok x y lpf mut) with (K := K)|intros; vm_compute; reflexivity]. Qed.

Theorem pi_lmo2_ok o x : valid_lmo o x -> x < 2 ^ 63 -> pi_lmo2 o x = Ok (swrap 64 (prime_sum x)).
Proof. apply pi_lmo_wrap, lmo2_spec. Qed.
Theorem pi_lmo3_ok o x : valid_lmo o x -> x < 2 ^ 63 -> pi_lmo3 o x = Ok (swrap 64 (prime_sum x)).
Proof. apply pi_lmo_wrap, lmo3_spec. Qed.
Theorem pi_lmo4_ok o x : valid_lmo o x -> x < 2 ^ 63 -> pi_lmo4 o x = Ok (swrap 64 (prime_sum x)).
Proof. intros HV Hx. apply pi_lmo_checked; auto. apply lmo4_spec. Qed.
Theorem pi_lmo5_ok o x : valid_lmo o x -> x < 2 ^ 63 -> pi_lmo5 o x = Ok (swrap 64 (prime_sum x)).
Proof. apply pi_lmo_wrap, lmo5_spec. Qed.
(** up to 2900000000 no operation of the 64-bit versions overflows *)
Theorem pi_lmo_strict_ok o x : valid_lmo o x -> x <= 2900000000 ->
  pi_lmo2_strict o x = Ok (prime_sum x) /\ pi_lmo3_strict o x = Ok (prime_sum x) /\ pi_lmo5_strict o x = Ok (prime_sum x).
Proof.
  intros HV Hx. assert (B : 0 <= prime_sum x <= 2900000000 * 2900000000).
  { split; [apply prime_sum_nonneg|]. destruct (Z.lt_ge_cases x 2); [rewrite prime_sum_small by lia; lia|].
    pose proof (prime_sum_le x ltac:(lia)).
    assert (x * x <= 2900000000 * 2900000000) by (apply Z.mul_le_mono_nonneg; lia). lia. }
  assert (E : swrap 64 (prime_sum x) = prime_sum x) by (apply swrap_id; [lia|]; unfold in_s; change (smin 64) with (- 2 ^ 63); change (smax 64) with (2 ^ 63 - 1); lia).
  rewrite <- E. repeat split; apply pi_lmo_checked; auto; [apply lmo2_spec|apply lmo3_spec|apply lmo5_spec].
Qed.

Theorem pi_lmo_fits o x : valid_lmo o x -> x < 2 ^ 63 -> prime_sum x < 2 ^ 63 ->
  pi_lmo2 o x = Ok (prime_sum x) /\ pi_lmo3 o x = Ok (prime_sum x) /\ pi_lmo4 o x = Ok (prime_sum x) /\ pi_lmo5 o x = Ok (prime_sum x).
Proof.
  intros HV Hx HF. rewrite pi_lmo2_ok, pi_lmo3_ok, pi_lmo4_ok, pi_lmo5_ok by auto. pose proof (prime_sum_nonneg x).
  rewrite swrap_id by (try lia; unfold in_s; change (smin 64) with (- 2 ^ 63); change (smax 64) with (2 ^ 63 - 1); lia). auto.
Qed.
Theorem lmo_y_range x y r3 r6 : x < 2 ^ 62 -> is_root 3 r3 x -> is_root 6 r6 x -> r3 <= y <= r3 * r6 -> y < 2 ^ 31 - 1.
Proof.
  intros Hx (A0 & A1 & A2) (B0 & B1 & B2) Hy.
  assert (r3 < 1664511). { apply cube_lt; [lia|lia|]. eapply Z.le_lt_trans; [exact A1|]. eapply Z.lt_trans; [exact Hx|]. reflexivity. }
  assert (r6 < 1291). { apply (proj2 (Z.pow_lt_mono_l_iff r6 1291 6 ltac:(lia) ltac:(lia) ltac:(lia))). eapply Z.le_lt_trans; [exact B1|]. eapply Z.lt_trans; [exact Hx|]. reflexivity. }
  assert (r3 * r6 <= 1664510 * 1290) by (apply Z.mul_le_mono_nonneg; lia). lia.
Qed.
