(** Correctness of the model of src/lmo/pi_lmo_parallel1.cpp. *)
From Coq Require Import ZArith List Bool Lia Znumtheory.
From Verif.Base Require Import Res Word Zl Arr IType Par.
From Verif.Spec Require Import Primes IntSpec LMOSpec S2Spec WheelSpec TilingSpec.
From Verif.Model Require Import Accum Imath Primesieve Tables PhiTiny P2 S1 BitSieve Fenwick Wheel S2 S2LoadBalancer S2Hard Oracles LMO LMOParallel.
From Verif.Proofs Require Import Primes NT LMO Accum Imath Primesieve PhiSum Tables PhiTiny Phi P2 S1 Leaf S2Leaf S2 Fenwick Wheel BitSieve Bounds HardLeaf HardBound HardSieve S2LoadBalancer HardLoops LMO1 DelegliseRivat LMOLeaf LMOSeg LMOQuery LMOSieve LMO25.
Import ListNotations.
Open Scope Z_scope.
Local Ltac Zify.zify_post_hook ::= idtac.

Lemma arr_map {A B} (f : A -> B) l n F : arr l n F -> arr (map f l) n (fun k => f (F k)).
Proof.
  intros [H1 H2]. split; [now rewrite zlen_map|]. intros k Hk. rewrite aget_map, (H2 k Hk). reflexivity.
Qed.

Definition pairs (s u : Z) (acc : Z * Z) : Prop := acc = (s, u).
Section Pair.
  Context (y lo hi : Z) (f : Z -> Z).
  Hypothesis (Hy : 1 <= y < 2 ^ 31) (Hf : forall n, lo <= n < hi -> 0 <= f n <= 2 ^ 118).
  Lemma pair_mul w n : lo <= n < hi -> Z.abs w <= y * y -> Z.abs (w * f n) <= smax 256 -> t_mul 256 (f n) w = Ok (w * f n).
  Proof.
    intros Hn Hw H. specialize (Hf n Hn). assert (y * y <= 2 ^ 31 * 2 ^ 31) by (apply Z.mul_le_mono_nonneg; lia). rewrite (Z.mul_comm w) in *.
    change (smax 256) with (2 ^ 255 - 1) in *. apply t_mul_ok; [apply width_256| | |exact H]; change (smax 256) with (2 ^ 255 - 1); lia.
  Qed.
  Lemma adds_sub_pair : adds y lo hi f (fun v => v) pairs (smax 256) (2 ^ 125) Z.sub sub_pair.
  Proof.
    intros w n s u acc Hn Hw -> H1 H2 H3. unfold sub_pair. rewrite pair_mul by auto. rewrite bind_Ok. cbn [fst snd].
    rewrite t_sub_ok by (apply width_256 || exact H2). rewrite bind_Ok. rewrite t_sub_ok; [|apply width_256|change (smax 256) with (2 ^ 255 - 1); lia]. rewrite bind_Ok. now apply wp_ok.
  Qed.
  Lemma adds_add_pair : adds y lo hi f (fun v => v) pairs (smax 256) (2 ^ 125) Z.add add_pair.
  Proof.
    intros w n s u acc Hn Hw -> H1 H2 H3. unfold add_pair. rewrite pair_mul by auto. rewrite bind_Ok. cbn [fst snd].
    rewrite t_add_ok by (apply width_256 || exact H2). rewrite bind_Ok. rewrite t_add_ok; [|apply width_256|change (smax 256) with (2 ^ 255 - 1); lia]. rewrite bind_Ok. now apply wp_ok.
  Qed.
End Pair.

Section Par.
  Context (x y : Z) (lpf mut pit : list Z).
  Hypothesis (Hy : 1 <= y < 2 ^ 31 - 1) (Hyx : y * y <= x) (Hxy : x < 2 ^ 63) (Hlim : x / y + 1 < 2 ^ 57).
  Hypothesis (HL : arr lpf (y + 1) lpf_value) (HM : arr mut (y + 1) (fun k => if k =? 0 then 1 else mu k)) (HP : arr pit (y + 1) pi).
  Let c := Z.min 6 (pi y).
  Let limit := x / y + 1.
  Let primes := prime_table y.
  Let env := {| l_x := x; l_y := y; l_c := c; l_pi := pit; l_primes := primes; l_lpf := lpf; l_mu := mut |}.
  Let Wb := Wl x y.
  Let alive := alive_l x y.
  Let L := pi y.

  Definition pairs_ok (lo b pos : Z) (p : Z * Z) : Prop := (alive (pr y b) pos = true -> fst p = hD b lo pos) /\ snd p = Wb (pr y b) lo pos (fun _ => 1) /\ 0 <= fst p <= hD 1 lo pos.

  Definition thread_spec (e e' : Z) (r : Z * list Z * list Z) : Prop :=
    exists n P M, 0 <= n <= L + 1 /\ arr (snd r) n P /\ arr (snd (fst r)) n M /\
      (forall b, 0 <= b < n -> M b = if (c <? b) && (b <? L) then Wb (pr y b) e e' (fun _ => 1) else 0) /\
      (forall b, c < b < n -> b < L -> alive (pr y b) e' = true -> P b = hD b e e') /\ (forall b, 0 <= b < n -> 0 <= P b <= hD 1 e e') /\
      fst (fst r) = sumr (c + 1) L (fun b => Wb (pr y b) e e' (hf b e)) /\
      (forall b, c < b < L -> n <= b -> (forall g, Wb (pr y b) e e' g = 0) /\ (alive (pr y b) e' = true -> hD b e e' = 0)).

  (** ** Bounds of the accumulators *)
  Let phib (b n : Z) : Z := phi_sum n (b - 1).
  Let Wab := Wa (fun _ _ => true) x y.
  Lemma L_range : 0 <= c <= L /\ L < 2 ^ 31.
  Proof. pose proof (c_range x y) as C. fold c in C. pose proof (pi_le y ltac:(lia)). unfold L. lia. Qed.

  Lemma par_budget : sumr (c + 1) L (fun b => Wab (pr y b) 1 limit (phib b)) <= smax 256.
  Proof.
    pose proof L_range as LR. replace L with (L - 1 + 1) by ring. destruct (Z.le_gt_cases L c) as [LL|LL].
    { rewrite sumr_empty by lia. discriminate. }
    eapply Z.le_trans; [apply (Wa_sum (fun _ _ => true) x y c y (L - 1) limit); unfold L; lia|].
    apply S2_abs_256; [unfold c, L in *; lia|lia|lia|]. assert (2 ^ 63 < 2 ^ 108) by reflexivity. lia.
  Qed.
  Lemma mu_fits b lo hi : c < b < L -> Wab (pr y b) lo hi (fun _ => 1) <= 2 ^ 125.
  Proof.
    intros Hb. pose proof L_range. destruct (pr_spec y b ltac:(unfold L in *; lia)) as (P1 & P2 & P3). pose proof (prime_ge_2 _ P1) as P4. set (p := pr y b) in *.
    assert (Hyp : 0 <= y / p <= y) by (split; [apply Z.div_pos; lia|apply Z.div_le_upper_bound; nia]).
    unfold Wab. eapply Z.le_trans; [apply (Wa_le _ _ _ _ _ _ _ (fun _ => 1)); intros; lia|].
    apply Z.le_trans with (sumr (y / p + 1) (y + 1) (fun _ => 2 ^ 31 * 2 ^ 31)).
    - apply sumr_le. intros m Hm. rewrite Z.mul_1_r. assert (M0 : 0 <= p * m <= 2 ^ 31 * 2 ^ 31) by (split; [apply Z.mul_nonneg_nonneg|apply Z.mul_le_mono_nonneg]; lia).
      unfold lw. destruct (_ && _); [|cbn; lia]. rewrite Z.abs_opp, Z.abs_mul, (Z.abs_eq (p * m)) by lia.
      destruct (mu_values m) as [E|[E|E]]; rewrite E; cbn [Z.abs]; lia.
    - rewrite sumr_const by lia. apply Z.le_trans with (2 ^ 31 * 2 ^ 31 * 2 ^ 31); [|discriminate]. apply Z.mul_le_mono_nonneg_l; [discriminate|lia].
  Qed.
  Lemma thread_budget last lo hi : 1 <= lo <= hi -> hi <= limit -> last <= L -> sumr (c + 1) last (fun b => Wab (pr y b) lo hi (hf b lo)) <= smax 256.
  Proof.
    intros Hlo Hhi HL'. pose proof L_range. destruct (Z.le_gt_cases last (c + 1)); [rewrite sumr_empty by lia; discriminate|]. eapply Z.le_trans; [|exact par_budget].
    rewrite (sumr_split (c + 1) last L) by lia. assert (0 <= sumr last L (fun b => Wab (pr y b) 1 limit (phib b))) by (apply sumr_nonneg; intros; apply Wa_nonneg).
    assert (sumr (c + 1) last (fun b => Wab (pr y b) lo hi (hf b lo)) <= sumr (c + 1) last (fun b => Wab (pr y b) 1 limit (phib b))); [|lia].
    apply sumr_le. intros b Hb. apply Z.le_trans with (Wab (pr y b) lo hi (phib b)); [apply Wa_mono; intros n Hn; apply hf_bounds; lia|apply Wa_incl; lia].
  Qed.

  Lemma par_leaves_ok lo seg N low high b size sieve p s2 : 1 <= lo <= low -> low < high -> high <= limit -> high - low <= seg -> Z.odd low = true -> c < b < Z.min L size ->
    bits_ok sieve seg N low high (b - 1) -> pairs_ok lo b low p -> Z.abs s2 + Wab (pr y b) low high (hf b lo) <= smax 256 ->
    wp (par_leaves env (pi (Z.sqrt y)) size low high b sieve p s2) (fun o => if alive (pr y b) low
      then exists p', o = Some (p', s2 + Wb (pr y b) low high (hf b lo)) /\ pairs_ok lo b high p' else o = None).
  Proof.
    intros Hlo Hl Hh Hs Ho Hb R [HP1 [HP2 _]] RM. unfold par_leaves. cbn [l_x l_y l_primes l_lpf l_mu l_pi env].
    assert (Hcb : c < b <= pi y) by (unfold L in Hb; lia). destruct (c_6 x y b Hcb) as (C6 & B7 & _). pose proof (pi_nonneg y) as PN.
    assert (HG : forall i, 0 <= i < high - low -> 1 <= low + i -> (2 | i) -> bs_getz sieve i = Ok (Z.b2z (roughb (b - 1) (low + i)))) by (intros i Hi _ Hd; apply (bits_get sieve seg N low high); auto; lia).
    assert (HS : forall o, (if alive (pr y b) low then seg_post x y (fun v => v) pairs low high b (hD b lo low) s2 (snd p) o else o = None) ->
      wp (Ok (match o with None => None | Some (phi_b, (s2, mu_b)) => Some ((phi_b, mu_b), s2) end)) (fun o' => if alive (pr y b) low
        then exists p', o' = Some (p', s2 + Wb (pr y b) low high (hf b lo)) /\ pairs_ok lo b high p' else o' = None)).
    { intros o. destruct (alive (pr y b) low) eqn:A; [|intros ->; now apply wp_ok]. intros (acc' & -> & HA). apply wp_ok. destruct acc' as [s2' mu'].
      unfold pairs in HA. injection HA as A1 A2.
      eexists. split; [rewrite A1; repeat f_equal; unfold Wl; apply W_ext; intros n Hn; apply qF_hf|]. split; [|split]; cbn [fst snd].
      - intros _. rewrite qF_hf. reflexivity.
      - rewrite A2, HP2. unfold Wb, Wl. rewrite <- W_split by lia. reflexivity.
      - rewrite qF_hf. apply (hD_bounds b lo high). lia. }
    assert (B31 : forall h, 0 <= h <= limit -> pr y b * h < 2 ^ 63).
    { intros h Hh'. apply (prod_lim x y Hy Hyx Hxy); [unfold L in Hb; lia|exact Hh']. }
    assert (FB : forall n, low <= n < high -> 0 <= qF low (b - 1) (hD b lo low) n <= 2 ^ 118).
    { intros n Hn. rewrite qF_hf. pose proof (hf_bounds b lo n ltac:(lia)). pose proof (phi_small n (b - 1) ltac:(unfold limit in Hh; lia)). lia. }
    assert (PL : forall v d, 0 <= v -> 0 <= d -> v + d <= smax 256 -> t_add 256 v d = Ok (v + d)) by (intros; apply t_add_ok; [apply width_256|lia]).
    assert (HB0 : 0 <= hD b lo low) by (apply (hD_bounds b lo low); lia).
    assert (PB : qF low (b - 1) (hD b lo low) (high - 1) <= smax 256) by (specialize (FB (high - 1) ltac:(lia)); change (smax 256) with (2 ^ 255 - 1); lia).
    assert (ROOM : room x y (pr y b) low high (qF low (b - 1) (hD b lo low)) (smax 256) (2 ^ 125) s2 (snd p)).
    { split; [rewrite qFa_ext; exact RM|]. rewrite HP2. pose proof (W_abs (fun _ _ => true) x y (pr y b) lo low (fun _ => 1)) as WA. pose proof (mu_fits b lo high ltac:(lia)) as MF.
      unfold Wab in MF. rewrite (Wa_split _ _ _ _ lo low high) in MF by lia. unfold Wb, Wl, Wal. lia. }
    apply wp_bind. destruct (Z.ltb_spec b (Z.min (pi (Z.sqrt y)) size)) as [B|B].
    - eapply wp_mono; [apply (seg_leaves_m_ok x y primes lpf mut Hy Hyx (Hpr y) HL HM (t_add 256) (fun v => v) pairs (bs_getz sieve) low high 2 b (hD b lo low) (fst p) (smax 256) (smax 256) (2 ^ 125) s2 (snd p) (s2, snd p))|]; auto; try lia.
      + apply B31; lia.
      + right. split; auto. split; auto. lia.
      + reflexivity.
      + intros A. apply HP1. unfold alive, alive_l. destruct (pr_spec y b ltac:(lia)) as (_ & P2 & _). rewrite P2. destruct (Z.ltb_spec b (pi (Z.sqrt y))); [exact A|lia].
      + apply adds_sub_pair; auto. lia.
      + intros o Hoo. apply HS. unfold alive, alive_l. destruct (pr_spec y b ltac:(lia)) as (_ & P2 & _). rewrite P2. destruct (Z.ltb_spec b (pi (Z.sqrt y))); [exact Hoo|lia].
    - eapply wp_mono; [apply (seg_leaves_l_ok x y primes pit Hy Hyx (Hpr y) (t_add 256) (fun v => v) pairs (bs_getz sieve) low high 2 b (hD b lo low) (fst p) (smax 256) (smax 256) (2 ^ 125) s2 (snd p) (s2, snd p))|]; auto; try lia.
      + apply B31; lia.
      + right. split; auto. split; auto. lia.
      + reflexivity.
      + apply adds_add_pair; auto. lia.
  Qed.

  Lemma alive_size b lo : c < b < L -> 1 <= lo -> alive (pr y b) lo = true -> b <= pi (Z.min (Z.sqrt (x / lo)) y).
  Proof.
    intros Hb Hlo A. destruct (pr_spec y b ltac:(unfold c, L in *; pose proof (pi_nonneg y); lia)) as (P1 & P2 & P3). pose proof (prime_ge_2 _ P1).
    apply alive_l_m in A; auto. unfold alive_m in A. apply Z.ltb_lt in A. rewrite <- P2 at 1. apply pi_mono.
    pose proof (x_pos x y ltac:(lia) Hyx). assert (pr y b <= Z.sqrt (x / lo)); [|lia]. apply Z.sqrt_le_square; [apply Z.div_pos; lia|lia|].
    apply (proj2 (div_le_iff x lo (pr y b * pr y b) ltac:(lia))).
    assert (A4 : pr y b <= x / (pr y b * lo)) by lia. apply (proj1 (div_le_iff x (pr y b * lo) (pr y b) ltac:(nia))) in A4. lia.
  Qed.
  Lemma dead b e e' g : c < b < L -> 1 <= e -> alive (pr y b) e = false -> Wb (pr y b) e e' g = 0.
  Proof.
    intros Hb He A. destruct (pr_spec y b ltac:(unfold c, L in *; pose proof (pi_nonneg y); lia)) as (P1 & P2 & P3). apply (dead_l x y); auto. lia.
  Qed.
  Lemma alive_back b e e' : c < b < L -> 1 <= e <= e' -> alive (pr y b) e' = true -> alive (pr y b) e = true.
  Proof.
    intros Hb He A. destruct (pr_spec y b ltac:(unfold c, L in *; pose proof (pi_nonneg y); lia)) as (P1 & P2 & P3).
    apply (alive_l_mono x y ltac:(lia) Hyx (pr y b) (pr y b) e e'); auto. lia.
  Qed.

  Lemma thread_ok seg spt i low0 : (2 | seg) -> 0 < seg <= 2 ^ 31 -> 1 <= spt -> 0 <= i -> 1 <= low0 -> Z.odd low0 = true ->
    low0 + seg * spt * i + seg * spt < 2 ^ 62 ->
    wp (par_thread env seg spt i low0 limit)
       (thread_spec (Z.min (low0 + seg * spt * i) limit) (Z.min (low0 + seg * spt * i + seg * spt) limit)).
  Proof.
    intros He Hseg Hspt Hi Hl Ho Hb. unfold par_thread. set (d := seg * spt) in *. assert (Hd : seg <= d) by (unfold d; nia).
    assert (0 <= d * i) by nia. set (lo := low0 + d * i) in *. pose proof (x_pos x y ltac:(lia) Hyx) as Hx.
    assert (Olo : Z.odd lo = true).
    { unfold lo, d. rewrite Z.odd_add, Ho. destruct He as [h ->]. replace (h * 2 * spt * i) with (h * spt * i * 2) by ring. rewrite (Z.odd_mul _ 2). now rewrite andb_false_r. }
    rewrite lb_interval_ok by (fold d lo; lia). fold d. fold lo. rewrite bind_Ok. cbn [l_x l_y l_pi l_c l_primes env].
    rewrite zdiv_ok by lia. rewrite bind_Ok. pose proof (Z.sqrt_nonneg (x / lo)). pose proof (Z.sqrt_nonneg y). assert (SY : Z.sqrt y <= y) by (apply Z.sqrt_le_lin; lia).
    rewrite (arr_get _ _ _ _ HP) by lia. rewrite bind_Ok. cbv zeta. rewrite (arr_get _ _ _ _ HP) by lia. rewrite bind_Ok. rewrite (arr_get _ _ _ _ HP) by lia. rewrite bind_Ok.
    set (nn := pi (Z.min (Z.sqrt (x / lo)) y)). fold L. assert (LP : 0 <= L) by apply pi_nonneg.
    assert (Hnn : 0 <= nn <= L) by (split; [apply pi_nonneg|apply pi_mono; lia]). replace (nn + 1 - 1) with nn by ring.
    assert (Lim : 1 <= limit < 2 ^ 57). { unfold limit. assert (0 <= x / y) by (apply Z.div_pos; lia). lia. }
    assert (DEAD : forall b, c < b < L -> nn < b -> lo < limit -> (forall g, Wb (pr y b) lo (Z.min (lo + d) limit) g = 0) /\ alive (pr y b) (Z.min (lo + d) limit) = false).
    { intros b Hcb Hmb Hlo. destruct (alive (pr y b) lo) eqn:A; [apply alive_size in A; [fold nn in A; lia|lia|lia]|].
      split; [intros g; apply dead; auto; lia|]. destruct (alive (pr y b) (Z.min (lo + d) limit)) eqn:A'; auto. rewrite (alive_back b lo (Z.min (lo + d) limit)) in A; auto; lia. }
    (* a thread without work *)
    assert (IDLE : forall n P M, 0 <= n <= L + 1 -> arr P n (fun _ => 0) -> arr M n (fun _ => 0) -> limit <= lo -> thread_spec (Z.min lo limit) (Z.min (lo + d) limit) (0, M, P)).
    { intros n P M Hn AP AM Hlo. replace (Z.min (lo + d) limit) with limit by lia. replace (Z.min lo limit) with limit by lia.
      assert (WE : forall b g, Wb (pr y b) limit limit g = 0) by (intros b g; unfold Wb; apply W_empty; lia).
      assert (DE : forall b, hD b limit limit = 0) by (intros b; unfold hD; ring).
      exists n, (fun _ => 0), (fun _ => 0). cbn [fst snd]. split; [lia|]. split; [exact AP|]. split; [exact AM|]. split; [|split; [|split; [|split]]].
      - intros k Hk. rewrite WE. now destruct (_ && _).
      - intros b _ _ _. now rewrite DE.
      - intros b _. rewrite DE. lia.
      - symmetry. apply sumr_zero. intros b _. apply WE.
      - intros b _ _. split; auto. }
    assert (AM0 : forall n, 0 <= n -> arr (amake n 0) n (fun _ => 0)) by (intros n Hn; apply arr_make; lia).
    destruct (Z.geb_spec c nn) as [G|G].
    - apply wp_ok. change (@nil Z) with (amake 0 0). destruct (Z.le_gt_cases limit lo) as [LL|LL]; [apply (IDLE 0); [lia|apply AM0; lia|apply AM0; lia|lia]|].
      replace (Z.min lo limit) with lo by lia. exists 0, (fun _ => 0), (fun _ => 0). cbn [fst snd]. split; [lia|]. split; [apply AM0; lia|]. split; [apply AM0; lia|]. split; [|split; [|split; [|split]]].
      + intros k Hk. lia.
      + intros k Hk. lia.
      + intros b Hcb. lia.
      + symmetry. apply sumr_zero. intros b Hcb. apply DEAD; lia.
      + intros b Hcb _. destruct (DEAD b Hcb ltac:(lia) LL) as [D1 D2]. split; auto. intros D3. congruence.
    - destruct (bs_make_ok seg) as (N & N1 & N2 & NM); [lia|]. apply wp_bind. eapply wp_mono; [exact NM|]. intros bs [S1 S2].
      apply wp_bind. eapply wp_mono; [apply (wheel_make_gen y primes (nn + 1) lo)|]; try (fold L; lia).
      { intros b Hbb. apply (Hpr y). fold L. lia. }
      intros wl (w & AW & HW). pose proof (c_range x y) as Hc. fold c in Hc.
      destruct (Z.le_gt_cases limit lo) as [LL|LL].
      { apply wp_bind. unfold segments. apply (loop_rule _ (fun st => st = (lo, bs, amake (nn + 1) (0, 0), wl, 0)) (fun _ => 0)); [|reflexivity|reflexivity].
        intros st ->. destruct (Z.ltb_spec lo (Z.min (lo + d) limit)); [lia|]. apply wp_ok, wp_ok.
        apply (IDLE (nn + 1)); [lia|apply (arr_map fst _ _ (fun _ => (0, 0)))|apply (arr_map snd _ _ (fun _ => (0, 0)))|lia]; apply arr_make; lia. }
      apply wp_bind. eapply wp_mono; [apply (segments_ok x y c (Z.min L (nn + 1)) seg lo (Z.min (lo + d) limit) (nn + 1) (nn + 1) _ _ _ (fun v => v) (smax 256) alive (fun sv => bs_size sv = seg /\ exists F, bs_rep sv N F)
        (fun low high a sv => bits_ok sv seg N low high a) (fun b pos it => item_at (pr y b) pos it \/ b <= c) (pairs_ok lo)) with (Q0 := fun _ => (0, 0)) (w := w)|]; auto; try (fold L; lia).
      + apply alive_l_mono; auto. lia.
      + intros. now apply (dead_l x y).
      + intros low high sv next w' K (Z1 & F & Z2) HW' HI. pose proof K as (K1 & K2 & K3 & K4). apply wp_bind.
        eapply wp_mono; [apply (bits_init sv seg N F c low high); auto; try lia; unfold c; lia|]. intros sv' R. apply wp_ok. split; auto. exists w'. split; auto. split; auto. intros; right; lia.
      + apply thread_budget; lia.
      + intros low high b sv p s2 K Hbb R HPk RM. pose proof K as (K1 & K2 & K3 & K4). apply (par_leaves_ok lo seg N); auto; lia.
      + intros low high b sv it K Hbb A R HI. pose proof K as (K1 & K2 & K3 & K4). destruct (c_6 x y b ltac:(fold c L; lia)) as (_ & B7 & _). destruct HI as [HI|HI]; [|lia].
        eapply wp_mono; [apply (lmo5_cross_ok y primes sv seg N low high b it); auto; try (fold L; lia); apply (Hpr y); fold L; lia|]. intros [sv' it'] [R' I']. auto.
      + intros low high a sv (Z1 & F & Z2 & _). split; auto. exists F. auto.
      + intros b pos pos' p Hbb Hpos A [_ [P2 P3]]. split; [|split].
        * intros A'. exfalso. rewrite (alive_back b pos pos') in A; auto; try lia.
        * rewrite P2. unfold Wb, Wl. rewrite (W_split _ _ _ _ lo pos pos') by lia. fold (Wl x y (pr y b) pos pos' (fun _ => 1)). fold Wb. rewrite (dead b pos pos'); auto; [unfold Wl; ring|lia|lia].
        * pose proof (hD_mono lo pos pos' ltac:(lia) ltac:(lia)). lia.
      + split; auto. eexists. exact S2.
      + apply arr_make. lia.
      + intros b Hbb. split; [|split]; cbn [fst snd]; [intros _; unfold hD; ring|symmetry; apply W_empty; lia|unfold hD; lia].
      + intros [pm s2] [(Q' & AQ & HQ & HQ0) ->]. apply wp_ok.
        replace (Z.max lo (Z.min (lo + d) limit)) with (Z.min (lo + d) limit) in * by lia. replace (Z.min lo limit) with lo by lia.
        set (hi := Z.min (lo + d) limit) in *.
        exists (nn + 1), (fun b => fst (Q' b)), (fun b => snd (Q' b)). cbn [fst snd]. split; [lia|]. split; [now apply arr_map|]. split; [now apply arr_map|]. split; [|split; [|split; [|split]]].
        * intros b Hbb. destruct (Z.ltb_spec c b); cbn [andb]; [destruct (Z.ltb_spec b L)|].
          -- destruct (HQ b ltac:(lia)) as [_ [-> _]]. reflexivity.
          -- rewrite HQ0 by lia. reflexivity.
          -- rewrite HQ0 by lia. reflexivity.
        * intros b Hbb HbL A. destruct (HQ b ltac:(lia)) as [E1 _]. auto.
        * intros b Hbb. destruct (Z.lt_ge_cases c b); [destruct (Z.lt_ge_cases b L)|].
          -- apply (HQ b ltac:(lia)).
          -- rewrite HQ0 by lia. cbn [fst]. pose proof (hD_bounds 1 lo hi ltac:(lia)). lia.
          -- rewrite HQ0 by lia. cbn [fst]. pose proof (hD_bounds 1 lo hi ltac:(lia)). lia.
        * destruct (Z.le_gt_cases L (nn + 1)); [now rewrite Z.min_l by lia|]. rewrite Z.min_r by lia.
          rewrite (sumr_split (c + 1) (nn + 1) L) by lia. rewrite (sumr_zero (nn + 1)); [unfold Wb; ring|]. intros b Hbb. apply DEAD; lia.
        * intros b Hbb Hmb. destruct (DEAD b Hbb ltac:(lia) LL) as [D1 D2]. split; auto. intros D3. congruence.
  Qed.

  (** ** Combining the results of the threads *)
  Definition tot_ok (e : Z) (T : Z -> Z) : Prop := (forall b, c < b < L -> alive (pr y b) e = true -> T b = phi_sum (e - 1) (b - 1)) /\
    (forall b, 0 <= b <= L -> 0 <= T b <= phi_sum (e - 1) 0).
  Lemma combine1_ok e e' r s2 tot T (Q : Z * list Z -> Prop) : 1 <= e <= e' -> e' <= limit -> thread_spec e e' r -> arr tot (L + 1) T -> tot_ok e T ->
    Z.abs s2 + sumr (c + 1) L (fun b => Wab (pr y b) e e' (fun _ => 1) * phi_sum (e - 1) (b - 1)) <= smax 256 ->
    (forall tot' T', arr tot' (L + 1) T' -> tot_ok e' T' ->
       Q (s2 + sumr (c + 1) L (fun b => Wb (pr y b) e e' (fun _ => 1) * phi_sum (e - 1) (b - 1)), tot')) ->
    wp (hard_combine1 256 256 (snd (fst r)) (snd r) (s2, tot)) Q.
  Proof.
    intros He Hez (n & P & M & Hn & AP & AM & EM & EP & BP & _ & EN) AT [HT HT2] HB HQ. unfold hard_combine1. rewrite (arr_len _ _ _ AP).
    assert (LM : limit < 2 ^ 57) by exact Hlim.
    set (G := fun b => Wb (pr y b) e e' (fun _ => 1) * phi_sum (e - 1) (b - 1)) in *. pose proof L_range as LR.
    set (Ga := fun b => Wab (pr y b) e e' (fun _ => 1) * phi_sum (e - 1) (b - 1)) in *.
    assert (GG : forall b, Z.abs (G b) <= Ga b).
    { intros b. unfold G, Ga. rewrite Z.abs_mul. pose proof (phi_sum_nonneg (e - 1) (b - 1)). rewrite (Z.abs_eq (phi_sum _ _)) by lia. apply Z.mul_le_mono_nonneg_r; [lia|]. apply W_abs. }
    assert (GS : forall j j', j <= L -> j' < j -> Z.abs (sumr (c + 1) j G) <= smax 256 - Z.abs s2 /\ (c < j' -> Z.abs (G j') <= smax 256)).
    { intros j j' Hj Hj'. assert (N1 : forall b, 0 <= Ga b) by (intros b; pose proof (GG b); pose proof (Z.abs_nonneg (G b)); lia).
      assert (N2 : forall a b, 0 <= sumr a b Ga) by (intros; apply sumr_nonneg; auto). split.
      - assert (SJ : Z.abs (sumr (c + 1) j G) <= sumr (c + 1) j Ga) by (eapply Z.le_trans; [apply sumr_abs|apply sumr_le; intros; apply GG]).
        destruct (Z.le_gt_cases (c + 1) j); [rewrite (sumr_split (c + 1) j L) in HB by lia; pose proof (N2 j L); lia|].
        rewrite !(sumr_empty (c + 1) j) in * by lia. pose proof (N2 (c + 1) L). lia.
      - intros Hc'. rewrite (sumr_split (c + 1) j' L), (sumr_cons j' L) in HB by lia. pose proof (N2 (c + 1) j'). pose proof (N2 (j' + 1) L). pose proof (GG j'). pose proof (Z.abs_nonneg s2). lia. }
    assert (SUM : phi_sum (e - 1) 0 + hD 1 e e' = phi_sum (e' - 1) 0) by (unfold hD; change (1 - 1) with 0; ring).
    pose proof (phi_small (e' - 1) 0 ltac:(lia)) as PS. pose proof (phi_small (e - 1) 0 ltac:(lia)) as PS0.
    assert (BD : forall b, 0 <= b < n -> 0 <= T b + P b <= phi_sum (e' - 1) 0).
    { intros b Hb. specialize (BP b Hb). specialize (HT2 b ltac:(lia)). lia. }
    assert (C116 : 2 ^ 118 < 2 ^ 127 - 1) by reflexivity. pose proof width_256 as Hw. destruct (smax_pos 256 Hw) as [SM _].
    apply (for_rule _ _ _ (fun j st => fst st = s2 + sumr (c + 1) (Z.min j L) G /\ arr (snd st) (L + 1) (fun b => if (1 <=? b) && (b <? j) then T b + P b else T b))).
    - assert (2 ^ 58 < 2 ^ 400) by reflexivity. lia.
    - cbn [fst snd]. rewrite sumr_empty by lia. split; [ring|]. eapply arr_ext; [exact AT|]. intros k Hk. destruct (Z.leb_spec 1 k), (Z.ltb_spec k 1); cbn [andb]; auto; lia.
    - intros j [s tj] Hj [E1 E2]. cbn [fst snd] in E1, E2. rewrite (arr_get _ _ _ j AM) by lia. rewrite bind_Ok. rewrite (arr_get _ _ _ j E2) by lia. rewrite bind_Ok.
      rewrite (Z.ltb_irrefl j), andb_false_r. pose proof (HT2 j ltac:(lia)) as HT2j. rewrite EM by lia.
      set (Gj := if (c <? j) && (j <? L) then G j else 0).
      assert (EJ : (if (c <? j) && (j <? L) then Wb (pr y j) e e' (fun _ => 1) else 0) * T j = Gj).
      { unfold Gj, G. destruct (Z.ltb_spec c j), (Z.ltb_spec j L); cbn [andb]; try ring. destruct (alive (pr y j) e) eqn:A; [now rewrite (HT j ltac:(lia) A)|]. rewrite (dead j e e') by (auto; lia). ring. }
      assert (MJ : Z.abs (if (c <? j) && (j <? L) then Wb (pr y j) e e' (fun _ => 1) else 0) <= 2 ^ 125).
      { destruct (Z.ltb_spec c j), (Z.ltb_spec j L); cbn [andb]; try discriminate. eapply Z.le_trans; [apply W_abs|]. apply mu_fits. lia. }
      assert (GJ : Z.abs Gj <= smax 256). { unfold Gj. destruct (Z.ltb_spec c j), (Z.ltb_spec j L); cbn [andb]; try discriminate. apply (GS (j + 1) j); lia. }
      rewrite (mul_fits 256 _ (T j) Gj Hw (Z.le_trans _ (2 ^ 125) (2 ^ 126) MJ ltac:(discriminate)) ltac:(lia) EJ GJ). rewrite bind_Ok.
      assert (ES : sumr (c + 1) (Z.min (j + 1) L) G = sumr (c + 1) (Z.min j L) G + Gj).
      { unfold Gj. destruct (Z.ltb_spec c j), (Z.ltb_spec j L); cbn [andb].
        - rewrite !Z.min_l by lia. now rewrite sumr_snoc by lia.
        - rewrite !Z.min_r by lia. ring.
        - rewrite !sumr_empty by lia. ring.
        - rewrite !sumr_empty by lia. ring. }
      assert (SJ : Z.abs (s + Gj) <= smax 256). { rewrite E1. destruct (GS (Z.min (j + 1) L) (Z.min (j + 1) L - 1) ltac:(lia) ltac:(lia)) as [GS1 _]. rewrite ES in GS1. clear - GS1. lia. }
      rewrite (t_add_ok 256 s Gj Hw SJ). rewrite bind_Ok.
      rewrite (arr_get _ _ _ j AP) by lia. rewrite bind_Ok. pose proof (BD j ltac:(lia)) as BDj.
      rewrite (t_add_ok 256 (T j) (P j) Hw) by (clear - BDj PS C116 SM; lia). rewrite bind_Ok.
      apply wp_bind. eapply arr_set; [exact E2|lia|]. intros t' AT'. apply wp_ok. cbn [fst snd].
      clear MJ GJ SJ. split; [rewrite E1, ES; ring|].
      eapply arr_ext; [exact AT'|]. intros k Hk. cbv beta. destruct (Z.eqb_spec k j) as [->|].
      * destruct (Z.leb_spec 1 j), (Z.ltb_spec j (j + 1)); cbn [andb]; auto; lia.
      * destruct (Z.leb_spec 1 k), (Z.ltb_spec k j), (Z.ltb_spec k (j + 1)); cbn [andb]; auto; lia.
    - intros [s t'] [E1 E2]. cbn [fst snd] in *. clear HB GS GG. set (j := Z.max 1 n) in *. replace s with (s2 + sumr (c + 1) L G).
      2:{ rewrite E1. f_equal. assert (Z0 : forall b, c < b < L -> j <= b -> G b = 0). { intros b Hb Hj. unfold G. destruct (EN b Hb ltac:(lia)) as [-> _]. ring. }
          destruct (Z.le_gt_cases L j); [now rewrite Z.min_r by lia|]. rewrite Z.min_l by lia.
          destruct (Z.le_gt_cases (c + 1) j).
          - rewrite (sumr_split (c + 1) j L) by lia. rewrite (sumr_zero j); [ring|]. intros b Hb. apply Z0; lia.
          - rewrite (sumr_empty (c + 1) j) by lia. apply sumr_zero. intros b Hb. apply Z0; lia. }
      apply (HQ _ (fun b => if (1 <=? b) && (b <? j) then T b + P b else T b)); [exact E2|]. split.
      + intros b Hb A. pose proof (alive_back b e e' Hb He A) as A0. rewrite (HT b Hb A0).
        destruct (Z.leb_spec 1 b); [|lia]. destruct (Z.ltb_spec b j); cbn [andb].
        * rewrite (EP b) by (auto; lia). unfold hD. ring.
        * destruct (EN b Hb ltac:(lia)) as [_ D]. specialize (D A). unfold hD in D. lia.
      + intros b Hb. pose proof (phi_sum_mono 0 (e - 1) (e' - 1) ltac:(lia)). specialize (HT2 b Hb).
        destruct (Z.leb_spec 1 b), (Z.ltb_spec b j); cbn [andb]; try lia. apply BD; lia.
  Qed.

  Section Round.
    Context (seg spt t low : Z).
    Hypothesis (He : (2 | seg)) (Hseg : 0 < seg <= 2 ^ 31) (Hspt : 1 <= spt) (Ht : 1 <= t) (Hl : 1 <= low) (Ho : Z.odd low = true).
    Hypothesis (HD : low + seg * spt * t < 2 ^ 62).
    Let ee (i : Z) : Z := Z.min (low + seg * spt * i) limit.
    Let SS (k : Z) : Z := sumr (c + 1) L (fun b => Wb (pr y b) (ee k) (ee (k + 1)) (hf b (ee k))).
    Lemma limit_1 : 1 <= limit.
    Proof. pose proof (x_pos x y ltac:(lia) Hyx). unfold limit. assert (0 <= x / y) by (apply Z.div_pos; lia). lia. Qed.
    Lemma ee_mono i j : 0 <= i <= j -> 1 <= ee i <= ee j.
    Proof. pose proof limit_1. intros H1. unfold ee. assert (0 <= seg * spt) by nia. assert (0 <= seg * spt * i) by nia. assert (seg * spt * i <= seg * spt * j) by (apply Z.mul_le_mono_nonneg_l; lia). lia. Qed.
    Lemma t_bound : t < 2 ^ 62.
    Proof. assert (1 * t <= seg * spt * t) by (apply Z.mul_le_mono_nonneg_r; nia). lia. Qed.
    Lemma threads_ok : wp (par_threads env seg spt t low limit) (fun rs => zlen rs = t /\
      (forall i, 0 <= i < t -> exists r, aget rs i = Ok r /\ thread_spec (ee i) (ee (i + 1)) r)).
    Proof.
      unfold par_threads. pose proof t_bound. apply (for_rule _ _ _ (fun i rs => zlen rs = i /\
        (forall k, 0 <= k < i -> exists r, aget rs k = Ok r /\ thread_spec (ee k) (ee (k + 1)) r))).
      - assert (2 ^ 62 < 2 ^ 400) by reflexivity. lia.
      - split; [reflexivity|]. intros; lia.
      - intros i rs Hi (E1 & E2). apply wp_bind.
        assert (SI : seg * spt * i + seg * spt <= seg * spt * t). { replace (seg * spt * i + seg * spt) with (seg * spt * (i + 1)) by ring. apply Z.mul_le_mono_nonneg_l; nia. }
        eapply wp_mono; [apply thread_ok; auto; lia|]. intros r Hr. apply wp_ok. fold (ee i) in Hr.
        replace (Z.min (low + seg * spt * i + seg * spt) limit) with (ee (i + 1)) in Hr by (unfold ee; f_equal; ring).
        split; [rewrite zlen_app, E1; reflexivity|].
        intros k Hk. rewrite aget_app, E1. destruct (Z.ltb_spec k i); [apply E2; lia|]. replace k with i by lia. rewrite Z.sub_diag. exists r. split; auto.
      - intros rs. replace (Z.max 0 t) with t by lia. auto.
    Qed.

    Let phiW (e e' : Z) : Z := sumr (c + 1) L (fun b => Wb (pr y b) e e' (phib b)).
    Let phiWa (e e' : Z) : Z := sumr (c + 1) L (fun b => Wab (pr y b) e e' (phib b)).
    Let SSa (k : Z) : Z := sumr (c + 1) L (fun b => Wab (pr y b) (ee k) (ee (k + 1)) (hf b (ee k))).
    Let CCa (k : Z) : Z := sumr (c + 1) L (fun b => Wab (pr y b) (ee k) (ee (k + 1)) (fun _ => 1) * phi_sum (ee k - 1) (b - 1)).
    Lemma SS_abs k : Z.abs (SS k) <= SSa k.
    Proof. eapply Z.le_trans; [apply sumr_abs|]. apply sumr_le. intros b _. apply W_abs. Qed.
    Lemma phiW_abs e e' : Z.abs (phiW e e') <= phiWa e e'.
    Proof. eapply Z.le_trans; [apply sumr_abs|]. apply sumr_le. intros b _. apply W_abs. Qed.
    Lemma CCa_nonneg k : 0 <= CCa k.
    Proof. apply sumr_nonneg. intros b _. apply Z.mul_nonneg_nonneg; [apply Wa_nonneg|apply phi_sum_nonneg]. Qed.
    Lemma phiWa_split i : 0 <= i -> phiWa (ee 0) (ee (i + 1)) = phiWa (ee 0) (ee i) + SSa i + CCa i.
    Proof.
      intros Hi. pose proof (ee_mono i (i + 1) ltac:(lia)) as EM. pose proof (ee_mono 0 i ltac:(lia)) as EM0.
      unfold phiWa, SSa, CCa. rewrite <- Z.add_assoc, <- !sumr_add. apply sumr_ext. intros b _. unfold Wab.
      rewrite (Wa_split _ _ _ _ (ee 0) (ee i) (ee (i + 1))) by lia. f_equal.
      rewrite <- (Wa_shift _ _ _ _ _ _ (hf b (ee i))); [|apply phi_sum_nonneg|intros n Hn; apply hf_bounds; lia].
      apply Wa_ext. intros n _. unfold hf, phib. ring.
    Qed.
    Lemma phiWa_all i : 0 <= i -> phiWa (ee 0) (ee i) = sumr 0 i SSa + sumr 0 i CCa.
    Proof.
      intros Hi. pattern i. apply natlike_ind; [| |exact Hi].
      - rewrite !(sumr_empty 0 0) by lia. apply sumr_zero. intros b _. unfold Wab, Wa. apply sumr_zero. intros m _.
        destruct (Z.leb_spec (ee 0) (x / (pr y b * m))), (Z.ltb_spec (x / (pr y b * m)) (ee 0)); cbn [andb]; try reflexivity; lia.
      - intros k Hk IH. unfold Z.succ. rewrite phiWa_split, IH by lia. rewrite !(sumr_snoc 0 k) by lia. ring.
    Qed.

    Lemma combine_ok sched rs s2 tot T (Q : Z * list Z -> Prop) : valid_sched sched -> zlen rs = t -> (forall i, 0 <= i < t -> exists r, aget rs i = Ok r /\ thread_spec (ee i) (ee (i + 1)) r) ->
      arr tot (L + 1) T -> tot_ok (ee 0) T -> Z.abs s2 + phiWa (ee 0) (ee t) <= smax 256 ->
      (forall tot' T', arr tot' (L + 1) T' -> tot_ok (ee t) T' -> Q (s2 + phiW (ee 0) (ee t), tot')) ->
      wp (hard_combine 256 256 sched rs t (s2, tot)) Q.
    Proof.
      intros Hsch E1 E2 AT HT HB HQ. unfold hard_combine. cbn [fst snd]. pose proof t_bound.
      rewrite phiWa_all in HB by lia. assert (CN : forall a b, 0 <= sumr a b CCa) by (intros; apply sumr_nonneg; intros; apply CCa_nonneg).
      assert (SN : forall a b, 0 <= sumr a b SSa). { intros a b. apply sumr_nonneg. intros k _. pose proof (SS_abs k). pose proof (Z.abs_nonneg (SS k)). lia. }
      rewrite (par_acc_ok (t_add 256) _ (fun _ => True) SS SSa (smax 256) 0 t); auto.
      2:{ intros a b Hab. apply t_add_ok; [apply width_256|exact Hab]. }
      2:{ intros i sum st Hi _ Hs. destruct (E2 i Hi) as (r & Er & Hr). rewrite Er, bind_Ok. destruct Hr as (n & P & M & _ & _ & _ & _ & _ & _ & R5 & _). rewrite R5. fold (SS i).
          rewrite t_add_ok; [|apply width_256|pose proof (SS_abs i); lia]. rewrite bind_Ok. apply wp_ok. cbn [fst snd]. auto. }
      2:{ intros i _. apply SS_abs. }
      2:{ pose proof (CN 0 t). lia. }
      rewrite bind_Ok.
      apply (for_rule _ _ _ (fun i st => fst st = s2 + sumr i t SS + phiW (ee 0) (ee i) /\
        exists T', arr (snd st) (L + 1) T' /\ tot_ok (ee i) T')).
      - assert (2 ^ 62 < 2 ^ 400) by reflexivity. lia.
      - cbn [fst snd]. split; [|exists T; auto]. unfold phiW. rewrite (sumr_zero (c + 1)); [ring|]. intros b _. unfold Wb. apply W_empty. lia.
      - intros i [s ti] Hi [H1 (T' & H2 & H3)]. cbn [fst snd] in *. destruct (E2 i Hi) as (r & Er & Hr). rewrite Er, bind_Ok.
        destruct r as [[rs2 rmu] rphi]. pose proof (ee_mono i (i + 1) ltac:(lia)) as EM. pose proof (ee_mono 0 i ltac:(lia)) as EM0.
        refine (combine1_ok (ee i) (ee (i + 1)) (rs2, rmu, rphi) s ti T' _ EM _ Hr H2 H3 _ _); [unfold ee; lia| |].
        { fold (CCa i). rewrite H1. pose proof (phiW_abs (ee 0) (ee i)) as PA. rewrite phiWa_all in PA by lia.
          assert (SA : Z.abs (sumr i t SS) <= sumr i t SSa). { eapply Z.le_trans; [apply sumr_abs|]. apply sumr_le. intros k _. apply SS_abs. }
          rewrite (sumr_split 0 i t SSa), (sumr_split 0 i t CCa), (sumr_cons i t CCa) in HB by lia. pose proof (CN (i + 1) t). clear - HB PA SA H0. lia. }
        intros tot' T'' A'' O''. cbn [fst snd]. split; [|exists T''; auto].
        rewrite H1. rewrite (sumr_cons i) by lia.
        assert (SE : SS i + sumr (c + 1) L (fun b => Wb (pr y b) (ee i) (ee (i + 1)) (fun _ => 1) * phi_sum (ee i - 1) (b - 1)) = phiW (ee i) (ee (i + 1))).
        { unfold SS, phiW. rewrite <- sumr_add. apply sumr_ext. intros b _. unfold Wb, Wl. rewrite <- W_shift. apply W_ext. intros n _. unfold hf, phib. ring. }
        assert (SP : phiW (ee 0) (ee (i + 1)) = phiW (ee 0) (ee i) + phiW (ee i) (ee (i + 1))).
        { unfold phiW. rewrite <- sumr_add. apply sumr_ext. intros b _. unfold Wb. apply W_split. lia. }
        clear HB. lia.
      - intros [s ti] [H1 (T' & H2 & H3)]. replace (Z.max 0 t) with t in * by lia. cbn [fst snd] in *. rewrite (sumr_empty t t) in H1 by lia.
        replace s with (s2 + phiW (ee 0) (ee t)) by lia. now apply (HQ _ T').
    Qed.
  End Round.

  (** ** The master loop *)
  Definition master_inv (m : master_state) : Prop :=
    1 <= r_low m /\ Z.odd (r_low m) = true /\ lb_ok (Z.sqrt limit) (r_lb m) /\
    (exists T, arr (r_phi_total m) (L + 1) T /\ tot_ok (Z.min (r_low m) limit) T) /\
    r_s2 m = sumr (c + 1) L (fun b => Wb (pr y b) 1 (Z.min (r_low m) limit) (phib b)).

  Lemma sqrt_bound : 0 <= Z.sqrt limit < 2 ^ 29.
  Proof.
    pose proof limit_1. split; [apply Z.sqrt_nonneg|]. apply Z.sqrt_lt_square; [lia|lia|]. unfold limit. lia.
  Qed.

  Lemma par_round_ok leaf obs sched m : (forall r, obs_ok (Z.sqrt limit) (obs r)) -> (forall r, valid_sched (sched r)) -> r_low m < limit -> master_inv m ->
    wp (par_round env leaf obs sched limit m) (fun m' => master_inv m' /\ r_low m < r_low m').
  Proof.
    intros Hobs Hsch Hlow (I1 & I2 & I3 & (T & I4 & I5) & I6). pose proof sqrt_bound as SB. destruct m as [low th [[ms seg] spt0] tot s2 rd].
    cbn [r_low r_threads r_lb r_phi_total r_s2 r_round] in *. unfold par_round. cbn [r_low r_threads r_lb r_phi_total r_s2 r_round].
    pose proof I3 as (L1 & L2 & L3 & L4). assert (LM : limit < 2 ^ 57) by exact Hlim.
    apply wp_bind. apply lb_clamp_ok; [lia|lia|lia|]. intros t s T1 S1 B1.
    assert (SBd : s <= 2 ^ 53). { assert (512 * s * 1 <= seg * s * t) by (apply Z.mul_le_mono_nonneg; nia). lia. }
    assert (D0 : 0 <= seg * s) by nia. assert (DB : seg * s * t <= 2 ^ 59) by lia.
    assert (SG : seg <= seg * s * t). { replace seg with (seg * 1) at 1 by ring. rewrite <- Z.mul_assoc. apply Z.mul_le_mono_nonneg_l; nia. }
    assert (E2 : (2 | seg)) by (apply pow2_even; [exact L2|lia]).
    apply wp_bind. eapply wp_mono; [apply threads_ok; auto; lia|]. intros rs (R1 & R2).
    assert (E0 : Z.min (low + seg * s * 0) limit = low) by lia.
    apply wp_bind. refine (combine_ok seg s t low ltac:(lia) S1 T1 I1 ltac:(lia) (sched rd) rs s2 tot T _ (Hsch rd) R1 R2 I4 _ _ _).
    { rewrite E0. now replace (Z.min low limit) with low in I5 by lia. }
    { rewrite E0, I6. replace (Z.min low limit) with low by lia. apply Z.le_trans with (2 := par_budget). set (e' := Z.min (low + seg * s * t) limit). assert (He' : low <= e' <= limit) by (unfold e'; lia).
      apply Z.le_trans with (sumr (c + 1) L (fun b => Wab (pr y b) 1 low (phib b)) + sumr (c + 1) L (fun b => Wab (pr y b) low e' (phib b))).
      - apply Z.add_le_mono_r. eapply Z.le_trans; [apply sumr_abs|]. apply sumr_le. intros b _. apply W_abs.
      - rewrite <- sumr_add. apply sumr_le. intros b _. unfold Wab. rewrite <- Wa_split by lia. apply Wa_incl; lia. }
    intros tot' T' A' O'. cbn iota. apply wp_bind.
    apply lb_advance_ok; [apply Hobs|lia|exact I3|lia|lia|lia|lia|]. intros st' HS HS2. cbn iota. apply wp_ok. cbn [r_low]. split; [|lia].
    split; [cbn [r_low]; lia|]. split; [|split; [|split]]; cbn [r_low r_threads r_lb r_phi_total r_s2 r_round].
    - rewrite Z.odd_add, I2. destruct E2 as [h ->]. replace (h * 2 * s * t) with (h * s * t * 2) by ring. rewrite (Z.odd_mul _ 2). now rewrite andb_false_r.
    - exact HS.
    - exists T'. split; auto.
    - rewrite I6, E0. replace (Z.min low limit) with low by lia. rewrite <- sumr_add. apply sumr_ext. intros b _. symmetry. unfold Wb. apply W_split. lia.
  Qed.

  Theorem par_master_ok leaf obs sched th min_size : (forall r, obs_ok (Z.sqrt limit) (obs r)) -> (forall r, valid_sched (sched r)) -> is_pow2 min_size -> 512 <= min_size <= 2 * Z.max (Z.sqrt limit) 512 ->
    wp (loop (fun m => if r_low m <? limit then m <- par_round env leaf obs sched limit m ;; Ok (inl m) else Ok (inr (r_s2 m)))
      {| r_low := 1; r_threads := th; r_lb := (min_size, min_size, 1); r_phi_total := amake (L + 1) 0; r_s2 := 0; r_round := 0 |})
      (fun v => v = S2_sum x y c).
  Proof.
    intros Hobs Hsch HPw Hms. pose proof limit_1 as L1. pose proof L_range as LR.
    apply (loop_rule _ master_inv (fun m => Z.max 0 (limit - r_low m))).
    - intros m HI. destruct (Z.ltb_spec (r_low m) limit) as [LL|LL].
      + apply wp_bind. eapply wp_mono; [apply (par_round_ok leaf obs sched m Hobs Hsch LL HI)|]. intros m' [HI' HL']. apply wp_ok. split; [exact HI'|]. lia.
      + apply wp_ok. destruct HI as (_ & _ & _ & _ & ->). rewrite (S2_sum_Wl x y ltac:(lia) Hyx c) by lia. replace (Z.min (r_low m) limit) with limit by lia. reflexivity.
    - split; [cbn; lia|]. split; [reflexivity|]. split; [cbn [r_lb]; split; [exact HPw|split; [exact HPw|lia]]|]. cbn [r_low r_phi_total r_s2].
      replace (Z.min 1 limit) with 1 by lia. split.
      + exists (fun _ => 0). split; [apply arr_make; lia|]. split; [intros b Hb _; symmetry; unfold phi_sum, Phi; apply sumr_empty; lia|].
        intros b Hb. pose proof (phi_sum_nonneg (1 - 1) 0). lia.
      + symmetry. apply sumr_zero. intros b _. unfold Wb. apply W_empty. lia.
    - cbn [r_low]. assert (2 ^ 58 < 2 ^ 400) by reflexivity. assert (limit < 2 ^ 57) by exact Hlim. lia.
  Qed.
End Par.

(** ** The complete computation *)
(** The environment of a computation for x: as for pi_lmo2 to pi_lmo5, and the
    observations of the load balancer are those of a z = x/y + 1 *)
Definition valid_par (o : par_oracles) (x : Z) : Prop :=
  valid_lmo (po_lmo o) x /\ (forall r, valid_sched (po_sched o r)) /\
  forall r3 r6, is_root 3 r3 x -> is_root 6 r6 x -> let z := x / lo_y (po_lmo o) r3 r6 + 1 in
    0 <= po_size o <= Z.sqrt z /\ forall r, obs_ok (Z.sqrt z) (po_obs o r).

Lemma par_z x r3 y : 2 <= x < 2 ^ 63 -> is_root 3 r3 x -> r3 <= y -> x / y + 1 < 2 ^ 57.
Proof.
  intros Hx (A0 & A1 & A2) Hy. assert (B : r3 < 2 ^ 21). { apply cube_lt; [lia|lia|]. change ((2 ^ 21) ^ 3) with (2 ^ 63). lia. }
  assert (1 <= r3). { destruct (Z.eq_dec r3 0) as [->|]; [|lia]. change ((0 + 1) ^ 3) with 1 in A2. lia. }
  assert (x / y < 2 ^ 45); [|lia]. apply Z.div_lt_upper_bound; [lia|].
  assert (Q : (r3 + 1) ^ 3 <= 8 * (r3 * r3) * r3). { replace ((r3 + 1) ^ 3) with ((r3 + 1) * ((r3 + 1) * (r3 + 1))) by ring.
    assert ((r3 + 1) * (r3 + 1) <= 2 * r3 * (2 * r3)) by (apply Z.mul_le_mono_nonneg; lia).
    assert ((r3 + 1) * ((r3 + 1) * (r3 + 1)) <= 2 * r3 * (2 * r3 * (2 * r3))) by (apply Z.mul_le_mono_nonneg; lia). lia. }
  assert (R : r3 * r3 <= 2 ^ 21 * 2 ^ 21) by (apply Z.mul_le_mono_nonneg; lia).
  assert (8 * (r3 * r3) * r3 <= 2 ^ 45 * y). { apply Z.mul_le_mono_nonneg; lia. } lia.
Qed.

Theorem pi_lmo_parallel1_ok o x threads : valid_par o x -> x < 2 ^ 63 -> 1 <= threads < 2 ^ 31 -> pi_lmo_parallel1 o x threads = Ok (prime_sum x).
Proof.
  intros [(HO & HR6 & HR3 & HY) [HSc HPo]] Hx63 Hth. pose proof HO as (HO1 & HO2 & HO3 & HO4 & HO5). unfold pi_lmo_parallel1. destruct (Z.ltb_spec x 2) as [LT|G].
  { now rewrite prime_sum_small by lia. }
  cbv zeta.
  assert (T1 : tmax i128 = 2 ^ 127 - 1) by reflexivity.
  assert (C1 : 2 ^ 63 < 2 ^ 122) by reflexivity. assert (C2 : 2 ^ 122 < 2 ^ 127 - 1) by reflexivity.
  destruct (iroot_widths i128 6) as (W1 & W2 & W3); [cbn; tauto|cbn; tauto|].
  destruct (iroot_all i128 6 (lo_root6 (po_lmo o)) x W1 W2 W3) as (r6 & E6 & R6); [lia|change ((tdigits i128 + 6 - 1) / 6) with 22; lia|]. rewrite E6, bind_Ok.
  destruct (iroot_widths i128 3) as (U1 & U2 & U3); [cbn; tauto|cbn; tauto|].
  destruct (iroot_all i128 3 (lo_root3 (po_lmo o)) x U1 U2 U3) as (r3 & E3 & R3); [lia|change ((tdigits i128 + 3 - 1) / 3) with 43; lia|]. rewrite E3, bind_Ok.
  destruct (HY r3 r6 R3 R6) as (HY1 & HY2). cbv zeta in HY1, HY2. destruct (HPo r3 r6 R3 R6) as (Z2 & Z3). cbv zeta in Z2, Z3. clear HY HPo. pose proof (par_z x r3 _ ltac:(lia) R3 (proj1 HY1)) as Z1.
  set (y := lo_y (po_lmo o) r3 r6) in *.
  destruct (y_range x r3 r6 y G R3 R6 HY1) as (Hy & Hyx). rewrite get_c_ok by lia. rewrite bind_Ok. set (c := Z.min 6 (pi y)).
  assert (Hz : x / Z.max y 1 < 2 ^ 62) by (rewrite Z.max_l by lia; lia).
  rewrite P2_ok; [|lia|lia|exact Hz|lia|exact HO3|exact HO4]. rewrite bind_Ok.
  apply wp_eq. apply wp_bind. eapply wp_mono; [apply generate_moebius_ok; lia|]. intros mut Hmu.
  apply wp_bind. eapply wp_mono; [apply generate_lpf_ok; lia|]. intros lpf Hlpf. unfold generate_primes. rewrite map_swrap32 by lia.
  pose proof (c_small y) as Hc. fold c in Hc. pose proof (pi_nonneg y).
  rewrite S1_ok; [|exact HO5|lia|lia|exact Hc| |apply c_two; lia|].
  2:{ intros _ _. change (smax 64) with (2 ^ 63 - 1). lia. }
  2:{ intros n' Hn'. apply window_free_64. change (smax 64) with (2 ^ 63 - 1). assert (x / n' <= x) by (apply Z.div_le_upper_bound; nia). lia. }
  rewrite bind_Ok. apply wp_bind.
  assert (HS : wp (par_S2 o x y c (prime_table y) lpf mut threads) (fun v => v = S2_sum x y c)).
  { unfold par_S2. rewrite zdiv_ok by lia. rewrite bind_Ok. cbv zeta. assert (0 <= x / y) by (apply Z.div_pos; lia). rewrite swrap64 by lia.
    assert (SB : Z.sqrt (x / y + 1) < 2 ^ 32) by (apply Z.sqrt_lt_square; lia).
    apply wp_bind. eapply wp_mono; [apply (lb_min_size_ok (Z.sqrt (x / y + 1))); [exact Z2|exact SB]|]. intros m (M1 & M2).
    apply wp_bind. eapply wp_mono; [apply generate_pi_ok; lia|]. intros pit HP. rewrite prime_table_len. apply par_master_ok; auto; lia. }
  eapply wp_mono; [exact HS|]. intros s2 ->. rewrite prime_sum_tiny_ok by lia. rewrite bind_Ok. rewrite lmo_formula_ok. apply wp_ok.
  pose proof (prime_sum_combine x y c ltac:(nia) ltac:(lia) ltac:(unfold c; lia)) as F. transitivity (swrap 256 (prime_sum x)); [f_equal; lia|]. apply ps_wrap. lia.
Qed.
