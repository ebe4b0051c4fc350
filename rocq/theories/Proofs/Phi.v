(** phi(x, a) with its cache, and pi_legendre. *)
From Coq Require Import ZArith List Bool Lia Znumtheory Permutation.
From Verif.Base Require Import Res Word Zl Arr Par.
From Verif.Spec Require Import Primes LMOSpec.
From Verif.Model Require Import Primesieve PiTable PhiTiny Phi.
From Verif.Proofs Require Import Primes NT PhiSum Primesieve PiTable PhiTiny.
Import ListNotations.
Open Scope Z_scope.

Local Ltac Zify.zify_post_hook ::= idtac.

Lemma sqrt_le_iff n p : 0 <= n -> 0 <= p -> (p <= Z.sqrt n <-> p * p <= n).
Proof. intros. symmetry. apply Z.sqrt_le_square; auto. Qed.

Lemma div_le_self x p : 0 <= x -> 1 <= p -> x / p <= x.
Proof. intros. apply Z.div_le_upper_bound; nia. Qed.

(** nonzero cache entries are right *)
Definition cache_ok (cache : phi_cache) : Prop :=
  zlen cache = 100 /\ forall a x row v, aget cache a = Ok row -> aget row x = Ok v -> v = 0 \/ v = phi x a.
Lemma empty_cache_ok : cache_ok empty_cache.
Proof.
  split; [reflexivity|]. intros a x row v E1 E2. unfold empty_cache in E1.
  assert (0 <= a < MAX_A). { apply aget_range in E1. rewrite amake_len in E1 by (vm_compute; discriminate). exact E1. }
  rewrite amake_get in E1 by auto. inversion E1; subst. apply aget_range in E2. unfold zlen in E2. simpl in E2. lia.
Qed.
Lemma update_cache_ok cache x a s : cache_ok cache -> 0 <= a -> 0 <= x -> s = phi x a \/ s = - phi x a ->
  wp (update_cache cache x a s) cache_ok.
Proof.
  intros [Hl Hc] Ha Hx Hs. unfold update_cache.
  destruct (Z.ltb_spec a (zlen cache)) as [La|La]; cbn [andb]; [|now split].
  destruct (Z.leb_spec x (umax 16)) as [Lx|Lx]; [|now split].
  destruct (aget_ex cache a) as [row Er]; [lia|]. rewrite Er. cbn [bind].
  set (row2 := if zlen row <=? x then row ++ amake (x + 1 - zlen row) 0 else row).
  assert (L2 : 0 <= x < zlen row2).
  { unfold row2. destruct (Z.leb_spec (zlen row) x); [|lia]. rewrite zlen_app, amake_len; lia. }
  assert (R2 : forall k v, aget row2 k = Ok v -> v = 0 \/ v = phi k a).
  { intros k v. unfold row2. destruct (Z.leb_spec (zlen row) x); [|intros E; eapply Hc; eauto].
    intros E. pose proof (aget_range _ _ _ E) as R. rewrite zlen_app, amake_len in R by lia.
    rewrite aget_app in E. destruct (Z.ltb_spec k (zlen row)); [eapply Hc; eauto|].
    rewrite amake_get in E by lia. inversion E. now left. }
  apply wp_bind, wp_aset; auto. intros row3 L3 G3.
  apply wp_aset; [lia|]. intros c' L' G'. split; [congruence|].
  intros b k r v Eb Ek. rewrite G' in Eb. destruct (Z.eqb_spec b a) as [->|Nb]; [|eapply Hc; eauto].
  inversion Eb; subst r. rewrite G3 in Ek. destruct (Z.eqb_spec k x) as [->|Nk]; [|auto].
  inversion Ek; subst v. right. pose proof (phi_nonneg x a). pose proof (phi_le_x x a Hx).
  replace (Z.abs s) with (phi x a) by lia. unfold uwrap. apply Z.mod_small. unfold umax in Lx. lia.
Qed.
Lemma cached_ok cache x a : cache_ok cache -> 0 <= a -> 0 <= x ->
  wp (cached cache x a) (fun v => v = 0 \/ v = phi x a).
Proof.
  intros [Hl Hc] Ha Hx. unfold cached. destruct (Z.ltb_spec a (zlen cache)); [|now left].
  destruct (aget_ex cache a) as [row Er]; [lia|]. rewrite Er. cbn [bind].
  destruct (Z.ltb_spec x (zlen row)); [|now left].
  destruct (aget_ex row x) as [v Ev]; [lia|]. rewrite Ev. simpl. eapply Hc; eauto.
Qed.

Lemma in64 x v : 0 <= v <= x -> x <= smax 64 -> in_s 64 v /\ in_s 64 (- v).
Proof. unfold in_s, smin, smax. intros. split; lia. Qed.
Lemma in64s s x v : s = 1 \/ s = -1 -> 0 <= v <= x -> x <= smax 64 -> in_s 64 (v * s) /\ in_s 64 (s * v).
Proof. intros [-> | ->] H1 H2; destruct (in64 x v H1 H2); split; [replace (v * 1) with v by ring|replace (1 * v) with v by ring|replace (v * -1) with (- v) by ring|replace (-1 * v) with (- v) by ring]; auto. Qed.

Section Table.
  Variables (primes : list Z) (A : Z) (P : Z -> Z).
  Hypothesis P0 : aget primes 0 = Ok 0.
  Hypothesis PT : forall b, 1 <= b <= A -> aget primes b = Ok (P b) /\ prime (P b) /\ pi (P b) = b /\ P b < 2 ^ 31.

  Lemma P_ge2 b : 1 <= b <= A -> 2 <= P b.
  Proof. intros H. apply prime_ge_2, PT, H. Qed.
  Lemma P_le b n : 1 <= b <= A -> (b <= pi n <-> P b <= n).
  Proof. intros H. destruct (PT b H) as (_ & Hp & E & _). rewrite <- E at 1. now apply prime_pi_le. Qed.
  Lemma P_lt b b' : 1 <= b -> b < b' -> b' <= A -> P b < P b'.
  Proof.
    intros H1 H2 H3. destruct (PT b ltac:(lia)) as (_ & Hp & E & _), (PT b' ltac:(lia)) as (_ & Hp' & E' & _).
    apply prime_pi_lt; auto. lia.
  Qed.

  (** phi(x, k) = phi(x, c) - sum of phi(x / p_{i+1}, i) *)
  Lemma phi_telescope x c k : 0 <= c <= k -> k <= A ->
    phi x k = phi x c - sumr c k (fun i => phi (x / P (i + 1)) i).
  Proof.
    intros [Hc Hk]. replace k with (c + (k - c)) by lia. assert (Hd : 0 <= k - c) by lia. revert Hd.
    generalize (k - c). clear k Hk. intros d Hd. revert d Hd.
    apply (natlike_ind (fun d => c + d <= A -> phi x (c + d) = phi x c - sumr c (c + d) (fun i => phi (x / P (i + 1)) i))).
    - intros _. rewrite Z.add_0_r, sumr_empty by lia. lia.
    - intros d Hd IH HA. unfold Z.succ in *. rewrite Z.add_assoc in *.
      rewrite sumr_snoc by lia. specialize (IH ltac:(lia)).
      destruct (PT (c + d + 1) ltac:(lia)) as (_ & Hp & E & _).
      pose proof (phi_step (P (c + d + 1)) x Hp) as St. rewrite E in St. replace (c + d + 1 - 1) with (c + d) in St by lia.
      lia.
  Qed.
  Lemma phi_terms_one x i : 1 <= x -> 0 <= i < A -> P (i + 1) <= x -> x < P (i + 1) * P (i + 1) -> phi (x / P (i + 1)) i = 1.
  Proof.
    intros Hx Hi H1 H2. destruct (PT (i + 1) ltac:(lia)) as (_ & Hp & E & _). pose proof (prime_ge_2 _ Hp).
    assert (Ei : i = pi (P (i + 1) - 1)). { pose proof (pi_prime _ Hp). lia. }
    rewrite Ei at 2. apply phi_one. split.
    - apply Z.div_le_lower_bound; lia.
    - apply Z.lt_succ_r. replace (Z.succ (P (i + 1) - 1)) with (P (i + 1)) by lia. apply Z.div_lt_upper_bound; lia.
  Qed.
  (** the loop stops at min(pi(sqrt x), a) *)
  Lemma phi_split x c a m : 1 <= x -> 0 <= c <= m -> a <= A -> (1 <= a -> P a <= x) -> m = Z.min (pi (Z.sqrt x)) a ->
    phi x a = phi x c - (a - m) - sumr c m (fun i => phi (x / P (i + 1)) i).
  Proof.
    intros Hx Hc Ha HP Hm. rewrite (phi_telescope x c a) by lia. rewrite (sumr_split c m a) by lia.
    rewrite (sumr_ext m a _ (fun _ => 1)); [rewrite sumr_const by lia; lia|].
    intros i Hi. assert (HPa : P (i + 1) <= P a).
    { destruct (Z.eq_dec (i + 1) a) as [->|]; [lia|]. apply Z.lt_le_incl, P_lt; lia. }
    apply phi_terms_one; [lia|lia|specialize (HP ltac:(lia)); lia|].
    pose proof (P_le (i + 1) (Z.sqrt x) ltac:(lia)) as [_ L]. pose proof (P_ge2 (i + 1) ltac:(lia)).
    destruct (Z.lt_ge_cases x (P (i + 1) * P (i + 1))); auto.
    exfalso. apply sqrt_le_iff in H0; [|lia|lia]. apply L in H0. lia.
  Qed.
  (** pi(x) - a + 1 *)
  Lemma phi_pix x a : 0 <= a < A -> 1 <= x -> (1 <= a -> P a <= x) -> x < P (a + 1) * P (a + 1) -> phi x a = pi x - a + 1.
  Proof.
    intros Ha Hx H1 H2. destruct (PT (a + 1) ltac:(lia)) as (_ & Hp & E & _). pose proof (prime_ge_2 _ Hp).
    assert (Ea : a = pi (P (a + 1) - 1)). { pose proof (pi_prime _ Hp). lia. }
    destruct (Z.lt_ge_cases x (P (a + 1) - 1)) as [L|L].
    - assert (Hpx : pi x = a).
      { pose proof (pi_mono x (P (a + 1) - 1) ltac:(lia)). pose proof (pi_nonneg x).
        destruct (Z.eq_dec a 0); [lia|]. specialize (H1 ltac:(lia)). apply P_le in H1; lia. }
      rewrite <- Hpx at 1. rewrite phi_one by lia. lia.
    - rewrite Ea at 1. unfold phi. rewrite (Phi_legendre (fun _ => 1) x (P (a + 1))) by lia.
      rewrite (pi_psum x). destruct (Z.lt_ge_cases x (P (a + 1))).
      + rewrite psum_empty by lia. rewrite <- pi_psum. replace x with (P (a + 1) - 1) by lia. lia.
      + rewrite (psum_split 2 (P (a + 1) - 1) x) by lia. rewrite <- pi_psum. replace (P (a + 1) - 1 + 1) with (P (a + 1)) by lia. lia.
  Qed.

  Variables (pt : pitable) (M : Z) (tabs : list (list Z)).
  Hypothesis Hpt : pi_ok pt M.
  Hypothesis HM : 1 <= A -> P A <= M.
  Hypothesis HT : tiny_good tabs.
  Lemma size_M : pi_size pt = M + 1.
  Proof. unfold pi_size. now rewrite (proj1 Hpt). Qed.
  Lemma P_leA b : 1 <= b <= A -> P b <= M.
  Proof.
    intros H. specialize (HM ltac:(lia)). destruct (Z.eq_dec b A) as [->|]; auto.
    pose proof (P_lt b A). lia.
  Qed.

  Lemma is_pix_ok x a : 0 <= a < A -> is_pix primes pt x a = Ok ((x <=? M) && (x <? P (a + 1) * P (a + 1))).
  Proof.
    intros Ha. unfold is_pix. rewrite size_M.
    destruct (Z.ltb_spec x (M + 1)), (Z.leb_spec x M); try lia; cbn [andb]; auto.
    destruct (PT (a + 1) ltac:(lia)) as (-> & Hp & _ & B). pose proof (prime_ge_2 _ Hp). cbn [bind].
    rewrite schk_ok; auto. unfold in_s, smin, smax. change (64 - 1) with 63. change (2 ^ 63) with (2 * (2 ^ 31 * 2 ^ 31)).
    change (2 ^ 31) with 2147483648 in *. nia.
  Qed.

  Lemma cache_phi_ok n : forall s x a cache, s = 1 \/ s = -1 -> 1 <= x <= smax 64 -> 0 <= a < A -> (Z.to_nat a < n)%nat ->
    cache_ok cache ->
    wp (cache_phi n tabs primes pt s x a cache) (fun r => fst r = s * phi x a /\ cache_ok (snd r)).
  Proof.
    induction n as [|n IH]; intros s x a cache Hs Hx Ha Hn Hc; [lia|]. cbn [cache_phi].
    assert (Ep : exists p, aget primes a = Ok p /\ (1 <= a -> p = P a) /\ (a = 0 -> p = 0)).
    { destruct (Z.eq_dec a 0) as [->|]; [exists 0; repeat split; auto; lia|].
      exists (P a). split; [apply PT; lia|]. split; auto; lia. }
    destruct Ep as (p & Ep & Ep1 & Ep0). rewrite Ep. cbn [bind].
    destruct (Z.leb_spec x p) as [L|L].
    { cbn [wp fst snd]. split; auto. assert (1 <= a) by lia. rewrite Ep1 in L by auto.
      destruct (PT a ltac:(lia)) as (_ & _ & E & _). rewrite <- E. rewrite phi_one by lia. ring. }
    unfold is_phi_tiny. change tiny_max_a with 6. destruct (Z.leb_spec a 6) as [T6|T6].
    { rewrite phi_tiny_ok by (auto; lia). cbn [bind]. pose proof (phi_nonneg x a). pose proof (phi_le_x x a ltac:(lia)).
      rewrite schk_ok by (apply (in64s s x); auto; lia). cbn [bind wp fst snd]. split; auto. ring. }
    rewrite is_pix_ok by lia. cbn [bind]. rewrite Ep1 in L by lia.
    assert (B0 : 0 <= phi x a <= x) by (split; [apply phi_nonneg|apply phi_le_x; lia]).
    destruct ((x <=? M) && (x <? P (a + 1) * P (a + 1))) eqn:EP.
    { apply andb_prop in EP. destruct EP as [E1 E2]. apply Z.leb_le in E1. apply Z.ltb_lt in E2.
      rewrite (pi_get_ok pt M) by (auto; lia). cbn [bind].
      rewrite <- phi_pix by (auto; lia). rewrite schk_ok by (apply (in64s s x); auto; lia).
      cbn [bind wp fst snd]. split; auto. ring. }
    clear EP. apply wp_bind. eapply wp_mono; [apply cached_ok; auto; lia|]. intros cv Hcv. cbn beta in Hcv.
    destruct (Z.eqb_spec cv 0) as [->|Ncv]; cbn [negb].
    2:{ cbn [wp fst snd]. split; auto. destruct Hcv; [lia|]. subst cv. ring. }
    clear Hcv. set (r := Z.sqrt x). assert (Hr : 1 <= r). { apply sqrt_le_iff; lia. }
    rewrite get_c_ok by lia. cbn [bind].
    set (m := Z.min (pi r) a).
    assert (Em : (if r <? pi_size pt then v <- pi_get pt r;; Ok (Z.min v a) else Ok a) = Ok m).
    { rewrite size_M. destruct (Z.ltb_spec r (M + 1)).
      - rewrite (pi_get_ok pt M) by (auto; lia). reflexivity.
      - f_equal. unfold m. assert (a <= pi r); [|lia]. apply P_le; [lia|]. pose proof (P_leA a ltac:(lia)). lia. }
    rewrite Em. cbn [bind]. clear Em. set (c := Z.min 6 (pi r)).
    pose proof (pi_nonneg r) as Pr.
    assert (Hc6 : 0 <= c <= 6) by lia. assert (Hcm : c <= m) by lia. assert (Hma : m <= a) by lia.
    pose (g := fun i => phi (x / P (i + 1)) i).
    assert (Gn : forall i, 0 <= g i) by (intros; apply phi_nonneg).
    assert (Esp : phi x a = phi x c - (a - m) - sumr c m g) by (apply phi_split; auto; lia).
    assert (Bc : 0 <= phi x c <= x) by (split; [apply phi_nonneg|apply phi_le_x; lia]).
    assert (Sm : forall i, c <= i <= m -> 0 <= sumr c i g /\ sumr c i g <= sumr c m g).
    { intros i Hi. rewrite (sumr_split c i m) by lia. pose proof (sumr_nonneg c i g ltac:(auto)). pose proof (sumr_nonneg i m g ltac:(auto)). lia. }
    pose proof (Sm m ltac:(lia)) as Smm.
    rewrite schk_ok. 2:{ replace (0 + (m - a) * s) with ((a - m) * (- s)) by ring. apply (in64s (- s) x); [lia|lia|lia]. }
    cbn [bind]. rewrite phi_tiny_ok by (auto; lia). cbn [bind].
    rewrite schk_ok. 2:{ replace (0 + (m - a) * s + phi x c * s) with ((phi x c - (a - m)) * s) by ring. apply (in64s s x); [lia|lia|lia]. }
    cbn [bind]. apply wp_bind.
    apply (for_rule c m _ (fun i st => fst st = s * (phi x c - (a - m) - sumr c i g) /\ cache_ok (snd st))).
    - assert (a < 2 ^ 31). { destruct (PT a ltac:(lia)) as (_ & _ & E & B). rewrite <- E. pose proof (pi_le (P a)). pose proof (P_ge2 a). lia. }
      assert (2 ^ 31 < 2 ^ 400) by reflexivity. lia.
    - cbn [fst snd]. split; auto. rewrite sumr_empty by lia. ring.
    - intros i [sum cch] Hi [Hsum Hcch]. cbn [fst snd] in Hsum, Hcch.
      destruct (PT (i + 1) ltac:(lia)) as (Eq & Hq & Eiq & Bq). rewrite Eq. cbn [bind].
      pose proof (prime_ge_2 _ Hq) as Q2. rewrite Z.quot_div_nonneg by lia.
      assert (Qr : P (i + 1) <= r). { apply (P_le (i + 1)); lia. }
      assert (Qx : P (i + 1) * P (i + 1) <= x). { apply sqrt_le_iff; [lia|lia|exact Qr]. }
      assert (X2 : P (i + 1) <= x / P (i + 1)) by (apply Z.div_le_lower_bound; lia).
      assert (X3 : x / P (i + 1) <= x) by (apply div_le_self; lia).
      set (x2 := x / P (i + 1)) in *. 
      assert (G2 : g i = phi x2 i) by reflexivity.
      assert (Snoc : sumr c (i + 1) g = sumr c i g + g i) by (apply sumr_snoc; lia).
      pose proof (Sm (i + 1) ltac:(lia)) as S1.
      assert (Bn : in_s 64 (s * (phi x c - (a - m) - sumr c (i + 1) g))) by (apply (in64s s x); [auto|lia|lia]).
      assert (Pi2 : 1 <= i -> P i <= x2). { intros. pose proof (P_lt i (i + 1)). lia. }
      rewrite is_pix_ok by lia. cbn [bind].
      destruct ((x2 <=? M) && (x2 <? P (i + 1) * P (i + 1))) eqn:EP.
      + apply andb_prop in EP. destruct EP as [E1 E2]. apply Z.leb_le in E1. apply Z.ltb_lt in E2.
        rewrite (pi_get_ok pt M) by (auto; lia). cbn [bind].
        rewrite <- phi_pix by (auto; lia). rewrite <- G2, Hsum.
        replace (s * (phi x c - (a - m) - sumr c i g) + g i * - s) with (s * (phi x c - (a - m) - sumr c (i + 1) g)) by (rewrite Snoc; ring).
        rewrite schk_ok by auto. cbn [bind wp fst snd]. auto.
      + apply wp_bind. eapply wp_mono; [apply (IH (- s) x2 i cch); [clear - Hs; lia|clear - Hx X2 X3 Q2; lia|clear - Hi Ha Hc6 Hma; lia|clear - Hi Hn Hc6 Hma; lia|exact Hcch]|].
        intros [v cc] [Ev Hcc]. cbn [fst snd] in *. rewrite Ev, <- G2, Hsum.
        replace (s * (phi x c - (a - m) - sumr c i g) + - s * g i) with (s * (phi x c - (a - m) - sumr c (i + 1) g)) by (rewrite Snoc; ring).
        rewrite schk_ok by auto. cbn [bind wp fst snd]. auto.
    - intros [sum cch] [Hsum Hcch]. cbn [fst snd] in *. rewrite Z.max_r in Hsum by lia. rewrite <- Esp in Hsum.
      apply wp_bind. eapply wp_mono; [apply update_cache_ok; auto; try lia|].
      intros c' Hc'. cbn [wp fst snd]. auto.
  Qed.
End Table.

Lemma table_of a : 0 <= a -> exists P, forall b, 1 <= b <= a -> b <= pi (2 ^ 31 - 1) ->
  aget (generate_n_primes a) b = Ok (P b) /\ prime (P b) /\ pi (P b) = b /\ P b < 2 ^ 31.
Proof.
  intros Ha. exists (fun b => nth (Z.to_nat b) (generate_n_primes a) 0). intros b Hb Hb2.
  destruct (generate_n_primes_get a b Hb Hb2) as (p & E & H).
  pose proof (aget_ok (generate_n_primes a) b 0 (aget_range _ _ _ E)) as E2. rewrite E2.
  assert (E3 : nth (Z.to_nat b) (generate_n_primes a) 0 = p) by congruence. rewrite E3. split; [reflexivity|exact H].
Qed.

Lemma gnp_0 a : aget (generate_n_primes a) 0 = Ok 0.
Proof. reflexivity. Qed.

Lemma phi_xa_ok sched x a : valid_sched sched -> x <= smax 64 -> a <= pi (2 ^ 31 - 1) ->
  phi_xa sched x a = Ok (phi x a).
Proof.
  intros HS Hx HA31. unfold phi_xa. destruct (wp_inv _ _ PhiTiny_init_ok) as (tabs & Et & HT). rewrite Et. cbn [bind].
  destruct (Z.ltb_spec x 1). { now rewrite phi_x0. }
  destruct (Z.gtb_spec a x) as [G|G].
  { f_equal. destruct (table_of a) as (P & HP); [lia|]. destruct (HP a ltac:(lia) HA31) as (_ & Hp & E & _).
    pose proof (pi_le (P a)). pose proof (prime_ge_2 _ Hp). rewrite <- E. symmetry. apply phi_one. lia. }
  destruct (Z.ltb_spec a 1) as [L|L].
  { f_equal. rewrite <- (phi_0 x) at 1 by lia. unfold phi. rewrite !Phi_le0 by lia. reflexivity. }
  unfold is_phi_tiny. change tiny_max_a with 6. destruct (Z.leb_spec a 6) as [T6|T6].
  { apply phi_tiny_ok; auto; lia. }
  destruct (table_of a) as (P & HP); [lia|].
  assert (PT : forall b, 1 <= b <= a -> aget (generate_n_primes a) b = Ok (P b) /\ prime (P b) /\ pi (P b) = b /\ P b < 2 ^ 31).
  { intros b Hb. apply HP; [exact Hb|]. clear - Hb HA31. lia. }
  clear HP HA31. destruct (PT a ltac:(lia)) as (Ea & Hpa & Epa & Bpa). rewrite Ea. cbn [bind].
  destruct (Z.geb_spec (P a) x) as [Ge|Lt].
  { f_equal. rewrite <- Epa. symmetry. apply phi_one. lia. }
  set (r := Z.sqrt x). assert (Hr : 1 <= r) by (apply sqrt_le_iff; lia).
  assert (R32 : r < 2 ^ 32). { assert (r * r <= x) by (apply sqrt_le_iff; lia). unfold smax in Hx. change (2 ^ (64 - 1)) with (2 ^ 63) in Hx. change (2 ^ 63) with 9223372036854775808 in Hx. change (2 ^ 32) with 4294967296. nia. }
  destruct (wp_inv _ _ (PiTable_ok (Z.max r (P a)) ltac:(change (2 ^ 31) with 2147483648 in *; change (2 ^ 32) with 4294967296 in *; change (2 ^ 62) with 4611686018427387904; lia))) as (pt & Ept & Hpt).
  rewrite Ept. cbn [bind]. rewrite get_c_ok by lia. cbn [bind]. rewrite (pi_get_ok pt (Z.max r (P a))) by (auto; lia). cbn [bind].
  pose proof (pi_nonneg r). set (c := Z.min 6 (pi r)). set (m := Z.min (pi r) a).
  pose (g := fun i => phi (x / P (i + 1)) i).
  assert (Gn : forall i, 0 <= g i) by (intros; apply phi_nonneg).
  assert (Esp : phi x a = phi x c - (a - m) - sumr c m g) by (apply (phi_split (generate_n_primes a) a P); auto; lia).
  assert (Bc : 0 <= phi x c <= x) by (split; [apply phi_nonneg|apply phi_le_x; lia]).
  pose proof (phi_nonneg x a). pose proof (sumr_nonneg c m g ltac:(auto)).
  rewrite phi_tiny_ok by (auto; lia). cbn [bind].
  rewrite schk_ok by (apply (in64 x); lia). cbn [bind].
  rewrite (par_sum_neg 64 _ cache_ok (fun i => - g i) c m).
  - f_equal. rewrite sumr_opp. lia.
  - apply HS.
  - apply empty_cache_ok.
  - intros i cch Hi Hc. destruct (PT (i + 1) ltac:(lia)) as (-> & Hq & Eq & _). cbn [bind].
    pose proof (prime_ge_2 _ Hq). rewrite Z.quot_div_nonneg by lia.
    assert (Qr : P (i + 1) <= r). { apply (prime_pi_le _ r Hq). lia. }
    assert (Qx : P (i + 1) * P (i + 1) <= x). { apply sqrt_le_iff; [lia|lia|exact Qr]. }
    assert (X2 : P (i + 1) <= x / P (i + 1)) by (apply Z.div_le_lower_bound; lia).
    assert (X3 : x / P (i + 1) <= x) by (apply div_le_self; lia).
    assert (HM : 1 <= a -> P a <= Z.max r (P a)) by lia.
    pose proof (cache_phi_ok (generate_n_primes a) a P (gnp_0 a) PT pt (Z.max r (P a)) tabs Hpt HM HT (S (Z.to_nat i)) (-1) (x / P (i + 1)) i cch) as CP.
    eapply wp_mono; [apply CP; [clear; lia|clear - Hx H H3 X2 X3; lia|clear - Hi H0; lia|clear; lia|exact Hc]|].
    intros v [Hv Hv2]. split; [|exact Hv2]. rewrite Hv. unfold g. ring.
  - intros i Hi. specialize (Gn i). lia.
  - rewrite sumr_opp. unfold smin, smax in *. lia.
  - apply (in64 x); lia.
  - rewrite sumr_opp. apply (in64 x); lia.
Qed.

(** ** pi_legendre *)
Lemma phi_legendre x : 1 <= x -> phi x (pi (Z.sqrt x)) + pi (Z.sqrt x) - 1 = pi x.
Proof.
  intros Hx. pose proof (Z.sqrt_spec x ltac:(lia)) as [S1 S2]. unfold Z.succ in S2. set (r := Z.sqrt x) in *.
  assert (Hr : 1 <= r) by (apply sqrt_le_iff; lia). assert (r <= x) by nia.
  unfold phi. replace (pi r) with (pi (r + 1 - 1)) at 1 by (f_equal; lia).
  rewrite (Phi_legendre (fun _ => 1) x (r + 1)) by lia. rewrite (pi_psum x), (psum_split 2 r x) by lia. rewrite <- pi_psum. lia.
Qed.

Lemma phi_legendre_sq q : 1 <= q -> phi (q * q) (pi q) + pi q - 1 = pi (q * q).
Proof. intros H. pose proof (phi_legendre (q * q) ltac:(nia)) as L. now rewrite Z.sqrt_square in L by lia. Qed.

(** 2147483659 is the first prime above 2^31 - 1 *)
Definition q31 : Z := 2147483659.
Lemma pi_gap z : 2 ^ 31 - 1 <= z < q31 -> pi z = pi (2 ^ 31 - 1).
Proof.
  intros Hz. assert (NP : forall n, 2 ^ 31 <= n < q31 -> ~ prime n).
  { intros n Hn Hp.
    assert (D : forall d, 1 < d < n -> ~ (d | n)) by (apply prime_alt in Hp; destruct Hp; auto).
    assert (C : exists d, 1 < d < 2 ^ 31 /\ n mod d = 0).
    { unfold q31 in Hn. change (2 ^ 31) with 2147483648 in *.
      assert (K : n = 2147483648 \/ n = 2147483649 \/ n = 2147483650 \/ n = 2147483651 \/ n = 2147483652 \/ n = 2147483653 \/
         n = 2147483654 \/ n = 2147483655 \/ n = 2147483656 \/ n = 2147483657 \/ n = 2147483658) by lia.
      destruct K as [-> |[-> |[-> |[-> |[-> |[-> |[-> |[-> |[-> |[-> | ->]]]]]]]]]];
        [exists 2|exists 3|exists 2|exists 83|exists 2|exists 7|exists 2|exists 3|exists 2|exists 11|exists 2]; (split; [lia|reflexivity]). }
    destruct C as (d & Hd & E). apply (D d); [lia|]. apply Z.mod_divide; [lia|exact E]. }
  destruct Hz as [Hz1 Hz2]. 
  assert (G : forall k, 0 <= k -> 2 ^ 31 - 1 + k < q31 -> pi (2 ^ 31 - 1 + k) = pi (2 ^ 31 - 1)).
  { apply (natlike_ind (fun k => 2 ^ 31 - 1 + k < q31 -> pi (2 ^ 31 - 1 + k) = pi (2 ^ 31 - 1))).
    - intros _. now rewrite Z.add_0_r.
    - intros k Hk IH L. unfold Z.succ in *. rewrite Z.add_assoc in *. rewrite pi_succ, IH by lia.
      assert (N : primeb (2 ^ 31 - 1 + k + 1) = false) by (apply primeb_false, NP; lia). rewrite N. lia. }
  specialize (G (z - (2 ^ 31 - 1)) ltac:(lia)). replace (2 ^ 31 - 1 + (z - (2 ^ 31 - 1))) with z in G by lia. now apply G.
Qed.

Fixpoint trial (k : nat) (d n : Z) : bool :=
  match k with O => true | S k => negb (n mod d =? 0) && trial k (d + 2) n end.
Lemma trial_spec k n : forall d, 0 < d -> trial k d n = true -> forall i, 0 <= i < Z.of_nat k -> n mod (d + 2 * i) <> 0.
Proof.
  induction k as [|k IH]; intros d Hd H i Hi; [lia|]. cbn [trial] in H. apply andb_prop in H. destruct H as [H1 H2].
  destruct (Z.eq_dec i 0) as [->|Ni].
  - rewrite Z.mul_0_r, Z.add_0_r. destruct (Z.eqb_spec (n mod d) 0); auto; discriminate.
  - replace (d + 2 * i) with (d + 2 + 2 * (i - 1)) by ring. apply (IH (d + 2)); auto; lia.
Qed.
Lemma q31_prime : prime q31.
Proof.
  destruct (prime_dec' q31) as [|N]; auto. exfalso.
  destruct (composite_divisor q31) as (p & Hp & Dp & Sp); [vm_compute; discriminate|exact N|].
  pose proof (prime_ge_2 p Hp). unfold q31 in *.
  assert (T : trial (Z.to_nat 23171) 3 2147483659 = true) by (vm_compute; reflexivity).
  assert (E : 2147483659 mod p = 0) by (apply Z.mod_divide; auto; lia).
  pose proof (Z.div_mod p 2 ltac:(lia)) as M2. pose proof (Z.mod_pos_bound p 2 ltac:(lia)).
  assert (Hm : p mod 2 = 0 \/ p mod 2 = 1) by lia. destruct Hm as [Hm|Hm].
  - assert (D2 : (2 | 2147483659)). { apply Z.divide_trans with p; auto. apply Z.mod_divide; auto; lia. }
    apply Z.mod_divide in D2; [discriminate|lia].
  - assert (p <= 46341) by nia. assert (p <> 1) by lia.
    pose proof (trial_spec (Z.to_nat 23171) 2147483659 3 eq_refl T (p / 2 - 1)) as TS. rewrite Z2Nat.id in TS by (clear; lia).
    clear T. apply TS; [lia|]. replace (3 + 2 * (p / 2 - 1)) with p by lia. exact E.
Qed.
Lemma pi_q31 : pi q31 = pi (2 ^ 31 - 1) + 1.
Proof. rewrite (pi_prime _ q31_prime), pi_gap; [reflexivity|]. split; [discriminate|reflexivity]. Qed.

Lemma pi_below31 z : z < q31 -> pi z <= pi (2 ^ 31 - 1).
Proof.
  intros Q. destruct (Z.le_gt_cases (2 ^ 31 - 1) z) as [G|G].
  - rewrite pi_gap; [apply Z.le_refl|split; [exact G|exact Q]].
  - apply pi_mono. apply Z.lt_le_incl. exact G.
Qed.

Definition valid_scheds (sched : nat -> Z -> Z -> list (list Z)) : Prop := forall n, valid_sched (sched n).

Lemma bind_Ok {A B} (a : A) (f : A -> res B) : bind (Ok a) f = f a.
Proof. reflexivity. Qed.
Lemma pi_legendre_S n sched x : pi_legendre_rec (S n) sched x =
  if x <? 2 then Ok 0 else
    a <- pi_legendre_rec n sched (Z.sqrt x) ;; p <- phi_xa (sched n) x a ;; schk 64 (p + a - 1).
Proof. reflexivity. Qed.
Lemma pi_legendre_rec_ok sched n : valid_scheds sched -> forall x, x < 2 ^ (2 ^ Z.of_nat n) -> x <= smax 64 -> x < q31 * q31 ->
  pi_legendre_rec (S n) sched x = Ok (pi x).
Proof.
  intros HS. induction n as [|n IH]; intros x H1 H2 H3; rewrite pi_legendre_S.
  - change (2 ^ (2 ^ Z.of_nat 0)) with 2 in H1. destruct (Z.ltb_spec x 2); [|lia]. now rewrite pi_small.
  - destruct (Z.ltb_spec x 2) as [L|L]; [now rewrite pi_small|].
    pose proof (Z.sqrt_spec x ltac:(lia)) as [S1 S2]. pose proof (Z.sqrt_nonneg x).
    assert (Er : pi_legendre_rec (S n) sched (Z.sqrt x) = Ok (pi (Z.sqrt x))).
    { apply IH.
      - assert (E : 2 ^ (2 ^ Z.of_nat (S n)) = 2 ^ (2 ^ Z.of_nat n) * 2 ^ (2 ^ Z.of_nat n)).
        { rewrite Nat2Z.inj_succ, Z.pow_succ_r by lia. rewrite <- Z.pow_add_r by (apply Z.pow_nonneg; lia). f_equal. lia. }
        rewrite E in H1. assert (0 < 2 ^ (2 ^ Z.of_nat n)) by (apply Z.pow_pos_nonneg; [lia|apply Z.pow_nonneg; lia]). nia.
      - nia.
      - clear - S1 H3 L H. unfold q31 in *. nia. }
    rewrite Er, bind_Ok.
    assert (Q : Z.sqrt x < q31) by (clear - S1 H3 H; unfold q31 in *; nia).
    rewrite phi_xa_ok.
    + rewrite bind_Ok. rewrite phi_legendre by lia. apply schk_ok. pose proof (pi_nonneg x). pose proof (pi_le x ltac:(lia)).
      apply (in64 x); lia.
    + apply HS.
    + exact H2.
    + exact (pi_below31 _ Q).
Qed.
Lemma pi_legendre_ok sched x : valid_scheds sched -> x < q31 * q31 -> pi_legendre sched x = Ok (pi x).
Proof.
  intros HS H. assert (q31 * q31 < 2 ^ 63 - 1) by reflexivity.
  apply (pi_legendre_rec_ok sched 7 HS); [|unfold smax; change (64 - 1) with 63; lia|exact H].
  eapply Z.lt_trans; [exact H|]. reflexivity.
Qed.

(** With table entries right up to A = a - 1 and the last entry negative. *)
Lemma phi_xa_wrong sched x q A P : valid_sched sched ->
  x = q * q -> prime q -> pi q = A + 1 -> 7 <= A -> x <= smax 64 -> q < 2 ^ 32 -> swrap 32 q < 0 -> phi 1 A = 1 ->
  (forall b, 1 <= b <= A -> aget (generate_n_primes (A + 1)) b = Ok (P b) /\ prime (P b) /\ pi (P b) = b /\ P b < 2 ^ 31) ->
  phi_xa sched x (pi q) = Ok (phi x (pi q) + 1).
Proof.
  intros HS Ex Hq PQ A6 X64 Qb Sw Phi1 PT.
  unfold phi_xa. destruct (wp_inv _ _ PhiTiny_init_ok) as (tabs & Et & HT). rewrite Et, bind_Ok. clear Et.
  pose proof (prime_ge_2 q Hq) as Q2. pose proof (pi_le q ltac:(lia)) as Pq. rewrite PQ in *.
  assert (Xq : q <= x) by nia. assert (X0 : 0 <= x) by lia.
  destruct (Z.ltb_spec x 1) as [L|_]; [lia|].
  destruct (Z.gtb_spec (A + 1) x) as [L|_]; [lia|]. destruct (Z.ltb_spec (A + 1) 1); [lia|].
  unfold is_phi_tiny. change tiny_max_a with 6. destruct (Z.leb_spec (A + 1) 6); [lia|].
  destruct (generate_n_primes_any (A + 1) (A + 1)) as (q' & Eq & Hq' & Pq'); [lia|].
  assert (q' = q). { apply prime_pi_inj; [exact Hq'|exact Hq|]. rewrite Pq', PQ. reflexivity. }
  subst q'. rewrite Eq. cbn [bind]. set (w := swrap 32 q) in *.
  destruct (Z.geb_spec w x) as [L|_]; [lia|].
  assert (Sx : Z.sqrt x = q) by (rewrite Ex; apply Z.sqrt_square; lia). rewrite Sx.
  rewrite Z.max_l by lia.
  assert (P62 : 2 ^ 32 < 2 ^ 62) by reflexivity.
  destruct (wp_inv _ _ (PiTable_ok q ltac:(lia))) as (pt & Ept & Hpt).
  rewrite Ept. cbn [bind]. rewrite get_c_ok by lia. cbn [bind]. rewrite (pi_get_ok pt q q Hpt) by lia. cbn [bind].
  rewrite PQ. rewrite Z.min_l by lia. rewrite Z.min_id.
  rewrite phi_tiny_ok; [|exact HT|lia|lia]. cbn [bind].
  assert (Bc : 0 <= phi x 6 <= x) by (split; [apply phi_nonneg|apply phi_le_x; exact X0]).
  replace (phi x 6 - (A + 1) + (A + 1)) with (phi x 6) by ring.
  rewrite schk_ok by (apply (in64 x); lia). cbn [bind].
  pose (g := fun i => phi (x / P (i + 1)) i). pose (f := fun i => if i <? A then - g i else -1).
  assert (Gn : forall i, 0 <= g i) by (intros; apply phi_nonneg).
  assert (Sf : sumr 6 (A + 1) f = - sumr 6 A g - 1).
  { rewrite sumr_snoc by lia. unfold f at 2. destruct (Z.ltb_spec A A); [lia|].
    rewrite (sumr_ext 6 A f (fun i => - g i)); [rewrite sumr_opp; lia|].
    intros i Hi. unfold f. destruct (Z.ltb_spec i A); [reflexivity|lia]. }
  pose proof (phi_telescope (generate_n_primes (A + 1)) A P PT x 6 A ltac:(lia) ltac:(lia)) as Tel. fold g in Tel.
  pose proof (phi_step q x Hq) as St1. rewrite PQ in St1. replace (A + 1 - 1) with A in St1 by ring.
  pose proof (phi_step q q Hq) as St2. rewrite (phi_one q q) in St2 by lia. rewrite PQ in St2. replace (A + 1 - 1) with A in St2 by ring.
  assert (D1 : x / q = q) by (rewrite Ex; apply Z.div_mul; lia). rewrite D1 in St1.
  assert (D2 : q / q = 1) by (apply Z.div_same; lia). rewrite D2, Phi1 in St2.
  pose proof (phi_nonneg x (A + 1)) as N1.
  assert (Nf : forall i, 6 <= i < A + 1 -> f i <= 0). { intros i Hi. unfold f. specialize (Gn i). destruct (i <? A); lia. }
  assert (Sg : 0 <= sumr 6 A g) by (apply sumr_nonneg; intros; apply Gn).
  rewrite (par_sum_neg 64 _ cache_ok f 6 (A + 1)); [| | | |exact Nf| | |].
  - f_equal. rewrite Sf. lia.
  - apply HS.
  - apply empty_cache_ok.
  - intros i cch Hi Hc. unfold f. destruct (Z.ltb_spec i A) as [Li|Li].
    + destruct (PT (i + 1) ltac:(lia)) as (-> & Hqi & Eqi & Bqi). cbn [bind].
      pose proof (prime_ge_2 _ Hqi) as Q2i. rewrite Z.quot_div_nonneg by lia.
      assert (Qq : P (i + 1) < q) by (apply prime_pi_lt; [exact Hqi|exact Hq|lia]).
      assert (X2 : 1 <= x / P (i + 1)) by (apply Z.div_le_lower_bound; lia).
      assert (X3 : x / P (i + 1) <= x) by (apply div_le_self; lia).
      assert (HM : 1 <= A -> P A <= q).
      { intros _. destruct (PT A ltac:(lia)) as (_ & HA & EA & B). apply Z.lt_le_incl. apply prime_pi_lt; [exact HA|exact Hq|lia]. }
      pose proof (cache_phi_ok (generate_n_primes (A + 1)) A P (gnp_0 (A + 1)) PT pt q tabs Hpt HM HT (S (Z.to_nat i)) (-1) (x / P (i + 1)) i cch) as CP.
      eapply wp_mono; [apply CP; [clear; lia|clear - X64 X2 X3; lia|clear - Hi Li; lia|clear; lia|exact Hc]|].
      intros v [Hv Hv2]. split; [|exact Hv2]. rewrite Hv. unfold g. ring.
    + replace i with A by lia. rewrite Eq. cbn [bind cache_phi].
      destruct (PT A ltac:(lia)) as (-> & HpA & _ & _). cbn [bind].
      assert (Ql : Z.quot x w <= P A).
      { pose proof (prime_ge_2 _ HpA). assert (Z.quot x w <= 0); [|lia].
        replace w with (- (- w)) by ring. rewrite Z.quot_opp_r by lia. pose proof (Z.quot_pos x (- w) X0 ltac:(lia)). lia. }
      destruct (Z.leb_spec (Z.quot x w) (P A)); [|lia]. cbn [wp fst snd]. auto.
  - rewrite Sf. unfold smin, smax in *. lia.
  - apply (in64 x); lia.
  - apply (in64 x); lia.
Qed.

(** The first failing argument: the table of phi holds 2147483659 as a negative int32_t. *)
Lemma phi_wrong sched : valid_sched sched -> phi_xa sched (q31 * q31) (pi q31) = Ok (phi (q31 * q31) (pi q31) + 1).
Proof.
  intros HS. assert (A6 : pi 17 <= pi (2 ^ 31 - 1)) by (apply pi_mono; discriminate).
  assert (P1 : phi 1 (pi (2 ^ 31 - 1)) = 1) by (apply phi_one; split; discriminate).
  pose proof pi_q31 as PQ.
  assert (T : exists P, forall b, 1 <= b <= pi (2 ^ 31 - 1) ->
     aget (generate_n_primes (pi (2 ^ 31 - 1) + 1)) b = Ok (P b) /\ prime (P b) /\ pi (P b) = b /\ P b < 2 ^ 31).
  { destruct (table_of (pi (2 ^ 31 - 1) + 1)) as (P & HP).
    { clear - A6. change (pi 17) with 7 in A6. lia. }
    exists P. intros b Hb. apply HP; [clear - Hb; lia|apply Hb]. }
  destruct T as (P & PT). change (pi 17) with 7 in A6.
  apply (phi_xa_wrong sched (q31 * q31) q31 (pi (2 ^ 31 - 1)) P); [exact HS|reflexivity|exact q31_prime|exact PQ|exact A6|discriminate|reflexivity|reflexivity|exact P1|exact PT].
Qed.
Lemma pi_legendre_wrong sched : valid_scheds sched -> pi_legendre sched (q31 * q31) = Ok (pi (q31 * q31) + 1).
Proof.
  intros HS. unfold pi_legendre. rewrite pi_legendre_S. destruct (Z.ltb_spec (q31 * q31) 2) as [L|_]; [discriminate|].
  assert (Er : pi_legendre_rec 7 sched (Z.sqrt (q31 * q31)) = Ok (pi q31)).
  { rewrite Z.sqrt_square by discriminate. apply (pi_legendre_rec_ok sched 6 HS); reflexivity || discriminate. }
  rewrite Er, bind_Ok. clear Er.
  rewrite phi_wrong by apply HS. rewrite bind_Ok.
  assert (X1 : 1 <= q31 * q31) by discriminate.
  assert (Q1 : 1 <= q31) by discriminate. pose proof (phi_legendre_sq q31 Q1) as PL.
  assert (X2 : q31 * q31 + 1 <= smax 64) by discriminate.
  revert PL X1 X2. generalize (q31 * q31) as x, (pi q31) as a. intros x a PL X1 X2.
  replace (phi x a + 1 + a - 1) with (pi x + 1) by (rewrite <- PL; ring).
  apply schk_ok. pose proof (pi_nonneg x). pose proof (pi_le x ltac:(lia)).
  apply (in64 (x + 1)); [lia|exact X2].
Qed.
