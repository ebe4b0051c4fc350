(** Special leaves n = p*m grouped by the interval that contains x/n, as needed by the
    segmented sieves.  [keep] selects the leaves in question: all of them, or the hard
    ones. *)
From Coq Require Import ZArith List Bool Lia Znumtheory.
From Verif.Base Require Import Res Word Zl Arr.
From Verif.Spec Require Import Primes LMOSpec S2Spec WheelSpec.
From Verif.Model Require Import FactorTable.
From Verif.Proofs Require Import Primes NT LMO Tables PhiSum Leaf S2Leaf FactorTable.
Import ListNotations.
Open Scope Z_scope.
Local Ltac Zify.zify_post_hook ::= idtac.

(** weight of a leaf *)
Definition lw (keep : Z -> Z -> bool) (p m : Z) : Z := if roughb (pi p) m && keep p m then - (mu m * (p * m)) else 0.
(** the leaves of p with lo <= x/n < hi *)
Definition W (keep : Z -> Z -> bool) (x y p lo hi : Z) (f : Z -> Z) : Z :=
  sumr (y / p + 1) (y + 1) (fun m =>
    if (lo <=? x / (p * m)) && (x / (p * m) <? hi) then lw keep p m * f (x / (p * m)) else 0).

(** the same sum with [h] applied to each term: W for the identity, the sum of the
    absolute values for Z.abs *)
Definition Wh (h : Z -> Z) (keep : Z -> Z -> bool) (x y p lo hi : Z) (f : Z -> Z) : Z :=
  sumr (y / p + 1) (y + 1) (fun m =>
    h (if (lo <=? x / (p * m)) && (x / (p * m) <? hi) then lw keep p m * f (x / (p * m)) else 0)).
Definition Wa := Wh Z.abs.

(** the largest prime <= n, 0 if there is none *)
Definition top (n : Z) : Z := pr n (pi n).

Lemma pr_same a b k : 0 <= k <= pi a -> k <= pi b -> pr a k = pr b k.
Proof.
  intros Ha Hb. destruct (Z.eq_dec k 0) as [->|]; [now rewrite !pr_0|].
  destruct (pr_spec a k ltac:(lia)) as (P1 & E1 & L1). destruct (pr_spec b k ltac:(lia)) as (P2 & E2 & L2).
  destruct (Z.le_gt_cases (pr a k) (pr b k)) as [L|G].
  - destruct (Z.eq_dec (pr a k) (pr b k)); auto. pose proof (pi_lt_prime (pr a k) _ P2 ltac:(lia)). lia.
  - pose proof (pi_lt_prime (pr b k) _ P1 ltac:(lia)). lia.
Qed.
Lemma top_ge n q : prime q -> q <= n -> q <= top n.
Proof.
  intros Hq Hn. unfold top. rewrite <- (pr_pi n q) at 1 by auto. apply pr_mono_le; [apply pi_nonneg|now apply pi_mono|lia].
Qed.
Lemma top_spec n : top n = 0 \/ (prime (top n) /\ top n <= n).
Proof.
  unfold top. pose proof (pi_nonneg n). destruct (Z.eq_dec (pi n) 0) as [->|]; [left; apply pr_0|].
  right. destruct (pr_spec n (pi n)) as (A & _ & B); [lia|auto].
Qed.
Lemma top_pr M n : n <= M -> pr M (pi n) = top n.
Proof. intros H. unfold top. symmetry. apply pr_same; [pose proof (pi_nonneg n); lia|now apply pi_mono]. Qed.
Lemma top_nonneg n : 0 <= top n.
Proof. destruct (top_spec n) as [->|[H _]]; [lia|]. pose proof (prime_ge_2 _ H). lia. Qed.

Section W.
  Context (keep : Z -> Z -> bool) (x y : Z).
  Lemma W_split p lo mid hi f : lo <= mid <= hi -> W keep x y p lo hi f = W keep x y p lo mid f + W keep x y p mid hi f.
  Proof.
    intros H. unfold W. rewrite <- sumr_add. apply sumr_ext. intros m _.
    destruct (Z.leb_spec lo (x / (p * m))), (Z.ltb_spec (x / (p * m)) hi), (Z.ltb_spec (x / (p * m)) mid), (Z.leb_spec mid (x / (p * m))); cbn [andb]; lia.
  Qed.
  Lemma W_empty p lo hi f : hi <= lo -> W keep x y p lo hi f = 0.
  Proof.
    intros H. apply sumr_zero. intros m _.
    destruct (Z.leb_spec lo (x / (p * m))), (Z.ltb_spec (x / (p * m)) hi); cbn [andb]; lia.
  Qed.
  Lemma W_ext p lo hi f g : (forall n, lo <= n < hi -> f n = g n) -> W keep x y p lo hi f = W keep x y p lo hi g.
  Proof.
    intros H. apply sumr_ext. intros m _.
    destruct (Z.leb_spec lo (x / (p * m))), (Z.ltb_spec (x / (p * m)) hi); cbn [andb]; auto. rewrite H by lia. reflexivity.
  Qed.
  Lemma W_shift p lo hi f k : W keep x y p lo hi (fun n => f n + k) = W keep x y p lo hi f + W keep x y p lo hi (fun _ => 1) * k.
  Proof.
    unfold W. rewrite (Z.mul_comm _ k), <- sumr_scal, <- sumr_add. apply sumr_ext. intros m _.
    destruct (Z.leb_spec lo (x / (p * m))), (Z.ltb_spec (x / (p * m)) hi); cbn [andb]; ring.
  Qed.
  (** for another weight function with the same values *)
  Lemma W_zero p lo hi f : (forall m, y / p < m <= y -> lo <= x / (p * m) -> roughb (pi p) m = true -> keep p m = true -> False) ->
    W keep x y p lo hi f = 0.
  Proof.
    intros H. apply sumr_zero. intros m Hm. destruct (Z.leb_spec lo (x / (p * m))), (x / (p * m) <? hi); cbn [andb]; auto.
    unfold lw. destruct (roughb (pi p) m) eqn:R, (keep p m) eqn:K; auto. exfalso. apply (H m); auto. lia.
  Qed.
  Lemma Wa_split p lo mid hi f : lo <= mid <= hi -> Wa keep x y p lo hi f = Wa keep x y p lo mid f + Wa keep x y p mid hi f.
  Proof.
    intros H. unfold Wa, Wh. rewrite <- sumr_add. apply sumr_ext. intros m _.
    destruct (Z.leb_spec lo (x / (p * m))), (Z.ltb_spec (x / (p * m)) hi), (Z.ltb_spec (x / (p * m)) mid), (Z.leb_spec mid (x / (p * m))); cbn [andb]; lia.
  Qed.
  Lemma Wa_ext p lo hi f g : (forall n, lo <= n < hi -> f n = g n) -> Wa keep x y p lo hi f = Wa keep x y p lo hi g.
  Proof.
    intros H. apply sumr_ext. intros m _.
    destruct (Z.leb_spec lo (x / (p * m))), (Z.ltb_spec (x / (p * m)) hi); cbn [andb]; auto. rewrite H by lia. reflexivity.
  Qed.
  Lemma Wa_nonneg p lo hi f : 0 <= Wa keep x y p lo hi f.
  Proof. apply sumr_nonneg. intros m _. apply Z.abs_nonneg. Qed.
  Lemma Wa_shift p lo hi f k : 0 <= k -> (forall n, lo <= n < hi -> 0 <= f n) ->
    Wa keep x y p lo hi (fun n => f n + k) = Wa keep x y p lo hi f + Wa keep x y p lo hi (fun _ => 1) * k.
  Proof.
    intros Hk Hf. unfold Wa, Wh. rewrite (Z.mul_comm _ k), <- sumr_scal, <- sumr_add. apply sumr_ext. intros m _.
    destruct (Z.leb_spec lo (x / (p * m))), (Z.ltb_spec (x / (p * m)) hi); cbn [andb]; [|cbn; lia|cbn; lia|cbn; lia].
    specialize (Hf (x / (p * m)) ltac:(lia)). rewrite !Z.abs_mul. rewrite (Z.abs_eq (f (x / (p * m)) + k)), (Z.abs_eq (f (x / (p * m)))) by lia. change (Z.abs 1) with 1. ring.
  Qed.
  Lemma W_abs p lo hi f : Z.abs (W keep x y p lo hi f) <= Wa keep x y p lo hi f.
  Proof.
    assert (H : forall l (g : Z -> Z), Z.abs (lsum g l) <= lsum (fun i => Z.abs (g i)) l).
    { intros l g. induction l as [|i l IH]; [reflexivity|]. rewrite !lsum_cons. lia. }
    apply H.
  Qed.
  Lemma Wa_mono p lo hi f g : (forall n, lo <= n < hi -> 0 <= f n <= g n) -> Wa keep x y p lo hi f <= Wa keep x y p lo hi g.
  Proof.
    intros H. apply sumr_le. intros m _. destruct (Z.leb_spec lo (x / (p * m))), (Z.ltb_spec (x / (p * m)) hi); cbn [andb]; try reflexivity.
    specialize (H (x / (p * m)) ltac:(lia)). rewrite !Z.abs_mul. apply Z.mul_le_mono_nonneg_l; [apply Z.abs_nonneg|lia].
  Qed.
  Lemma Wa_incl p lo hi lo' hi' f : lo' <= lo -> lo <= hi -> hi <= hi' -> Wa keep x y p lo hi f <= Wa keep x y p lo' hi' f.
  Proof.
    intros H1 H2 H3. rewrite (Wa_split p lo' lo hi'), (Wa_split p lo hi hi') by lia. pose proof (Wa_nonneg p lo' lo f). pose proof (Wa_nonneg p hi hi' f). lia.
  Qed.
  (** the leaves of p in full *)
  Lemma Wa_le p lo hi f g : (forall n, lo <= n < hi -> 0 <= f n <= g n) -> (forall n, 0 <= g n) ->
    Wa keep x y p lo hi f <= sumr (y / p + 1) (y + 1) (fun m => Z.abs (lw keep p m) * g (x / (p * m))).
  Proof.
    intros H G. apply sumr_le. intros m _. pose proof (Z.abs_nonneg (lw keep p m)). specialize (G (x / (p * m))).
    destruct (Z.leb_spec lo (x / (p * m))), (Z.ltb_spec (x / (p * m)) hi); cbn [andb]; try (rewrite Z.abs_0; now apply Z.mul_nonneg_nonneg).
    specialize (H (x / (p * m)) ltac:(lia)). rewrite Z.abs_mul, (Z.abs_eq (f (x / (p * m)))) by lia. apply Z.mul_le_mono_nonneg_l; lia.
  Qed.
End W.

(** Sums over numbers coprime to 210, by index in the factor table. *)
Lemma gi_step b : 1 <= b -> gi (b + 1) = if coprime210 (b + 1) then gi b + 1 else gi b.
Proof.
  intros Hb. destruct (gi_bounds b Hb) as (A & B & C). destruct (gi_bounds (b + 1) ltac:(lia)) as (A' & B' & C').
  assert (gi b <= gi (b + 1)) by (apply gi_mono; lia).
  assert (gi (b + 1) <= gi b + 1).
  { assert (H1 : gn (gi (b + 1)) < gn (gi b + 2)). { pose proof (gn_mono (gi b + 1) (gi b + 2)). lia. } apply gn_lt_inv in H1. lia. }
  destruct (coprime210 (b + 1)) eqn:E.
  - pose proof (gn_gi (b + 1) ltac:(lia) E). destruct (Z.eq_dec (gi (b + 1)) (gi b)) as [E1|]; [|lia].
    rewrite E1 in *. lia.
  - destruct (Z.eq_dec (gi (b + 1)) (gi b)); auto. exfalso. replace (gi (b + 1)) with (gi b + 1) in * by lia.
    assert (gn (gi b + 1) = b + 1) by lia. pose proof (gn_coprime (gi b + 1)). congruence.
Qed.
Lemma sumr_gn a b g : 1 <= a -> (forall m, a < m <= b -> coprime210 m = false -> g m = 0) ->
  sumr (a + 1) (b + 1) g = sumr (gi a + 1) (gi b + 1) (fun j => g (gn j)).
Proof.
  intros Ha. destruct (Z.le_gt_cases a b) as [L|G].
  2:{ intros _. pose proof (gi_bounds b) as Gb. destruct (Z.le_gt_cases 1 b).
      - pose proof (gi_mono b a ltac:(lia) ltac:(lia)). now rewrite !sumr_empty by lia.
      - destruct (gi_bounds a Ha) as (A & _). rewrite !sumr_empty; auto; [|lia].
        destruct (Z.lt_ge_cases b 0) as [B|B].
        + unfold gi. pose proof (Z.mod_pos_bound b 210 ltac:(lia)). destruct (ix_facts _ H0) as (I0 & I1 & _).
          assert (b / 210 <= -1) by (assert (b / 210 < 0) by (apply Z.div_lt_upper_bound; lia); lia).
          destruct (Z.eq_dec (b mod 210) 0) as [E|E]; [rewrite I0 by auto|destruct (I1 ltac:(lia)) as (I2 & _)]; fold (gi a); lia.
        + replace b with 0 by lia. change (gi 0) with (-1). lia. }
  replace b with (a + (b - a)) by ring. pattern (b - a). apply natlike_ind; [| |lia].
  - intros _. rewrite Z.add_0_r. now rewrite !sumr_empty by lia.
  - intros d Hd IH H. unfold Z.succ in *. replace (a + (d + 1) + 1) with (a + d + 1 + 1) by ring.
    rewrite sumr_snoc by lia. rewrite IH by (intros m Hm; apply H; lia). replace (a + (d + 1)) with (a + d + 1) by ring.
    rewrite gi_step by lia. pose proof (gi_mono a (a + d) Ha ltac:(lia)). destruct (coprime210 (a + d + 1)) eqn:E.
    + rewrite (sumr_snoc _ (gi (a + d) + 1)) by lia. f_equal. f_equal. pose proof (gi_step (a + d) ltac:(lia)) as S1. rewrite E in S1.
      rewrite <- S1. symmetry. apply gn_gi; auto. lia.
    + rewrite (H (a + d + 1)) by (auto; lia). ring.
Qed.

Section Leaves.
  Context (keep : Z -> Z -> bool) (U : Z -> Z) (x y z : Z).
  Hypothesis (Hy : 1 <= y) (Hyx : y * y <= x) (Hz : z = x / y).
  Hypothesis keep_small : forall p m, prime p -> p * p <= y -> y / p < m <= y -> keep p m = true.
  Hypothesis keep_large : forall p q, prime p -> y < p * p -> p <= y -> prime q -> y / p < q <= y -> p < q -> keep p q = true <-> q <= U p.
  Hypothesis U_mono : forall p p', 2 <= p <= p' -> U p' <= U p.
  Hypothesis U_sq : forall p, prime p -> y < p * p -> p < U p -> p <= y -> p * p <= z.

  (** the b-th prime still has leaves at or above low *)
  Definition aliveb (p low : Z) : bool :=
    if p * p <=? y then p <? Z.min (x / p / low) y else p <? top (Z.min (Z.min (x / p / low) y) (U p)).

  Lemma x_nonneg : 0 <= x. Proof. clear - Hyx. pose proof (Z.square_nonneg y). lia. Qed.
  Lemma div2_mono p p' low low' : 0 < p <= p' -> 0 < low <= low' -> x / p' / low' <= x / p / low.
  Proof.
    clear - Hyx. intros Hp Hl. pose proof x_nonneg. transitivity (x / p / low').
    - apply Z.div_le_mono; [lia|]. apply Z.div_le_compat_l; lia.
    - apply Z.div_le_compat_l; [apply Z.div_pos; lia|lia].
  Qed.
  Lemma alive_bound p low : prime p -> 1 <= low -> aliveb p low = true -> p < x / p / low /\ p < y /\ p * p <= z.
  Proof.
    intros Hp Hl. unfold aliveb. pose proof (y_le_z x y z Hy Hyx Hz). pose proof (prime_ge_2 p Hp). destruct (Z.leb_spec (p * p) y).
    - rewrite Z.ltb_lt. lia.
    - rewrite Z.ltb_lt. destruct (top_spec (Z.min (Z.min (x / p / low) y) (U p))) as [E|[P1 P2]]; [lia|].
      intros HT. split; [lia|]. split; [lia|]. apply U_sq; auto; lia.
  Qed.
  Lemma alive_mono p p' low low' : prime p -> prime p' -> p <= p' -> 1 <= low <= low' -> aliveb p' low' = true -> aliveb p low = true.
  Proof.
    intros Hp Hp' Hpp Hl. pose proof (prime_ge_2 p Hp). pose proof (div2_mono p p' low low' ltac:(lia) ltac:(lia)) as D.
    unfold aliveb. destruct (Z.leb_spec (p * p) y) as [L|L].
    - rewrite !Z.ltb_lt. destruct (Z.leb_spec (p' * p') y); [lia|].
      destruct (top_spec (Z.min (Z.min (x / p' / low') y) (U p'))) as [E|[P1 P2]]; [lia|]. lia.
    - assert (p * p <= p' * p') by (apply Z.mul_le_mono_nonneg; lia). destruct (Z.leb_spec (p' * p') y); [lia|].
      rewrite !Z.ltb_lt. destruct (top_spec (Z.min (Z.min (x / p' / low') y) (U p'))) as [E|[P1 P2]]; [lia|].
      intros H2. pose proof (U_mono p p' ltac:(lia)). apply Z.le_lt_trans with p'; auto. apply Z.lt_le_trans with (1 := H2).
      apply top_ge; auto. lia.
  Qed.

  Lemma div_pm p m low : 0 < p -> 0 < m -> 0 < low -> low <= x / (p * m) <-> m <= x / p / low.
  Proof.
    clear. intros Hp Hm Hl. rewrite Z.div_div by lia. rewrite !div_le_iff by nia. replace (p * m * low) with (p * low * m) by ring. tauto.
  Qed.
  Lemma leaf_large p m : prime p -> y < p * p -> 2 <= m <= y -> roughb (pi p) m = if primeb m then p <? m else false.
  Proof.
    clear. intros Hp Hyp Hm. destruct (primeb m) eqn:E.
    - apply primeb_spec in E. destruct (Z.ltb_spec p m).
      + apply roughb_spec; [lia|]. apply prime_rough; auto. now apply pi_lt_prime.
      + destruct (roughb (pi p) m) eqn:R; auto. apply roughb_spec in R; [|lia]. elim (R m E); [now apply pi_mono|apply Z.divide_refl].
    - destruct (roughb (pi p) m) eqn:R; auto. exfalso. apply roughb_spec in R; [|lia].
      assert (NP : ~ prime m) by (intros P; apply primeb_spec in P; congruence).
      destruct (composite_divisor m ltac:(lia) NP) as (q & Hq & Hd & Hqq).
      apply (R q Hq); auto. apply pi_mono. pose proof (prime_ge_2 _ Hp). pose proof (prime_ge_2 _ Hq).
      destruct (Z.le_gt_cases q p); auto. assert (p * p < q * q) by (apply Z.mul_lt_mono_nonneg; lia). lia.
  Qed.

  (** no leaf above low for a prime that is not alive *)
  Lemma dead_W p low hi f : prime p -> p <= y -> 1 <= low -> aliveb p low = false -> W keep x y p low hi f = 0.
  Proof.
    intros Hp Hpy Hl HA. pose proof (prime_ge_2 p Hp). assert (1 <= y / p) by (apply Z.div_le_lower_bound; lia).
    apply W_zero. intros m Hm Hx R K. apply div_pm in Hx; [|lia|lia|lia]. unfold aliveb in HA.
    destruct (Z.leb_spec (p * p) y).
    - apply Z.ltb_ge in HA. apply roughb_spec in R; [|lia]. rewrite rough_lpf in R by (auto; lia).
      destruct (least_factor_spec m ltac:(lia)) as (L1 & L2 & L3). apply Z.divide_pos_le in L2; lia.
    - apply Z.ltb_ge in HA. rewrite leaf_large in R by (auto; lia). destruct (primeb m) eqn:E; [|discriminate]. apply primeb_spec in E.
      apply Z.ltb_lt in R. apply keep_large in K; auto.
      assert (m <= top (Z.min (Z.min (x / p / low) y) (U p))); [|lia]. apply top_ge; auto. lia.
  Qed.

  (** p <= sqrt(y): a loop over the indices of the factor table *)
  Definition small_term (p : Z) (f : Z -> Z) (m : Z) : Z := if roughb (pi p) m then - (mu m * (p * m)) * f (x / p / m) else 0.
  Lemma Wh_small h p lo hi f : h 0 = 0 -> prime p -> p * p <= y -> 1 <= lo -> 1 <= hi ->
    Wh h keep x y p lo hi f = sumr (Z.max (Z.min (x / p / hi) y) (y / p) + 1) (Z.min (x / p / lo) y + 1) (fun m => h (small_term p f m)).
  Proof.
    intros H0 Hp Hpy Hlo Hhi. pose proof (prime_ge_2 p Hp). assert (Hyp : 1 <= y / p) by (apply Z.div_le_lower_bound; nia). pose proof x_nonneg as X0.
    set (a := Z.max (Z.min (x / p / hi) y) (y / p)). set (b := Z.min (x / p / lo) y).
    assert (y / p <= a <= y). { assert (y / p <= y) by (apply Z.div_le_upper_bound; nia). lia. }
    assert (T : forall m, y / p < m <= y -> lw keep p m * f (x / (p * m)) = small_term p f m).
    { intros m Hm. unfold lw, small_term. rewrite keep_small by auto. rewrite andb_true_r, Z.div_div by lia. destruct (roughb (pi p) m); ring. }
    assert (C : forall m, y / p < m <= y -> ((lo <=? x / (p * m)) && (x / (p * m) <? hi)) = (a <? m) && (m <=? b)).
    { intros m Hm. pose proof (div_pm p m lo ltac:(lia) ltac:(lia) ltac:(lia)). pose proof (div_pm p m hi ltac:(lia) ltac:(lia) ltac:(lia)).
      destruct (Z.leb_spec lo (x / (p * m))), (Z.ltb_spec (x / (p * m)) hi), (Z.ltb_spec a m), (Z.leb_spec m b); cbn [andb]; auto; exfalso; unfold a, b in *; lia. }
    unfold Wh. destruct (Z.le_gt_cases a b) as [L|G].
    - rewrite (sumr_split (y / p + 1) (a + 1) (y + 1)) by lia. rewrite (sumr_split (a + 1) (b + 1) (y + 1)) by (unfold b in *; lia).
      rewrite (sumr_zero (y / p + 1)), (sumr_zero (b + 1)), Z.add_0_r, Z.add_0_l.
      + apply sumr_ext. intros m Hm. rewrite C by (unfold b in *; lia). destruct (Z.ltb_spec a m), (Z.leb_spec m b); try lia. cbn [andb].
        rewrite T; [reflexivity|]. unfold b in *; lia.
      + intros m Hm. rewrite C by lia. destruct (Z.leb_spec m b); [lia|]. now rewrite andb_false_r.
      + intros m Hm. rewrite C by lia. destruct (Z.ltb_spec a m); [lia|]. exact H0.
    - rewrite (sumr_empty (a + 1)) by lia. apply sumr_zero. intros m Hm. rewrite C by lia.
      destruct (Z.ltb_spec a m), (Z.leb_spec m b); try lia; exact H0.
  Qed.
  Lemma W_small p lo hi f : prime p -> p * p <= y -> 1 <= lo -> 1 <= hi ->
    W keep x y p lo hi f = sumr (Z.max (Z.min (x / p / hi) y) (y / p) + 1) (Z.min (x / p / lo) y + 1) (small_term p f).
  Proof. exact (Wh_small (fun v => v) p lo hi f eq_refl). Qed.
  Lemma Wh_small_gn h p lo hi f : h 0 = 0 -> prime p -> 11 <= p -> p * p <= y -> 1 <= lo -> 1 <= hi ->
    Wh h keep x y p lo hi f = sumr (gi (Z.max (Z.min (x / p / hi) y) (y / p)) + 1) (gi (Z.min (x / p / lo) y) + 1) (fun j => h (small_term p f (gn j))).
  Proof.
    intros H0 Hp H11 Hpy Hlo Hhi. rewrite Wh_small by auto. assert (1 <= y / p) by (apply Z.div_le_lower_bound; nia).
    apply (sumr_gn _ _ (fun m => h (small_term p f m))); [lia|]. intros m Hm Hc. unfold small_term. destruct (roughb (pi p) m) eqn:R; auto. exfalso.
    apply roughb_spec in R; [|lia]. assert (coprime210 m = true); [|congruence]. apply coprime210_spec. apply rel_prime_sym.
    destruct (rel_prime_dec 210 m) as [D|D]; auto. exfalso.
    rewrite <- Zgcd_1_rel_prime in D. pose proof (Z.gcd_nonneg 210 m).
    assert (G1 : 1 < Z.gcd 210 m). { assert (Z.gcd 210 m <> 0) by (intros E; apply Z.gcd_eq_0_l in E; lia). lia. }
    destruct (exists_prime_divisor (Z.gcd 210 m) ltac:(lia)) as (q & Hq & Dq).
    assert (q | 210) by (eapply Z.divide_trans; [exact Dq|apply Z.gcd_divide_l]).
    assert (q | m) by (eapply Z.divide_trans; [exact Dq|apply Z.gcd_divide_r]).
    apply (R q Hq); auto. apply pi_mono. destruct (Z.le_gt_cases q p) as [|G]; auto. exfalso.
    assert (11 <= q) by lia. assert (C : coprime210 q = true) by (now apply coprime210_prime).
    apply coprime210_spec in C. destruct C as [_ _ C]. assert (D1 : (q | 1)) by (apply C; auto; apply Z.divide_refl).
    apply Z.divide_1_r_nonneg in D1; lia.
  Qed.
  Lemma W_small_gn p lo hi f : prime p -> 11 <= p -> p * p <= y -> 1 <= lo -> 1 <= hi ->
    W keep x y p lo hi f = sumr (gi (Z.max (Z.min (x / p / hi) y) (y / p)) + 1) (gi (Z.min (x / p / lo) y) + 1) (fun j => small_term p f (gn j)).
  Proof. exact (Wh_small_gn (fun v => v) p lo hi f eq_refl). Qed.

  (** p > sqrt(y): products of two primes *)
  Definition large_term (p : Z) (f : Z -> Z) (q : Z) : Z := p * q * f (x / p / q).
  Lemma Wh_large h p lo hi f : h 0 = 0 -> prime p -> y < p * p -> p <= y -> 1 <= lo -> 1 <= hi ->
    Wh h keep x y p lo hi f = psum (Z.max (Z.max (Z.min (x / p / hi) y) (y / p)) p + 1) (Z.min (Z.min (x / p / lo) y) (U p)) (fun q => h (large_term p f q)).
  Proof.
    intros H0 Hp Hpy Hpy2 Hlo Hhi. pose proof (prime_ge_2 p Hp). assert (Hyp : 1 <= y / p) by (apply Z.div_le_lower_bound; nia). pose proof x_nonneg as X0.
    set (a := Z.max (Z.max (Z.min (x / p / hi) y) (y / p)) p). set (b := Z.min (Z.min (x / p / lo) y) (U p)).
    rewrite <- (psum_window (y / p + 1) y a b (fun q => (p <? q) && keep p q && (lo <=? x / (p * q)) && (x / (p * q) <? hi))); [|unfold a; lia|unfold b; lia|].
    - unfold psum, Wh. apply sumr_ext. intros m Hm. unfold lw, large_term. rewrite leaf_large by (auto; lia). rewrite Z.div_div by lia.
      destruct (primeb m) eqn:E; [|destruct (lo <=? x / (p * m)), (x / (p * m) <? hi); exact H0].
      apply primeb_spec in E. rewrite (mu_prime m E).
      destruct (p <? m), (keep p m), (lo <=? x / (p * m)), (x / (p * m) <? hi); cbn [andb]; try exact H0; try (etransitivity; [|exact H0]; f_equal; ring). f_equal. ring.
    - intros q Hq Hr. pose proof (div_pm p q lo ltac:(lia) ltac:(lia) ltac:(lia)). pose proof (div_pm p q hi ltac:(lia) ltac:(lia) ltac:(lia)).
      rewrite !andb_true_iff, Z.ltb_lt, Z.leb_le, Z.ltb_lt. split.
      + intros (((A & B) & C) & D). apply keep_large in B; auto; [|lia]. unfold a, b. lia.
      + intros Hab. assert (p < q) by (unfold a in Hab; lia). rewrite keep_large by (auto; lia). unfold a, b in Hab. lia.
  Qed.
  Lemma W_large p lo hi f : prime p -> y < p * p -> p <= y -> 1 <= lo -> 1 <= hi ->
    W keep x y p lo hi f = psum (Z.max (Z.max (Z.min (x / p / hi) y) (y / p)) p + 1) (Z.min (Z.min (x / p / lo) y) (U p)) (large_term p f).
  Proof. exact (Wh_large (fun v => v) p lo hi f eq_refl). Qed.
End Leaves.

(** The hard leaves *)
Section Hard.
  Context (x y z : Z).
  Hypothesis (Hy : 1 <= y) (Hyx : y * y <= x) (Hz : z = x / y).
  Lemma hard_small p m : prime p -> p * p <= y -> y / p < m <= y -> hard_leaf x y p m = true.
  Proof.
    intros Hp Hpy Hm. pose proof (prime_ge_2 p Hp). assert (1 <= y / p) by (apply Z.div_le_lower_bound; nia).
    unfold hard_leaf, easy_leaf, trivial_leaf.
    destruct (Z.ltb_spec y (p * p)); [lia|]. rewrite andb_false_r. cbn [andb negb]. rewrite andb_true_r, negb_true_iff, Z.ltb_ge.
    apply div_le_iff; [nia|]. assert (p * m * p <= y * y); [|lia]. replace (p * m * p) with (p * p * m) by ring. apply Z.mul_le_mono_nonneg; nia.
  Qed.
  Lemma hard_large p q : prime p -> y < p * p -> p <= y -> prime q -> y / p < q <= y -> p < q -> hard_leaf x y p q = true <-> q <= z / p.
  Proof.
    intros Hp Hpy Hpy2 Hq Hr Hpq. pose proof (prime_ge_2 p Hp). unfold hard_leaf, easy_leaf, trivial_leaf.
    pose proof (y_le_z x y z Hy Hyx Hz).
    rewrite (div_le_iff z p q) by lia. rewrite Hz. rewrite (div_le_iff x y (p * q)) by lia.
    rewrite (proj2 (Z.ltb_lt y (p * p))) by lia. rewrite andb_true_r.
    pose proof (div_le_iff x (p * q) y ltac:(nia)) as D1. replace (p * q * y) with (y * (p * q)) in D1 by ring.
    destruct (Z.ltb_spec (x / (p * q)) p), (Z.ltb_spec (x / (p * q)) y); cbn [negb andb]; split; intros; try discriminate; try lia.
  Qed.
  Lemma hard_mono p p' : 2 <= p <= p' -> z / p' <= z / p.
  Proof. intros Hp. pose proof (y_le_z x y z Hy Hyx Hz). apply Z.div_le_compat_l; lia. Qed.
  Lemma hard_sq p : prime p -> y < p * p -> p < z / p -> p <= y -> p * p <= z.
  Proof. intros Hp _ H _. pose proof (prime_ge_2 p Hp). apply div_le_iff; lia. Qed.

  Lemma S2_hard_W c : 0 <= c ->
    S2_hard_sum x y c = sumr (c + 1) (pi (Z.min y (Z.sqrt z)) + 1) (fun b => W (hard_leaf x y) x y (pr z b) 1 (z + 1) (fun n => phi_sum n (b - 1))).
  Proof.
    intros Hc. pose proof (y_le_z x y z Hy Hyx Hz) as Hyz. set (B := Z.min y (Z.sqrt z)).
    assert (HB : B <= y) by (unfold B; lia).
    set (G := fun b => W (hard_leaf x y) x y (pr z b) 1 (z + 1) (fun n => phi_sum n (b - 1))).
    unfold S2_hard_sum, S2_part.
    rewrite (psum_hi 2 B y); auto.
    - rewrite (psum_index B _ (fun b => if c <? b then G b else 0)).
      + pose proof (pi_nonneg B). destruct (Z.le_gt_cases c (pi B)) as [L|L].
        * rewrite (sumr_split 1 (c + 1) (pi B + 1)) by lia. rewrite sumr_zero, Z.add_0_l.
          -- apply sumr_ext. intros b Hb. destruct (Z.ltb_spec c b); [reflexivity|lia].
          -- intros b Hb. destruct (Z.ltb_spec c b); [lia|reflexivity].
        * rewrite (sumr_empty (c + 1)) by lia. apply sumr_zero. intros b Hb. destruct (Z.ltb_spec c b); [lia|reflexivity].
      + intros p Hp Hpy. destruct (c <? pi p); auto. unfold G. rewrite (pr_pi z p) by (auto; lia). pose proof (prime_ge_2 p Hp).
        assert (1 <= y / p) by (apply Z.div_le_lower_bound; lia).
        unfold W. apply sumr_ext. intros m Hm. unfold leaf, lw.
        assert (1 <= x / (p * m) < z + 1).
        { assert (0 < p * m) by nia. split.
          - apply div_le_iff; auto. assert (p * m <= y * y) by (apply Z.mul_le_mono_nonneg; lia). lia.
          - assert (x / (p * m) <= z); [|lia]. rewrite Hz. apply Z.div_le_compat_l; [pose proof (Z.square_nonneg y); lia|].
            split; [lia|]. pose proof (Z.mul_succ_div_gt y p ltac:(lia)). assert (p * Z.succ (y / p) <= p * m) by (apply Z.mul_le_mono_nonneg_l; lia). lia. }
        destruct (Z.leb_spec 1 (x / (p * m))), (Z.ltb_spec (x / (p * m)) (z + 1)); try lia. cbn [andb].
        destruct (hard_leaf x y p m), (roughb (pi p) m); cbn [andb]; ring.
    - intros p Hp _ Hpr. destruct (c <? pi p); auto. pose proof (prime_ge_2 p Hp).
      assert (Hzp : z < p * p). { assert (Z.sqrt z < p) by (unfold B in Hpr; lia). pose proof (Z.sqrt_spec z ltac:(lia)) as S1. cbv zeta in S1. nia. }
      assert (Hyp : y < p * p) by lia. assert (1 <= y / p) by (apply Z.div_le_lower_bound; lia).
      apply sumr_zero. intros m Hm. destruct (hard_leaf x y p m) eqn:E; auto.
      rewrite leaf_pq by (auto; lia). destruct (primeb m) eqn:Pm; auto. apply primeb_spec in Pm.
      destruct (Z.ltb_spec p m); auto. exfalso. apply hard_large in E; auto; try lia. apply div_le_iff in E; [|lia].
      assert (p * p < p * m) by (apply Z.mul_lt_mono_pos_l; lia). lia.
  Qed.
End Hard.
