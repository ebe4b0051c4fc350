(** Correctness of the model of include/BinaryIndexedTree.hpp. *)
From Coq Require Import ZArith List Bool Lia.
From Verif.Base Require Import Res Word Zl Arr.
From Verif.Model Require Import Fenwick.
From Verif.Proofs Require Import Phi.
Import ListNotations.
Open Scope Z_scope.
Local Ltac Zify.zify_post_hook ::= idtac.

(** *** Lowest set bit *)
Definition lb (q : Z) : Z := Z.land q (- q).

Lemma land_even_odd a b : Z.land (2 * a) (2 * b + 1) = 2 * Z.land a b.
Proof.
  apply Z.bits_inj'. intros n Hn. destruct (Z.eq_dec n 0) as [->|].
  - rewrite Z.land_spec, !Z.testbit_even_0. reflexivity.
  - replace n with (Z.succ (n - 1)) by lia. rewrite Z.land_spec, !Z.testbit_even_succ, Z.testbit_odd_succ, Z.land_spec by lia. reflexivity.
Qed.
Lemma land_odd_even a b : Z.land (2 * a + 1) (2 * b) = 2 * Z.land a b.
Proof. rewrite Z.land_comm, land_even_odd, Z.land_comm. reflexivity. Qed.
Lemma land_even_even a b : Z.land (2 * a) (2 * b) = 2 * Z.land a b.
Proof.
  apply Z.bits_inj'. intros n Hn. destruct (Z.eq_dec n 0) as [->|].
  - rewrite Z.land_spec, !Z.testbit_even_0. reflexivity.
  - replace n with (Z.succ (n - 1)) by lia. rewrite Z.land_spec, !Z.testbit_even_succ, Z.land_spec by lia. reflexivity.
Qed.
Lemma land_odd_odd a b : Z.land (2 * a + 1) (2 * b + 1) = 2 * Z.land a b + 1.
Proof.
  apply Z.bits_inj'. intros n Hn. destruct (Z.eq_dec n 0) as [->|].
  - rewrite Z.land_spec, !Z.testbit_odd_0. reflexivity.
  - replace n with (Z.succ (n - 1)) by lia. rewrite Z.land_spec, !Z.testbit_odd_succ, Z.land_spec by lia. reflexivity.
Qed.
Lemma lor_even_odd a b : Z.lor (2 * a) (2 * b + 1) = 2 * Z.lor a b + 1.
Proof.
  apply Z.bits_inj'. intros n Hn. destruct (Z.eq_dec n 0) as [->|].
  - rewrite Z.lor_spec, Z.testbit_even_0, !Z.testbit_odd_0. reflexivity.
  - replace n with (Z.succ (n - 1)) by lia. rewrite Z.lor_spec, Z.testbit_even_succ, !Z.testbit_odd_succ, Z.lor_spec by lia. reflexivity.
Qed.

(** q = 2^t (2u+1) *)
Definition low2 (q t u : Z) : Prop := 0 <= t /\ 0 <= u /\ q = 2 ^ t * (2 * u + 1).
Lemma low2_exists q : 1 <= q -> exists t u, low2 q t u.
Proof.
  intros Hq. assert (H0 : 0 <= q) by lia. revert Hq. pattern q. apply Zlt_0_ind; [|exact H0]. clear q H0.
  intros q IH _ Hq. destruct (Z.Even_or_Odd q) as [[a E]|[a E]].
  - destruct (IH a ltac:(lia) ltac:(lia)) as (t & u & H1 & H2 & H3). exists (t + 1), u. unfold low2.
    rewrite Z.pow_add_r by lia. change (2 ^ 1) with 2. lia.
  - exists 0, a. unfold low2. change (2 ^ 0) with 1. lia.
Qed.
Lemma low2_ind q t u (P : Z -> Z -> Z -> Prop) : low2 q t u ->
  (forall u, 0 <= u -> P (2 * u + 1) 0 u) -> (forall q t u, low2 q t u -> P q t u -> P (2 * q) (t + 1) u) -> P q t u.
Proof.
  intros (Ht & Hu & Hq) H0 HS. revert q Hq. pattern t. apply natlike_ind; [| |exact Ht].
  - intros q ->. change (2 ^ 0) with 1. rewrite Z.mul_1_l. auto.
  - intros k Hk IH q ->. unfold Z.succ. rewrite Z.pow_add_r by lia. change (2 ^ 1) with 2.
    replace (2 ^ k * 2 * (2 * u + 1)) with (2 * (2 ^ k * (2 * u + 1))) by ring. apply HS; [unfold low2; auto|]. apply IH. reflexivity.
Qed.
Lemma low2_lb q t u : low2 q t u -> lb q = 2 ^ t.
Proof.
  intros H. apply (low2_ind q t u (fun q t u => lb q = 2 ^ t)); auto.
  - intros v Hv. unfold lb. replace (- (2 * v + 1)) with (2 * (- v - 1) + 1) by ring. rewrite land_odd_odd.
    replace (- v - 1) with (Z.lnot v) by (unfold Z.lnot; lia). rewrite Z.land_lnot_diag. reflexivity.
  - intros q' t' u' (Ht & _) IH. unfold lb in *. replace (- (2 * q')) with (2 * - q') by ring. rewrite land_even_even, IH.
    rewrite Z.pow_add_r by lia. change (2 ^ 1) with 2. ring.
Qed.
Lemma low2_clear q t u : low2 q t u -> Z.land q (q - 1) = q - 2 ^ t.
Proof.
  intros H. apply (low2_ind q t u (fun q t u => Z.land q (q - 1) = q - 2 ^ t)); auto.
  - intros v Hv. replace (2 * v + 1 - 1) with (2 * v) by ring. rewrite land_odd_even, Z.land_diag. change (2 ^ 0) with 1. ring.
  - intros q' t' u' (Ht & _) IH. replace (2 * q' - 1) with (2 * (q' - 1) + 1) by ring. rewrite land_even_odd, IH.
    rewrite Z.pow_add_r by lia. change (2 ^ 1) with 2. ring.
Qed.
Lemma low2_next q t u : low2 q t u -> Z.lor (q - 1) q + 1 = q + 2 ^ t.
Proof.
  intros H. apply (low2_ind q t u (fun q t u => Z.lor (q - 1) q + 1 = q + 2 ^ t)); auto.
  - intros v Hv. replace (2 * v + 1 - 1) with (2 * v) by ring. rewrite lor_even_odd, Z.lor_diag. change (2 ^ 0) with 1. ring.
  - intros q' t' u' (Ht & _) IH. replace (2 * q' - 1) with (2 * (q' - 1) + 1) by ring.
    rewrite Z.lor_comm, lor_even_odd, Z.lor_comm. rewrite Z.pow_add_r by lia. change (2 ^ 1) with 2. lia.
Qed.
Lemma lb_clear q : 1 <= q -> Z.land q (q - 1) = q - lb q.
Proof. intros H. destruct (low2_exists q H) as (t & u & L). rewrite (low2_clear _ _ _ L), (low2_lb _ _ _ L). reflexivity. Qed.
Lemma lb_next q : 1 <= q -> Z.lor (q - 1) q + 1 = q + lb q.
Proof. intros H. destruct (low2_exists q H) as (t & u & L). rewrite (low2_next _ _ _ L), (low2_lb _ _ _ L). reflexivity. Qed.
Lemma lb_pos q : 1 <= q -> 1 <= lb q <= q.
Proof.
  intros H. destruct (low2_exists q H) as (t & u & L). rewrite (low2_lb _ _ _ L). destruct L as (Ht & Hu & ->).
  pose proof (Z.pow_pos_nonneg 2 t ltac:(lia) Ht). nia.
Qed.

Lemma low2_unique_ge q t v : 1 <= q -> 0 <= t -> q = 2 ^ t * v -> 2 ^ t <= lb q.
Proof.
  intros Hq Ht E. assert (Hv : 1 <= v). { pose proof (Z.pow_pos_nonneg 2 t ltac:(lia) Ht). nia. }
  destruct (low2_exists v Hv) as (s & u & Hs & Hu & Ev).
  rewrite (low2_lb q (t + s) u); [apply Z.pow_le_mono_r; lia|]. unfold low2. rewrite Z.pow_add_r by lia. subst. split; [lia|]. split; [lia|]. ring.
Qed.

(** Between q and q + lb q the cells start at or after q. *)
Lemma lb_between q r : 1 <= q -> q < r < q + lb q -> q <= r - lb r.
Proof.
  intros Hq Hr. destruct (low2_exists q Hq) as (t & u & L). rewrite (low2_lb _ _ _ L) in Hr.
  destruct L as (Ht & Hu & E). set (s := r - q) in *. assert (Hs : 1 <= s) by (unfold s; lia).
  destruct (low2_exists s Hs) as (ts & us & Ls). pose proof (low2_lb _ _ _ Ls) as Es. destruct Ls as (Hts & Hus & E2).
  assert (Hlt : ts < t).
  { apply (Z.pow_lt_mono_r_iff 2); [lia|lia|]. pose proof (Z.pow_pos_nonneg 2 ts ltac:(lia) Hts). nia. }
  assert (Hlb : lb r = 2 ^ ts).
  { apply (low2_lb r ts (2 ^ (t - ts - 1) * (2 * u + 1) + us)).
    assert (0 <= 2 ^ (t - ts - 1)) by (apply Z.pow_nonneg; lia).
    unfold low2. split; [lia|]. split; [nia|].
    replace r with (q + s) by (unfold s; ring). rewrite E, E2.
    replace (2 ^ t) with (2 ^ ts * (2 * 2 ^ (t - ts - 1))); [ring|].
    rewrite <- (Z.pow_1_r 2) at 2. rewrite <- !Z.pow_add_r by lia. f_equal. lia. }
  pose proof (lb_pos s Hs). unfold s in *. lia.
Qed.
Lemma lb_parent q : 1 <= q -> q + lb q - lb (q + lb q) <= q - lb q.
Proof.
  intros Hq. destruct (low2_exists q Hq) as (t & u & L). rewrite (low2_lb _ _ _ L). destruct L as (Ht & Hu & E).
  pose proof (Z.pow_pos_nonneg 2 t ltac:(lia) Ht).
  assert (2 ^ (t + 1) <= lb (q + 2 ^ t)).
  { apply (low2_unique_ge _ (t + 1) (u + 1)); [lia|lia|]. rewrite Z.pow_add_r by lia. change (2 ^ 1) with 2. rewrite E. ring. }
  rewrite Z.pow_add_r in H0 by lia. change (2 ^ 1) with 2 in H0. lia.
Qed.

(** *** The tree describes f: cell q (1-based) is the sum of f over (q - lb q, q];
    f k is the value at position k-1 *)
Definition node (f : Z -> Z) (q : Z) : Z := sumr (q - lb q + 1) (q + 1) f.
Definition tree_rep (tree : list Z) (n : Z) (f : Z -> Z) : Prop := arr tree n (fun i => node f (i + 1)).


Lemma tree_rep_ext tree n f g : tree_rep tree n f -> (forall k, 1 <= k <= n -> f k = g k) -> tree_rep tree n g.
Proof.
  intros H E. eapply arr_ext; [exact H|]. intros i Hi. apply sumr_ext. intros k Hk.
  pose proof (lb_pos (i + 1) ltac:(lia)). apply E. lia.
Qed.

(** no sum of these values overflows *)
Definition cells (n : Z) (f : Z -> Z) : Prop := n <= 2 ^ 62 /\ forall k, 1 <= k <= n -> 0 <= f k < 2 ^ 63.
Lemma cells_sum n f a b : cells n f -> 1 <= a -> b <= n + 1 -> 0 <= sumr a b f <= 2 ^ 125.
Proof.
  intros [Hn Hf] Ha Hb. split; [apply sumr_nonneg; intros i Hi; apply Hf; lia|]. destruct (Z.le_gt_cases b a); [rewrite sumr_empty by lia; discriminate|].
  apply Z.le_trans with (sumr a b (fun _ => 2 ^ 63)); [apply sumr_le; intros i Hi; specialize (Hf i ltac:(lia)); lia|].
  rewrite sumr_const by lia. lia.
Qed.
Lemma cells_node n f q : cells n f -> 1 <= q <= n -> 0 <= node f q <= 2 ^ 125.
Proof. intros H Hq. pose proof (lb_pos q ltac:(lia)). apply (cells_sum n); [exact H|lia|lia]. Qed.
Lemma schk128' v : - 2 ^ 126 <= v <= 2 ^ 126 -> schk 128 v = Ok v.
Proof. intros H. apply schk_ok. unfold in_s. change (smin 128) with (- 2 ^ 127). change (smax 128) with (2 ^ 127 - 1). lia. Qed.
Lemma schk64' v : - 2 ^ 63 <= v < 2 ^ 63 -> schk 64 v = Ok v.
Proof. intros H. apply schk_ok. unfold in_s. change (smin 64) with (- 2 ^ 63). change (smax 64) with (2 ^ 63 - 1). lia. Qed.

Theorem bit_sum_ok tree n f pos : cells n f -> tree_rep tree n f -> 0 <= Z.shiftr pos 1 < n ->
  bit_sum tree pos = Ok (sumr 1 (Z.shiftr pos 1 + 2) f).
Proof.
  intros Hn HT Hp. unfold bit_sum. cbv zeta. set (q := Z.shiftr pos 1) in *. apply wp_eq.
  rewrite (arr_get _ _ _ q HT) by lia. rewrite bind_Ok.
  assert (2 ^ 62 < 2 ^ 400) by reflexivity. pose proof Hn as [Hn61 _].
  apply (loop_rule _ (fun '(p, s) => 1 <= p <= q + 1 /\ s = sumr (p - lb p + 1) (q + 2) f) (fun '(p, _) => p)).
  - intros [p s] (Hp1 & ->). pose proof (lb_pos p ltac:(lia)) as LB. rewrite lb_clear by lia.
    destruct (Z.eqb_spec (p - lb p) 0) as [E|E].
    + cbn [wp]. rewrite E. reflexivity.
    + rewrite (arr_get _ _ _ (p - lb p - 1) HT) by lia. rewrite bind_Ok.
      set (p' := p - lb p) in *. replace (p' - 1 + 1) with p' by ring. pose proof (lb_pos p' ltac:(lia)).
      assert (ES : sumr (p' + 1) (q + 2) f + node f p' = sumr (p' - lb p' + 1) (q + 2) f) by (unfold node; rewrite (sumr_split (p' - lb p' + 1) (p' + 1) (q + 2)) by lia; ring).
      rewrite ES, schk128' by (pose proof (cells_sum n f (p' - lb p' + 1) (q + 2) Hn ltac:(lia) ltac:(lia)); lia). rewrite bind_Ok. cbn [wp].
      split; [|lia]. split; [lia|reflexivity].
  - split; [lia|]. unfold node. replace (q + 1 + 1) with (q + 2) by ring. reflexivity.
  - lia.
Qed.

(** Removing v at position k. *)
Lemma node_upd f k v q : 1 <= q -> node (fun i => if i =? k then f i - v else f i) q =
  node f q - (if (q - lb q <? k) && (k <=? q) then v else 0).
Proof.
  intros Hq. unfold node. pose proof (lb_pos q Hq).
  transitivity (sumr (q - lb q + 1) (q + 1) (fun i => f i - (if i =? k then v else 0))).
  { apply sumr_ext. intros i Hi. destruct (i =? k); ring. }
  rewrite sumr_sub. f_equal. destruct (Z.ltb_spec (q - lb q) k), (Z.leb_spec k q); cbn [andb].
  - rewrite (sumr_single _ _ k); [now rewrite Z.eqb_refl|lia|]. intros i _ Hi. now apply Z.eqb_neq in Hi as ->.
  - apply sumr_zero. intros i Hi. destruct (Z.eqb_spec i k); [lia|auto].
  - apply sumr_zero. intros i Hi. destruct (Z.eqb_spec i k); [lia|auto].
  - apply sumr_zero. intros i Hi. destruct (Z.eqb_spec i k); [lia|auto].
Qed.

Theorem bit_update_ok tree n f v low (Q : list Z -> Prop) : cells n f -> tree_rep tree n f -> 0 <= v < 2 ^ 63 -> 0 <= low < 2 ^ 63 -> 0 <= Z.shiftr (v - low) 1 < n ->
  (forall tree', tree_rep tree' n (fun i => if i =? Z.shiftr (v - low) 1 + 1 then f i - v else f i) -> Q tree') ->
  wp (bit_update tree v low) Q.
Proof.
  intros Hn HT Hv Hlow Hp HQ. unfold bit_update. rewrite schk64' by lia. rewrite bind_Ok. set (p0 := Z.shiftr (v - low) 1) in *. set (k := p0 + 1) in *.
  assert (2 ^ 62 < 2 ^ 400) by reflexivity. pose proof Hn as [Hn61 _].
  set (cov := fun q => (q - lb q <? k) && (k <=? q)).
  apply (loop_rule _ (fun '(p, tree) => p0 <= p < n /\ p + 1 - lb (p + 1) < k /\
      arr tree n (fun i => node f (i + 1) - (if (i <? p) && cov (i + 1) then v else 0))) (fun '(p, _) => n - p)).
  - intros [p t] (Hp1 & Hc & Ha). rewrite (arr_get _ _ _ p Ha) by lia. rewrite bind_Ok.
    rewrite Z.ltb_irrefl. cbn [andb]. rewrite schk128' by (pose proof (cells_node n f (p + 1) Hn ltac:(lia)); lia). rewrite bind_Ok.
    apply wp_bind. eapply arr_set; [exact Ha|lia|]. intros t' Ha'. rewrite (arr_len _ _ _ Ha').
    assert (EN : Z.lor p (p + 1) = p + lb (p + 1)).
    { pose proof (lb_next (p + 1) ltac:(lia)) as E. replace (p + 1 - 1) with p in E by ring. lia. }
    rewrite EN. pose proof (lb_pos (p + 1) ltac:(lia)) as LB.
    assert (HB : forall i, 0 <= i < n -> i < p + lb (p + 1) ->
      (if i =? p then node f (p + 1) - 0 - v else node f (i + 1) - (if (i <? p) && cov (i + 1) then v else 0)) =
      node f (i + 1) - (if (i <? p + lb (p + 1)) && cov (i + 1) then v else 0)).
    { intros i Hi Hi2. destruct (Z.eqb_spec i p) as [->|N].
      - destruct (Z.ltb_spec p (p + lb (p + 1))); [|lia]. unfold cov.
        destruct (Z.ltb_spec (p + 1 - lb (p + 1)) k), (Z.leb_spec k (p + 1)); try (unfold k in *; lia). cbn [andb]. ring.
      - destruct (Z.ltb_spec i p), (Z.ltb_spec i (p + lb (p + 1))); try lia; auto. cbn [andb].
        pose proof (lb_between (p + 1) (i + 1) ltac:(lia) ltac:(lia)). unfold cov.
        destruct (Z.ltb_spec (i + 1 - lb (i + 1)) k); [unfold k in *; lia|]. reflexivity. }
    cbn [wp]. destruct (Z.ltb_spec (p + lb (p + 1)) n) as [L|G].
    + split; [|lia]. split; [lia|]. split.
      { pose proof (lb_parent (p + 1) ltac:(lia)). replace (p + lb (p + 1) + 1) with (p + 1 + lb (p + 1)) by ring. lia. }
      eapply arr_ext; [exact Ha'|]. intros i Hi. cbv beta. destruct (Z.lt_ge_cases i (p + lb (p + 1))).
      * rewrite <- HB by lia. reflexivity.
      * destruct (Z.eqb_spec i p); [lia|]. destruct (Z.ltb_spec i p), (Z.ltb_spec i (p + lb (p + 1))); try lia.
    + apply HQ. eapply arr_ext; [exact Ha'|]. intros i Hi. cbv beta. rewrite HB by lia. rewrite node_upd by lia. fold k.
      destruct (Z.ltb_spec i (p + lb (p + 1))); [|lia]. cbn [andb]. reflexivity.
  - split; [lia|]. split; [pose proof (lb_pos (p0 + 1) ltac:(lia)); unfold k; lia|].
    eapply arr_ext; [exact HT|]. intros i Hi. cbv beta. replace (_ && _) with false; [ring|]. symmetry.
    destruct (Z.ltb_spec i p0); auto. unfold cov. destruct (Z.leb_spec k (i + 1)); [unfold k in *; lia|]. now rewrite andb_false_r.
  - lia.
Qed.

Lemma vresize_len l n : 0 <= n -> zlen (vresize l n) = n.
Proof.
  intros Hn. unfold vresize, zlen, amake. rewrite app_length, firstn_length, repeat_length. lia.
Qed.

Theorem bit_init_ok old size get low s (Q : list Z -> Prop) : 0 <= size -> 0 <= low -> low + size <= 2 ^ 63 ->
  (forall i, 0 <= i < size / 2 -> get (2 * i) = Ok (s i) /\ 0 <= s i <= 1) ->
  (forall tree, tree_rep tree (size / 2) (fun k => (low + 2 * (k - 1)) * s (k - 1)) -> Q tree) ->
  wp (bit_init old size get low) Q.
Proof.
  intros Hn Hl0 Hl1 Hg HQ. unfold bit_init. set (n := size / 2) in *.
  assert (N2 : 2 * n <= size) by (unfold n; apply Z.mul_div_le; lia).
  assert (N0 : 0 <= n <= size) by (unfold n; split; [apply Z.div_pos; lia|apply Z.div_le_upper_bound; lia]).
  assert (2 ^ 63 < 2 ^ 400) by reflexivity. set (f := fun k => (low + 2 * (k - 1)) * s (k - 1)) in *.
  assert (CF : cells n f).
  { split; [lia|]. intros k Hk. unfold f. destruct (Hg (k - 1) ltac:(lia)) as [_ S01]. assert (s (k - 1) = 0 \/ s (k - 1) = 1) as [E|E] by lia; rewrite E; lia. }
  apply (for_rule 0 n _ (fun i tree => zlen tree = n /\ forall j, 0 <= j < i -> aget tree j = Ok (node f (j + 1)))).
  - lia.
  - split; [apply vresize_len; lia|]. intros; lia.
  - intros i tree Hi [HL HG]. rewrite (Z.mul_comm i 2). destruct (Hg i ltac:(lia)) as [-> S01]. rewrite bind_Ok.
    rewrite schk64' by lia. rewrite bind_Ok. rewrite schk64' by (assert (s i = 0 \/ s i = 1) as [E|E] by lia; rewrite E; lia). rewrite bind_Ok. apply wp_bind. apply wp_aset; [lia|].
    intros t1 L1 G1.
    destruct (low2_exists (i + 1) ltac:(lia)) as (t & u & L).
    assert (EK : Z.land (i + 1) (Z.lnot i) = 2 ^ t).
    { rewrite <- (low2_lb _ _ _ L). unfold lb. f_equal. unfold Z.lnot. lia. }
    cbv zeta. rewrite EK. pose proof (low2_lb _ _ _ L) as LBi. pose proof L as (Ht & Hu & EQ).
    assert (Hpt : forall a, 0 <= a -> 1 <= 2 ^ a) by (intros a Ha; pose proof (Z.pow_pos_nonneg 2 a); lia).
    apply (loop_rule _ (fun '(k, j, tr) => exists a, 0 <= a <= t /\ k = 2 ^ (t - a) /\ j = i + 1 - 2 ^ a /\ zlen tr = n /\
        (forall m, 0 <= m < i -> aget tr m = Ok (node f (m + 1))) /\
        aget tr i = Ok (sumr (i + 1 - 2 ^ a + 1) (i + 2) f)) (fun '(k, j, tr) => k)).
    + intros [[k j] tr] (a & Ha & -> & -> & L2 & G2 & V2). rewrite Z.shiftr_div_pow2 by lia. change (2 ^ 1) with 2.
      destruct (Z.eq_dec a t) as [->|Na].
      * rewrite Z.sub_diag. change (2 ^ 0 / 2 =? 0) with true. cbv iota. cbn [wp]. split; [lia|].
        intros m Hm. destruct (Z.eq_dec m i) as [->|]; [|apply G2; lia]. rewrite V2. unfold node. rewrite LBi.
        replace (i + 1 + 1) with (i + 2) by ring. reflexivity.
      * assert (E2 : 2 ^ (t - a) / 2 = 2 ^ (t - (a + 1))).
        { replace (t - a) with (t - (a + 1) + 1) by ring. rewrite Z.pow_add_r by lia. change (2 ^ 1) with 2. now rewrite Z.div_mul by lia. }
        rewrite E2. pose proof (Hpt (t - (a + 1)) ltac:(lia)) as P1. pose proof (Hpt a ltac:(lia)) as P2.
        destruct (Z.eqb_spec (2 ^ (t - (a + 1))) 0); [lia|].
        assert (ET : 2 ^ t = 2 ^ a * (2 * 2 ^ (t - a - 1))).
        { rewrite <- (Z.pow_1_r 2) at 3. rewrite <- !Z.pow_add_r by lia. f_equal. lia. }
        assert (LJ : low2 (i + 1 - 2 ^ a) a (2 ^ (t - a - 1) * (2 * u + 1) - 1)).
        { pose proof (Hpt (t - a - 1) ltac:(lia)). split; [lia|]. split; [nia|]. rewrite EQ, ET. ring. }
        rewrite V2, bind_Ok. assert (HJ : 2 ^ a < i + 1).
        { rewrite EQ, ET. pose proof (Hpt (t - a - 1) ltac:(lia)). nia. }
        rewrite G2 by lia. rewrite bind_Ok.
        assert (EV : sumr (i + 1 - 2 ^ a + 1) (i + 2) f + node f (i + 1 - 2 ^ a - 1 + 1) = sumr (i + 1 - 2 ^ a * 2 + 1) (i + 2) f).
        { replace (i + 1 - 2 ^ a - 1 + 1) with (i + 1 - 2 ^ a) by ring. unfold node. rewrite (low2_lb _ _ _ LJ).
          rewrite (sumr_split (i + 1 - 2 ^ a * 2 + 1) (i + 1 - 2 ^ a + 1) (i + 2)) by lia.
          rewrite Z.add_comm. f_equal. f_equal. ring. }
        assert (A2 : 2 ^ a * 2 <= i + 1) by (rewrite EQ, ET; pose proof (Hpt (t - a - 1) ltac:(lia)); nia).
        rewrite EV, schk128' by (pose proof (cells_sum n f (i + 1 - 2 ^ a * 2 + 1) (i + 2) CF ltac:(lia) ltac:(lia)); lia). rewrite bind_Ok.
        apply wp_bind. apply wp_aset; [lia|]. intros t3 L3 G3. cbn [wp].
        split; [|split; [lia|]].
        2:{ replace (t - a) with (t - (a + 1) + 1) by ring. rewrite Z.pow_add_r by lia. change (2 ^ 1) with 2. lia. }
        exists (a + 1). split; [lia|]. split; [reflexivity|].
        rewrite (low2_clear _ _ _ LJ). rewrite Z.pow_add_r by lia. change (2 ^ 1) with 2.
        split; [ring|]. split; [lia|]. split.
        { intros m Hm. rewrite G3. destruct (Z.eqb_spec m i); [lia|]. apply G2; lia. }
        now rewrite G3, Z.eqb_refl.
    + exists 0. split; [lia|]. rewrite Z.sub_0_r. change (2 ^ 0) with 1. split; [reflexivity|]. split; [ring|]. split; [lia|]. split.
      { intros m Hm. rewrite G1. destruct (Z.eqb_spec m i); [lia|]. apply HG; lia. }
      rewrite G1, Z.eqb_refl. f_equal. replace (i + 2) with (i + 1 + 1) by ring. replace (i + 1 - 1 + 1) with (i + 1) by ring.
      rewrite sumr_snoc by lia. rewrite sumr_empty by lia. unfold f. replace (i + 1 - 1) with i by ring. ring.
    + assert (2 ^ t <= i + 1) by (pose proof (Hpt t Ht); nia). lia.
  - intros tree [HL HG]. rewrite Z.max_r in HG by lia. apply HQ. split; [lia|]. intros k Hk. apply HG. lia.
Qed.

(** A sequence of updates *)
Fixpoint bit_updates (tree : list Z) (vs : list Z) (low : Z) : res (list Z) :=
  match vs with
  | [] => Ok tree
  | v :: vs => tree <- bit_update tree v low ;; bit_updates tree vs low
  end.

Lemma bit_updates_ok n low vs : 0 <= low -> low + 2 * n <= 2 ^ 63 -> forall tree f (Q : list Z -> Prop), cells n f -> tree_rep tree n f ->
  (forall v, In v vs -> exists i, 0 <= i < n /\ v = low + 2 * i /\ f (i + 1) = v) -> NoDup vs ->
  (forall tree', tree_rep tree' n (fun k => if existsb (Z.eqb (low + 2 * (k - 1))) vs then f k - (low + 2 * (k - 1)) else f k) -> Q tree') ->
  wp (bit_updates tree vs low) Q.
Proof.
  intros Hl0 Hl1. induction vs as [|v vs IH]; intros tree f Q CF HT HV ND HQ.
  - cbn [bit_updates wp]. apply HQ. exact HT.
  - cbn [bit_updates]. apply wp_bind. destruct (HV v (or_introl eq_refl)) as (i & Hi & Ev & Ef).
    assert (ES : Z.shiftr (v - low) 1 = i).
    { rewrite Z.shiftr_div_pow2 by lia. change (2 ^ 1) with 2. replace (v - low) with (i * 2) by lia. now rewrite Z.div_mul by lia. }
    eapply bit_update_ok; [exact CF|exact HT|lia|lia|lia|]. intros t1 H1. rewrite ES in H1.
    apply NoDup_cons_iff in ND. destruct ND as [NI ND].
    eapply IH; [|exact H1| |exact ND|].
    { destruct CF as [C1 C2]. split; [exact C1|]. intros k Hk. cbv beta. destruct (Z.eqb_spec k (i + 1)) as [->|]; [lia|now apply C2]. }
    { intros w Hw. destruct (HV w (or_intror Hw)) as (i' & Hi' & Ew & Efw). exists i'. split; [exact Hi'|]. split; [exact Ew|].
      destruct (Z.eqb_spec (i' + 1) (i + 1)); [|exact Efw]. exfalso. apply NI. replace v with w by lia. exact Hw. }
    intros t2 H2. apply HQ.
    eapply tree_rep_ext; [exact H2|]. intros k Hk. cbv beta. cbn [existsb].
    destruct (Z.eqb_spec k (i + 1)) as [->|Nk].
    + replace (low + 2 * (i + 1 - 1)) with v by lia. rewrite Z.eqb_refl. cbn [orb].
      replace (existsb (Z.eqb v) vs) with false; [reflexivity|]. symmetry. apply not_true_is_false. intros E.
      apply existsb_exists in E. destruct E as (w & Hw & Ew). apply Z.eqb_eq in Ew. subst w. contradiction.
    + destruct (Z.eqb_spec (low + 2 * (k - 1)) v); [lia|]. reflexivity.
Qed.

Theorem bit_run_ok old size get low (s : Z -> bool) vs pos : 0 <= size -> 0 <= low -> low + size <= 2 ^ 63 ->
  (forall i, 0 <= i < size / 2 -> get (2 * i) = Ok (Z.b2z (s i))) ->
  NoDup vs -> (forall v, In v vs -> exists i, 0 <= i < size / 2 /\ s i = true /\ v = low + 2 * i) ->
  0 <= pos < 2 * (size / 2) ->
  (tree <- bit_init old size get low ;; tree <- bit_updates tree vs low ;; bit_sum tree pos) =
  Ok (sumr 0 (pos / 2 + 1) (fun i => if s i && negb (existsb (Z.eqb (low + 2 * i)) vs) then low + 2 * i else 0)).
Proof.
  intros Hs Hl0 Hl1 Hg ND HV Hp. apply wp_eq. apply wp_bind. eapply (bit_init_ok _ _ _ _ (fun i => Z.b2z (s i))); [lia|lia|lia| |].
  { intros i Hi. split; [now apply Hg|]. destruct (s i); cbn; lia. }
  intros t1 H1. assert (N2 : 2 * (size / 2) <= size) by (apply Z.mul_div_le; lia).
  assert (CF : cells (size / 2) (fun k => (low + 2 * (k - 1)) * Z.b2z (s (k - 1)))).
  { split; [lia|]. intros k Hk. cbv beta. destruct (s (k - 1)); cbn [Z.b2z]; lia. }
  apply wp_bind. eapply (bit_updates_ok (size / 2)); [exact Hl0|lia|exact CF|exact H1| |exact ND|].
  { intros v Hv. destruct (HV v Hv) as (i & Hi & Es & E). exists i. split; [exact Hi|]. split; [exact E|]. cbv beta. replace (i + 1 - 1) with i by ring. rewrite Es. cbn [Z.b2z]. lia. }
  intros t2 H2. match type of H2 with tree_rep _ _ ?g => assert (CF2 : cells (size / 2) g) end.
  { split; [lia|]. intros k Hk. cbv beta. destruct (existsb _ vs) eqn:Ex; [|apply CF; exact Hk].
    apply existsb_exists in Ex. destruct Ex as (v & Hv & Ev). apply Z.eqb_eq in Ev. destruct (HV v Hv) as (i & Hi & Es & Ei). replace (k - 1) with i by lia. rewrite Es. cbn [Z.b2z]. lia. }
  assert (ES : Z.shiftr pos 1 = pos / 2) by (rewrite Z.shiftr_div_pow2 by lia; reflexivity).
  assert (P2 : 0 <= pos / 2 < size / 2) by (split; [apply Z.div_pos; lia|apply Z.div_lt_upper_bound; lia]).
  rewrite (bit_sum_ok _ _ _ pos CF2 H2) by lia. cbn [wp]. rewrite ES.
  replace (pos / 2 + 2) with (pos / 2 + 1 + 1) by ring. change 1 with (0 + 1) at 1.
  rewrite (sumr_shift 0 (pos / 2 + 1) 1). apply sumr_ext. intros i Hi. replace (i + 1 - 1) with i by ring.
  destruct (existsb (Z.eqb (low + 2 * i)) vs) eqn:E.
  - apply existsb_exists in E. destruct E as (v & Hv & Ev). apply Z.eqb_eq in Ev. destruct (HV v Hv) as (i' & Hi' & Es & Ev').
    replace i' with i in Es by lia. rewrite Es. cbn [Z.b2z andb negb]. ring.
  - destruct (s i); cbn [Z.b2z andb negb]; ring.
Qed.
