(** Correctness of the model of FactorTable. *)
From Coq Require Import ZArith List Bool Lia Znumtheory Permutation.
From Verif.Base Require Import Res Word Zl Arr IType.
From Verif.Spec Require Import Primes LMOSpec WheelSpec.
From Verif.Model Require Import Imath Primesieve FactorTable.
From Verif.Proofs Require Import Primes NT LMO Imath Primesieve Tables Phi PrimeGap.
Import ListNotations.
Open Scope Z_scope.
Local Ltac Zify.zify_post_hook ::= idtac.

(** *** Indices and numbers *)
Definition gn (j : Z) : Z := 210 * (j / 48) + nth (Z.to_nat (j mod 48)) ft_numbers 0.
Definition gi (n : Z) : Z := 48 * (n / 210) + nth (Z.to_nat (n mod 210)) ft_indexes 0.
Notation nu t := (nth (Z.to_nat t) ft_numbers 0).
Notation ix r := (nth (Z.to_nat r) ft_indexes 0).

Lemma get_index_ok n : 1 <= n -> get_index n = Ok (gi n).
Proof.
  intros Hn. unfold get_index. destruct (Z.ltb_spec 0 n); [|lia]. unfold assert_. rewrite bind_Ok.
  rewrite Z.rem_mod_nonneg, Z.quot_div_nonneg by lia. pose proof (Z.mod_pos_bound n 210 ltac:(lia)).
  rewrite (aget_ok _ _ 0) by (change (zlen ft_indexes) with 210; lia). reflexivity.
Qed.
Lemma get_number_ok j : 0 <= j -> get_number j = Ok (gn j).
Proof.
  intros Hn. unfold get_number. rewrite Z.rem_mod_nonneg, Z.quot_div_nonneg by lia. pose proof (Z.mod_pos_bound j 48 ltac:(lia)).
  rewrite (aget_ok _ _ 0) by (change (zlen ft_numbers) with 48; lia). reflexivity.
Qed.
Lemma tab_chk (f : Z -> bool) n : forallb f (zrange 0 n) = true -> forall r, 0 <= r < n -> f r = true.
Proof. intros H r Hr. rewrite forallb_forall in H. apply H. now apply in_zrange. Qed.
Lemma nu_facts t : 0 <= t < 48 -> 1 <= nu t <= 209 /\ coprime210 (nu t) = true /\ ix (nu t) = t /\
  (t < 47 -> nu t < nu (t + 1)).
Proof.
  intros Ht. pose proof (tab_chk (fun t => (1 <=? nu t) && (nu t <=? 209) && coprime210 (nu t) && (ix (nu t) =? t) && ((47 <=? t) || (nu t <? nu (t + 1)))) 48 eq_refl t Ht) as C.
  cbv beta in C. rewrite !andb_true_iff, orb_true_iff, !Z.leb_le, Z.eqb_eq, Z.ltb_lt in C. intuition lia.
Qed.
Lemma ix_facts r : 0 <= r < 210 -> (r = 0 -> ix r = -1) /\ (1 <= r -> 0 <= ix r < 48 /\ nu (ix r) <= r /\ (ix r < 47 -> r < nu (ix r + 1))) /\
  (coprime210 r = true -> 1 <= r /\ nu (ix r) = r).
Proof.
  intros Hr. pose proof (tab_chk (fun r => (negb (r =? 0) || (ix r =? -1)) &&
    ((r <? 1) || ((0 <=? ix r) && (ix r <? 48) && (nu (ix r) <=? r) && ((47 <=? ix r) || (r <? nu (ix r + 1))))) &&
    (negb (coprime210 r) || ((1 <=? r) && (nu (ix r) =? r)))) 210 eq_refl r Hr) as C.
  cbv beta in C. rewrite !andb_true_iff, !orb_true_iff, !andb_true_iff, !orb_true_iff, !negb_true_iff, !Z.leb_le, !Z.eqb_eq, !Z.ltb_lt, !Z.eqb_neq in C.
  destruct C as ((C1 & C2) & C3). split; [intros E; destruct C1; [lia|auto]|]. split; [intros E; destruct C2 as [C2|(((A & B) & C) & D)]; [lia|]; split; [lia|]; split; [lia|]; intros; destruct D; lia|].
  intros E. destruct C3 as [C3|C3]; [congruence|lia].
Qed.
Lemma coprime210_mod n : coprime210 (n mod 210) = coprime210 n.
Proof. unfold coprime210. rewrite Z.gcd_mod by lia. now rewrite Z.gcd_comm. Qed.

Lemma gn_pos j : 0 <= j -> 1 <= gn j.
Proof.
  intros Hj. unfold gn. pose proof (Z.mod_pos_bound j 48 ltac:(lia)) as B. destruct (nu_facts _ B) as (H & _).
  assert (0 <= j / 48) by (apply Z.div_pos; lia). lia.
Qed.
Lemma gn_divmod j : gn j / 210 = j / 48 /\ gn j mod 210 = nu (j mod 48).
Proof.
  unfold gn. pose proof (Z.mod_pos_bound j 48 ltac:(lia)) as B. destruct (nu_facts _ B) as (H & _).
  split.
  - rewrite Z.mul_comm, Z.div_add_l by lia. rewrite (Z.div_small (nu (j mod 48))) by lia. lia.
  - rewrite Z.add_comm, Z.mul_comm, Z.mod_add, Z.mod_small by lia. reflexivity.
Qed.
Lemma gn_coprime j : coprime210 (gn j) = true.
Proof.
  rewrite <- coprime210_mod. destruct (gn_divmod j) as [_ ->]. apply nu_facts. apply Z.mod_pos_bound. lia.
Qed.
Lemma gi_gn j : gi (gn j) = j.
Proof.
  unfold gi. destruct (gn_divmod j) as [-> ->]. pose proof (Z.mod_pos_bound j 48 ltac:(lia)) as B.
  destruct (nu_facts _ B) as (_ & _ & -> & _). pose proof (Z.div_mod j 48 ltac:(lia)). lia.
Qed.
Lemma gn_48 q t : 0 <= t < 48 -> gn (48 * q + t) = 210 * q + nu t.
Proof.
  intros Ht. unfold gn. replace ((48 * q + t) / 48) with q by (rewrite Z.mul_comm, Z.div_add_l, Z.div_small by lia; lia).
  replace ((48 * q + t) mod 48) with t by (rewrite Z.add_comm, Z.mul_comm, Z.mod_add, Z.mod_small by lia; reflexivity). reflexivity.
Qed.
Lemma gn_succ j : gn j < gn (j + 1).
Proof.
  pose proof (Z.mod_pos_bound j 48 ltac:(lia)) as B. pose proof (Z.div_mod j 48 ltac:(lia)) as D.
  destruct (nu_facts _ B) as (H & _ & _ & H2). unfold gn at 1. destruct (Z.eq_dec (j mod 48) 47) as [E|E].
  - replace (j + 1) with (48 * (j / 48 + 1) + 0) by lia. rewrite gn_48 by lia. change (nu 0) with 1. lia.
  - replace (j + 1) with (48 * (j / 48) + (j mod 48 + 1)) by lia. rewrite gn_48 by lia. lia.
Qed.
Lemma gn_mono a b : a < b -> gn a < gn b.
Proof.
  intros H. cut (forall d, 0 <= d -> gn a < gn (a + 1 + d)). { intros G. specialize (G (b - a - 1) ltac:(lia)). now replace (a + 1 + (b - a - 1)) with b in G by ring. }
  intros d Hd. pattern d. apply natlike_ind; [rewrite Z.add_0_r; apply gn_succ| |exact Hd].
  intros k Hk IH. unfold Z.succ. rewrite Z.add_assoc. pose proof (gn_succ (a + 1 + k)). lia.
Qed.
Lemma gn_mono_le a b : a <= b -> gn a <= gn b.
Proof. intros H. destruct (Z.eq_dec a b) as [->|]; [lia|]. pose proof (gn_mono a b). lia. Qed.
Lemma gn_lt_inv a b : gn a < gn b -> a < b.
Proof. intros H. destruct (Z.lt_ge_cases a b); auto. pose proof (gn_mono_le b a). lia. Qed.
Lemma gn_ge j : 0 <= j -> j + 1 <= gn j.
Proof.
  intros Hj. pattern j. apply natlike_ind; [change (gn 0) with 1; lia| |exact Hj].
  intros k Hk IH. unfold Z.succ. pose proof (gn_succ k). lia.
Qed.
Lemma gi_bounds n : 1 <= n -> 0 <= gi n /\ gn (gi n) <= n < gn (gi n + 1).
Proof.
  intros Hn. pose proof (Z.mod_pos_bound n 210 ltac:(lia)) as B. pose proof (Z.div_mod n 210 ltac:(lia)) as D.
  assert (0 <= n / 210) by (apply Z.div_pos; lia).
  destruct (ix_facts _ B) as (I0 & I1 & _). unfold gi. destruct (Z.eq_dec (n mod 210) 0) as [E|E].
  - rewrite I0 by auto. rewrite E in D. split; [lia|]. replace (48 * (n / 210) + -1) with (48 * (n / 210 - 1) + 47) at 1 by ring.
    replace (48 * (n / 210) + -1 + 1) with (48 * (n / 210) + 0) by ring. rewrite !gn_48 by lia. change (nu 47) with 209. change (nu 0) with 1. lia.
  - destruct (I1 ltac:(lia)) as (A & C & F). split; [lia|]. rewrite gn_48 by lia. split; [lia|].
    destruct (Z.eq_dec (ix (n mod 210)) 47) as [E47|N47].
    + rewrite E47. replace (48 * (n / 210) + 47 + 1) with (48 * (n / 210 + 1) + 0) by ring. rewrite gn_48 by lia. change (nu 0) with 1. lia.
    + rewrite <- Z.add_assoc. rewrite gn_48 by lia. specialize (F ltac:(lia)). lia.
Qed.
Lemma gn_gi n : 1 <= n -> coprime210 n = true -> gn (gi n) = n.
Proof.
  intros Hn Hc. rewrite <- coprime210_mod in Hc. pose proof (Z.mod_pos_bound n 210 ltac:(lia)) as B. pose proof (Z.div_mod n 210 ltac:(lia)) as D.
  destruct (ix_facts _ B) as (_ & I1 & I2). destruct (I2 Hc) as [A E]. unfold gi. rewrite gn_48 by (apply I1; auto). rewrite E. lia.
Qed.
Lemma gi_mono a b : 1 <= a -> a <= b -> gi a <= gi b.
Proof.
  intros Ha Hb. destruct (gi_bounds a Ha) as (_ & A1 & A2). destruct (gi_bounds b ltac:(lia)) as (_ & B1 & B2).
  assert (gn (gi a) < gn (gi b + 1)) by lia. apply gn_lt_inv in H. lia.
Qed.
Lemma gi_le n : 1 <= n -> gi n < n.
Proof. intros Hn. destruct (gi_bounds n Hn) as (A & B & _). pose proof (gn_ge (gi n) A). lia. Qed.

(** numbers coprime to 210 *)
Lemma coprime210_spec n : coprime210 n = true <-> rel_prime n 210.
Proof. unfold coprime210. rewrite Z.eqb_eq. apply Zgcd_1_rel_prime. Qed.
Lemma coprime210_mul a b : coprime210 a = true -> coprime210 b = true -> coprime210 (a * b) = true.
Proof. rewrite !coprime210_spec. intros A B. apply rel_prime_sym. apply rel_prime_mult; now apply rel_prime_sym. Qed.
Lemma coprime210_div d n : (d | n) -> coprime210 n = true -> coprime210 d = true.
Proof. rewrite !coprime210_spec. intros D H. eapply rel_prime_div; eauto. Qed.
Lemma coprime210_prime p : prime p -> coprime210 p = true <-> 11 <= p.
Proof.
  intros Hp. pose proof (prime_ge_2 p Hp). split.
  - intros C. destruct (Z.le_gt_cases 11 p); auto. exfalso.
    assert (p = 2 \/ p = 3 \/ p = 4 \/ p = 5 \/ p = 6 \/ p = 7 \/ p = 8 \/ p = 9 \/ p = 10) as [->|[->|[->|[->|[->|[->|[->|[->| ->]]]]]]]] by lia; try discriminate.
  - intros L. apply coprime210_spec. apply prime_rel_prime; auto. intros D.
    assert (I : In p (prime_divisors 210)) by (apply in_prime_divisors; [lia|auto]).
    change (prime_divisors 210) with [2; 3; 5; 7] in I. cbn in I. intuition lia.
Qed.
Lemma coprime210_factors n q : coprime210 n = true -> prime q -> (q | n) -> 11 <= q.
Proof. intros C Hq D. apply coprime210_prime; auto. eapply coprime210_div; eauto. Qed.
Lemma coprime210_ge n : coprime210 n = true -> 1 < n -> 11 <= n.
Proof.
  intros C H. destruct (exists_prime_divisor n ltac:(lia)) as (p & Hp & D). pose proof (coprime210_factors n p C Hp D).
  apply Z.divide_pos_le in D; lia.
Qed.

(** *** Walking over multiples *)
Lemma gn_gap j : gn (j + 1) <= gn j + 10.
Proof.
  pose proof (Z.mod_pos_bound j 48 ltac:(lia)) as B. pose proof (Z.div_mod j 48 ltac:(lia)) as D.
  pose proof (tab_chk (fun t => (47 <=? t) || (nu (t + 1) <=? nu t + 10)) 48 eq_refl _ B) as C. cbv beta in C.
  rewrite orb_true_iff, !Z.leb_le in C. unfold gn at 2. destruct (Z.eq_dec (j mod 48) 47) as [E|E].
  - replace (j + 1) with (48 * (j / 48 + 1) + 0) by lia. rewrite gn_48 by lia. rewrite E. change (nu 0) with 1. change (nu 47) with 209. lia.
  - replace (j + 1) with (48 * (j / 48) + (j mod 48 + 1)) by lia. rewrite gn_48 by lia. lia.
Qed.
Lemma chk64 v : 0 <= v < 2 ^ 63 -> schk 64 v = Ok v.
Proof. intros H. apply schk_ok. unfold in_s, smin, smax. change (64 - 1) with 63. lia. Qed.
Lemma next_multiple_ok d low idx (Q : Z * Z -> Prop) : 1 <= d -> 1 <= low -> low + 11 * d < 2 ^ 63 -> 0 <= idx <= 1 ->
  (forall k, idx <= k -> low < d * gn k -> (forall k', idx <= k' < k -> d * gn k' <= low) -> Q (d * gn k, k + 1)) ->
  wp (next_multiple d low idx) Q.
Proof.
  intros Hd Hl Hb Hi HQ. unfold next_multiple.
  destruct (ceil_div_all i64 low d) as (q & Eq & Q1 & Q2); [cbn; tauto|lia|lia|change (tmax i64) with (2 ^ 63 - 1); lia|].
  rewrite Eq, bind_Ok.
  assert (Hq : 1 <= q) by nia.
  assert (Hq2 : d * (q - 1) < low). { destruct (Z.lt_ge_cases (d * (q - 1)) low); auto. specialize (Q2 (q - 1) ltac:(lia)). lia. }
  assert (Hql : q <= low) by nia.
  rewrite get_index_ok by auto. rewrite bind_Ok. destruct (gi_bounds q Hq) as (G0 & G1 & G2). pose proof (gi_le q Hq).
  assert (C : 2 ^ 63 + 100 < 2 ^ 400) by reflexivity.
  apply (loop_rule _ (fun '(i, m) => idx <= i /\ 0 <= i <= low + 2 /\ (m <= low \/ (i >= idx + 1 /\ m = d * gn (i - 1))) /\
     (m <= low -> i <= low + 1 /\ d * gn i <= low + 11 * d) /\
     (forall k', idx <= k' < i -> d * gn k' <= low \/ (k' = i - 1 /\ m = d * gn k'))) (fun '(i, _) => low + 3 - i)); [| |lia].
  - intros [i m] (I1 & I2 & I3 & I4 & I5). destruct (Z.leb_spec m low) as [L|G].
    + destruct (I4 L) as [I4a I4b]. pose proof (gn_ge i ltac:(lia)) as GE.
      rewrite get_number_ok by lia. rewrite bind_Ok. rewrite chk64 by (split; [apply Z.mul_nonneg_nonneg; lia|lia]). rewrite bind_Ok. cbn [wp].
      split; [|lia]. split; [lia|]. split; [lia|].
      split; [right; split; [lia|f_equal; f_equal; ring]|]. split.
      * intros L'. split; [nia|]. pose proof (gn_gap i). nia.
      * intros k' Hk'. destruct (Z.eq_dec k' i) as [->|]; [right; split; [ring|reflexivity]|]. left.
        destruct (I5 k' ltac:(lia)) as [H5|[H5 E5]]; [auto|lia].
    + cbn [wp]. destruct I3 as [I3|[I3 E3]]; [lia|]. replace i with (i - 1 + 1) at 1 by ring. rewrite E3. apply HQ; [lia|lia|].
      intros k' Hk'. destruct (I5 k' ltac:(lia)) as [H5|[H5 E5]]; [auto|lia].
  - split; [lia|]. split; [lia|]. split; [left; lia|]. split.
    + intros _. split; [lia|]. destruct (Z.max_spec idx (gi q)) as [[_ ->]|[_ ->]]; [nia|].
      assert (gn idx <= 11) by (apply (gn_mono_le idx 1); lia). nia.
    + intros k' Hk'. left. assert (k' < gi q) by lia. assert (gn k' < gn (gi q)) by (apply gn_mono; auto). nia.
Qed.

Lemma ft_walk_rule d high k0 body (Inv : Z -> list Z -> Prop) s (Q : list Z -> Prop) : 1 <= d -> 0 <= k0 -> high + 10 * d < 2 ^ 63 ->
  Inv k0 s ->
  (forall k s, k0 <= k -> d * gn k <= high -> Inv k s -> wp (body (d * gn k) s) (Inv (k + 1))) ->
  (forall k s, k0 <= k -> high < d * gn k -> Inv k s -> Q s) ->
  wp (ft_walk d high (d * gn k0) (k0 + 1) body s) Q.
Proof.
  intros Hd Hk Hb H0 Hs HQ. unfold ft_walk. assert (C : 2 ^ 63 + 100 < 2 ^ 400) by reflexivity.
  apply (loop_rule _ (fun '(m, i, s) => m = d * gn (i - 1) /\ k0 <= i - 1 /\ Inv (i - 1) s) (fun '(m, i, _) => Z.max 0 (high + 2 - i))); [| |lia].
  - intros [[m i] s1] (-> & I1 & I2). destruct (Z.leb_spec (d * gn (i - 1)) high) as [L|G].
    + apply wp_bind. eapply wp_mono; [apply (Hs (i - 1)); auto|]. intros s2 I3. replace (i - 1 + 1) with i in I3 by ring.
      rewrite get_number_ok by lia. rewrite bind_Ok. pose proof (gn_gap (i - 1)) as GG. replace (i - 1 + 1) with i in GG by ring.
      pose proof (gn_ge i ltac:(lia)). rewrite chk64 by (split; [apply Z.mul_nonneg_nonneg; lia|nia]). rewrite bind_Ok. cbn [wp]. replace (i + 1 - 1) with i by ring.
      split; [split; [reflexivity|]; split; [lia|exact I3]|]. pose proof (gn_ge (i - 1) ltac:(lia)). assert (i <= high) by nia. lia.
    + cbn [wp]. eapply HQ; eauto.
  - replace (k0 + 1 - 1) with k0 by ring. split; [reflexivity|]. split; [lia|exact H0].
Qed.

Definition wh (d low high idx n : Z) : bool := (low <? n) && (n <=? high) && (n mod d =? 0) && (idx <=? gi (n / d)).

(** one pass: next_multiple followed by the loop, when the body replaces the element
    of every visited number by g of it *)
Lemma ft_pass d low high y idx body g f F (Q : list Z -> Prop) : 1 <= d -> coprime210 d = true -> 1 <= low -> low + 11 * d < 2 ^ 63 -> 0 <= idx <= 1 ->
  1 <= y -> y + 10 * d < 2 ^ 63 -> high <= y -> arr f (gi y + 1) F ->
  (forall j s v, 0 <= j <= gi y -> low < gn j <= high -> (d | gn j) -> idx <= gi (gn j / d) -> aget s j = Ok v -> v = F j -> zlen s = gi y + 1 ->
     body (gn j) s = aset s j (g v)) ->
  (forall f', arr f' (gi y + 1) (fun j => if wh d low high idx (gn j) then g (F j) else F j) -> Q f') ->
  wp (next_multiple d low idx) (fun '(multiple, i) => wp (ft_walk d high multiple i body f) Q).
Proof.
  intros Hd Hc Hl Hlb Hi Hy Hyb Hh Ha Hbody HQ. apply next_multiple_ok; [auto..|]. intros k0 K1 K2 K3.
  assert (DV : forall n, 1 <= n -> coprime210 n = true -> n mod d = 0 -> n = d * gn (gi (n / d)) /\ 0 <= gi (n / d)).
  { intros n Hn Hcn Hm. apply Z.mod_divide in Hm; [|lia]. destruct Hm as [k Ek]. assert (Hk : 1 <= k) by nia.
    assert (EK : n / d = k) by (rewrite Ek; apply Z.div_mul; lia). rewrite EK.
    assert (Ck : coprime210 k = true) by (apply (coprime210_div k n); [exists d; lia|auto]).
    rewrite gn_gi by auto. split; [lia|]. now apply gi_bounds. }
  assert (MB : forall k, 0 <= k -> (d * gn k) / d = gn k /\ (d * gn k) mod d = 0 /\ gn (gi (d * gn k)) = d * gn k /\ 1 <= d * gn k).
  { intros k Hk. pose proof (gn_pos k Hk). rewrite Z.mul_comm, Z.div_mul, Z.mod_mul by lia.
    split; [reflexivity|]. split; [reflexivity|]. split; [|nia]. apply gn_gi; [nia|]. apply coprime210_mul; [apply gn_coprime|auto]. }
  eapply (ft_walk_rule d high k0 _ (fun k s => arr s (gi y + 1) (fun j => if wh d low high idx (gn j) && (gi (gn j / d) <? k) then g (F j) else F j))); [lia|lia|lia| | |].
  - eapply arr_ext; [exact Ha|]. intros j Hj. cbv beta. destruct (wh d low high idx (gn j)) eqn:W; [|reflexivity]. cbn [andb].
    unfold wh in W. rewrite !andb_true_iff, Z.ltb_lt, !Z.leb_le, Z.eqb_eq in W. destruct W as (((W1 & W2) & W3) & W4).
    destruct (DV (gn j) ltac:(lia) (gn_coprime j) W3) as [E1 E2].
    destruct (Z.ltb_spec (gi (gn j / d)) k0) as [L|]; [|reflexivity]. exfalso. pose proof (K3 _ (conj W4 L)). lia.
  - intros k s Hk Hm Hs. destruct (MB k ltac:(lia)) as (M1 & M2 & M3 & M4). set (m := d * gn k) in *.
    assert (J : 0 <= gi m <= gi y) by (split; [now apply gi_bounds|apply gi_mono; lia]).
    assert (Lk : low < m). { pose proof (gn_mono_le k0 k Hk). unfold m. nia. }
    assert (WH : wh d low high idx m = true).
    { unfold wh. rewrite M1, gi_gn, M2. rewrite !andb_true_iff, Z.ltb_lt, !Z.leb_le. repeat split; lia || reflexivity. }
    pose proof (arr_get _ _ _ (gi m) Hs ltac:(lia)) as Eg. cbv beta in Eg. rewrite M3, WH, M1, gi_gn, Z.ltb_irrefl in Eg. cbn [andb] in Eg.
    rewrite <- M3. rewrite (Hbody (gi m) s (F (gi m))); [|lia|lia|rewrite M3; exists (gn k); unfold m; ring|rewrite M3, M1, gi_gn; lia|exact Eg|reflexivity|exact (arr_len _ _ _ Hs)].
    eapply arr_set; [exact Hs|lia|]. intros s' Hs'. eapply arr_ext; [exact Hs'|]. intros j Hj. cbv beta.
    destruct (Z.eqb_spec j (gi m)) as [->|Nj].
    + rewrite M3, WH, M1, gi_gn. destruct (Z.ltb_spec k (k + 1)); [reflexivity|lia].
    + destruct (wh d low high idx (gn j)) eqn:W; [|reflexivity]. cbn [andb].
      destruct (Z.ltb_spec (gi (gn j / d)) k), (Z.ltb_spec (gi (gn j / d)) (k + 1)); try lia; try reflexivity. exfalso. apply Nj.
      assert (E : gi (gn j / d) = k) by lia. unfold wh in W. rewrite !andb_true_iff, Z.ltb_lt, !Z.leb_le, Z.eqb_eq in W.
      destruct (DV (gn j) ltac:(lia) (gn_coprime j) ltac:(tauto)) as [E1 _]. rewrite E in E1. fold m in E1. rewrite <- E1. now rewrite gi_gn.
  - intros k s Hk Hm Hs. apply HQ. eapply arr_ext; [exact Hs|]. intros j Hj. cbv beta.
    destruct (wh d low high idx (gn j)) eqn:W; [|reflexivity]. cbn [andb]. unfold wh in W. rewrite !andb_true_iff, Z.ltb_lt, !Z.leb_le, Z.eqb_eq in W.
    destruct (DV (gn j) ltac:(lia) (gn_coprime j) ltac:(tauto)) as [E1 _].
    destruct (Z.ltb_spec (gi (gn j / d)) k); [reflexivity|]. pose proof (gn_mono_le _ _ H). nia.
Qed.

(** *** The value of one element while the primes below q have been treated *)
Definition lpv (P : Z) : Z := least_factor P - (if mu P =? 1 then 1 else 0).
Definition ft_inv (T q n v : Z) : Prop :=
  (v = 0 /\ mu n = 0) \/
  (exists P r, 1 <= P /\ 1 <= r /\ n = P * r /\
     (forall s, prime s -> (s | r) -> q <= s) /\ (forall s, prime s -> (s | P) -> s < q) /\ mu P <> 0 /\
     v = (if (P =? 1) || primeb n then T else lpv P)).
Definition ft_final (T n v : Z) : Prop :=
  (prime n -> v = T) /\ (mu n = 0 -> v = 0) /\ (mu n <> 0 -> ~ prime n -> v = lpv n).

Lemma ft_start T n : 1 <= n -> coprime210 n = true -> ft_inv T 11 n T.
Proof.
  intros Hn Hc. right. exists 1, n. split; [lia|]. split; [lia|]. split; [lia|]. split; [intros s Hs D; eapply coprime210_factors; eauto|].
  split; [|split; [discriminate|reflexivity]]. intros s Hs D. pose proof (prime_ge_2 s Hs). apply Z.divide_1_r_nonneg in D; lia.
Qed.
Lemma ft_skip T q q' n v : q <= q' -> (forall s, prime s -> q <= s -> q' <= s) -> ft_inv T q n v -> ft_inv T q' n v.
Proof.
  intros Hq Hs [H|(P & r & HP & Hr & E & H1 & H2 & H3 & H4)]; [now left|right]. exists P, r.
  do 3 (split; [assumption|]). split; [intros s Ps D; apply Hs; auto|]. split; [|auto]. intros s Ps D. specialize (H2 s Ps D). lia.
Qed.
Lemma lxor1_even v : Z.even v = true -> Z.lxor v 1 = v + 1.
Proof.
  intros H. apply Z.bits_inj'. intros k Hk. apply Z.even_spec in H. destruct H as [w ->]. rewrite Z.lxor_spec.
  destruct (Z.eq_dec k 0) as [->|].
  - rewrite Z.testbit_even_0, Z.testbit_odd_0. reflexivity.
  - replace k with (Z.succ (k - 1)) by lia. rewrite Z.testbit_even_succ, Z.testbit_odd_succ by lia.
    change 1 with (2 * 0 + 1) at 2. rewrite Z.testbit_odd_succ by lia. rewrite Z.bits_0. apply xorb_false_r.
Qed.
Lemma lxor1_odd v : Z.odd v = true -> Z.lxor v 1 = v - 1.
Proof.
  intros H. apply Z.odd_spec in H. destruct H as [w ->]. replace (2 * w + 1 - 1) with (2 * w) by ring.
  rewrite <- (lxor1_even (2 * w)) by (rewrite Z.even_mul; reflexivity). rewrite Z.lxor_assoc. change (Z.lxor 1 1) with 0. apply Z.lxor_0_r.
Qed.
Lemma mu_sq_ne n : mu n = 0 -> ~ prime n.
Proof. intros H P. rewrite (mu_prime n P) in H. discriminate. Qed.

(** what the two passes of prime q do to the element of n *)
Definition ft_upd (T q n v : Z) : Z :=
  let v1 := if (n mod q =? 0) && negb (n =? q) then (if v =? T then q else if v =? 0 then v else Z.lxor v 1) else v in
  if n mod (q * q) =? 0 then 0 else v1.

Lemma ft_step T q n v : prime q -> 11 <= q -> 1 < n -> coprime210 n = true -> n <= (T - 1) ^ 2 - 1 -> 1 < T ->
  ft_inv T q n v -> ft_inv T (q + 1) n (ft_upd T q n v).
Proof.
  intros Pq Hq Hn Hc HnT HT H. unfold ft_upd. destruct (n mod (q * q) =? 0) eqn:E2.
  { apply mod0_divide in E2; [|nia]. left. split; auto. apply (mu_square q); auto. lia. }
  apply mod0_false in E2; [|nia].
  destruct H as [[-> H]|(P & r & HP & Hr & E & Hs & Hl & Hmu & V)].
  { left. split; auto. destruct (_ && _); auto. destruct (Z.eqb_spec 0 T); [lia|reflexivity]. }
  assert (NP : ~ (q | P)) by (intros D; specialize (Hl q Pq D); lia).
  destruct (n mod q =? 0) eqn:E1.
  - apply mod0_divide in E1; [|lia]. rewrite E in E1. apply prime_mult in E1; auto. destruct E1 as [D|D]; [contradiction|].
    destruct D as [r' Hr']. right. exists (q * P), r'. split; [nia|]. split; [nia|]. split; [subst; ring|]. split; [|split; [|split]].
    + intros s Ps D. assert (q <= s) by (apply Hs; auto; subst r; now apply Z.divide_mul_l).
      assert (s <> q); [|lia]. intros ->. apply E2. destruct D as [w ->]. exists (P * w). subst. ring.
    + intros s Ps D. apply prime_mult in D; auto. destruct D as [D|D].
      * apply prime_div_prime in D; auto. lia.
      * specialize (Hl s Ps D). lia.
    + rewrite mu_mul by auto. lia.
    + destruct (Z.eqb_spec (q * P) 1); [nia|]. cbn [orb]. destruct (Z.eqb_spec n q) as [Enq|Nnq].
      { cbn [andb negb]. assert (PN : primeb n = true) by (rewrite Enq; now apply primeb_spec). rewrite PN in V |- *. rewrite orb_true_r in V. exact V. }
      cbn [andb negb].
      assert (NPN : ~ prime n). { intros Pn. assert (D : (q | n)) by (exists (P * r'); subst; ring). apply prime_div_prime in D; auto. }
      assert (PN : primeb n = false) by now apply primeb_false. rewrite PN in V |- *. rewrite orb_false_r in V.
      destruct (Z.eqb_spec P 1) as [P1|NP1].
      * rewrite V, Z.eqb_refl. subst P. rewrite Z.mul_1_r. unfold lpv. rewrite mu_prime by auto. change (-1 =? 1) with false. cbv iota.
        rewrite (least_factor_unique q q); [ring|lia|auto|apply Z.divide_refl|]. intros s Ps D. apply prime_div_prime in D; auto. lia.
      * destruct (least_factor_spec P ltac:(lia)) as (L1 & L2 & L3). set (l := least_factor P) in *.
        assert (L4 : l < q) by (apply Hl; auto).
        assert (L5 : 11 <= l). { apply (coprime210_factors n); auto. eapply Z.divide_trans; [exact L2|]. exists r. lia. }
        assert (Lo : Z.odd l = true).
        { destruct (Z.odd l) eqn:O; auto. exfalso. apply (f_equal negb) in O. rewrite Z.negb_odd in O. apply Z.even_spec in O. destruct O as [w Ew].
          assert (D : (2 | l)) by (exists w; lia). apply prime_div_prime in D; [lia|apply prime_2|auto]. }
        assert (LT : l <= T - 2).
        { assert (A1 : l <= P) by (apply Z.divide_pos_le; auto; lia). assert (A2 : l <= r) by (assert (1 <= r') by nia; nia).
          assert (A3 : l * l <= n) by (rewrite E; apply Z.mul_le_mono_nonneg; lia). rewrite Z.pow_2_r in HnT. clear - A3 HnT L5 HT. nia. }
        unfold lpv. replace (least_factor (q * P)) with l.
        2:{ symmetry. apply least_factor_unique; [nia|auto|apply Z.divide_mul_r; auto|]. intros s Ps D. apply prime_mult in D; auto. destruct D as [D|D].
            - apply prime_div_prime in D; auto. lia. - now apply L3. }
        rewrite mu_mul by auto. rewrite V. unfold lpv. fold l. destruct (mu_unit P Hmu) as [M|M]; rewrite M.
        -- change (1 =? 1) with true. change (- (1) =? 1) with false. cbv iota.
           destruct (Z.eqb_spec (l - 1) T); [lia|]. destruct (Z.eqb_spec (l - 1) 0); [lia|]. rewrite lxor1_even; [lia|].
           rewrite Z.even_sub. rewrite <- Z.negb_odd, Lo. reflexivity.
        -- change (-1 =? 1) with false. change (- (-1) =? 1) with true. cbv iota. rewrite Z.sub_0_r.
           destruct (Z.eqb_spec l T); [lia|]. destruct (Z.eqb_spec l 0); [lia|]. now rewrite lxor1_odd.
  - cbn [andb]. apply mod0_false in E1; [|lia]. right. exists P, r. do 3 (split; [assumption|]). split; [|split; [|split; [assumption|exact V]]].
    + intros s Ps D. specialize (Hs s Ps D). assert (s <> q); [|lia]. intros ->. apply E1. subst n. now apply Z.divide_mul_r.
    + intros s Ps D. specialize (Hl s Ps D). lia.
Qed.
Lemma ft_end T q n v : 11 <= q -> 1 < n -> coprime210 n = true -> n < q * 11 -> ft_inv T q n v -> ft_final T n v.
Proof.
  intros Hq Hn Hc Hb [[-> H]|(P & r & HP & Hr & E & Hs & Hl & Hmu & V)].
  - split; [intros P; elim (mu_sq_ne n); auto|]. split; [auto|]. congruence.
  - assert (CR : r = 1 \/ q <= r).
    { destruct (Z.eq_dec r 1); auto. right. destruct (exists_prime_divisor r ltac:(lia)) as (s & Ps & Ds). specialize (Hs s Ps Ds). apply Z.divide_pos_le in Ds; lia. }
    assert (CP : P = 1 \/ 11 <= P).
    { destruct (Z.eq_dec P 1); auto. right. apply coprime210_ge; [|lia]. apply (coprime210_div P n); auto. exists r. lia. }
    destruct CP as [-> |CP].
    + assert (Pn : prime n).
      { destruct (prime_dec' n) as [Pn|Pn]; auto. exfalso. destruct (composite_divisor n ltac:(lia) Pn) as (s & Ps & D & L).
        rewrite Z.mul_1_l in E. subst r. specialize (Hs s Ps D). pose proof (coprime210_factors n s Hc Ps D). destruct D as [k Ek]. nia. }
      split; [auto|]. split; [intros M; rewrite (mu_prime n Pn) in M; discriminate|]. intros _ N. contradiction.
    + destruct CR as [-> |CR]; [|nia]. rewrite Z.mul_1_r in E. subst P. destruct (Z.eqb_spec n 1); [lia|]. cbn [orb] in V.
      split; [intros Pn; apply primeb_spec in Pn; now rewrite Pn in V|]. split; [congruence|]. intros _ Nn. apply primeb_false in Nn. now rewrite Nn in V.
Qed.

(** *** One thread *)
Lemma ft_thread_ok T y d t f F (Q : list Z -> Prop) : (T = 2 ^ 16 - 1 \/ T = 2 ^ 32 - 1) -> 8 <= y <= (T - 1) ^ 2 - 1 -> y < 2 ^ 55 -> 1 <= d <= y -> 0 <= t -> d * t <= y + 2 ^ 31 ->
  arr f (gi y + 1) F -> (forall j, 0 <= j <= gi y -> 1 + d * t < gn j <= Z.min (1 + d * t + d) y -> F j = T) ->
  (forall f' F', arr f' (gi y + 1) F' ->
     (forall j, 0 <= j <= gi y -> if (1 + d * t <? gn j) && (gn j <=? Z.min (1 + d * t + d) y) then ft_final T (gn j) (F' j) else F' j = F j) -> Q f') ->
  wp (ft_thread T y (Z.sqrt y) d t f) Q.
Proof.
  intros HT Hy Hyb Hd Ht Hdt Ha HF HQ. unfold ft_thread.
  assert (C : 2 ^ 55 * 256 = 2 ^ 63 /\ 2 ^ 31 < 2 ^ 54 /\ 2 ^ 54 * 2 = 2 ^ 55 /\ 1000000 < 2 ^ 54) by (repeat split; reflexivity).
  assert (Hdt0 : 0 <= d * t) by (apply Z.mul_nonneg_nonneg; lia).
  rewrite chk64 by lia. rewrite bind_Ok. rewrite chk64 by lia. rewrite bind_Ok. rewrite chk64 by lia. rewrite bind_Ok. cbv zeta.
  set (low := 1 + d * t) in *. set (high := Z.min (low + d) y) in *.
  rewrite get_number_ok by lia. rewrite bind_Ok. change (gn 1) with 11.
  assert (C3 : 2 ^ 63 + 100 < 2 ^ 400) by reflexivity.
  assert (HT2 : 2 ^ 16 - 1 <= T <= 2 ^ 32 - 1) by (destruct HT as [-> | ->]; split; discriminate).
  assert (Hlow : 1 <= low <= y + 2 ^ 31 + 1) by (unfold low; lia).
  assert (Hhigh : high <= y) by (unfold high; lia).
  pose proof (sqrt_bounds y ltac:(lia)) as (S0 & S1 & S2). set (sy := Z.sqrt y) in *.
  apply (loop_rule _ (fun '(it, f) => (10 <= it /\ (it = 10 \/ 11 * it <= y)) /\ exists G, arr f (gi y + 1) G /\ forall j, 0 <= j <= gi y ->
     if (low <? gn j) && (gn j <=? high) then ft_inv T (it + 1) (gn j) (G j) else G j = F j) (fun '(it, _) => Z.max 0 (high - it + 1))).
  - intros [it f1] ((Hit & Hit2) & G & Ga & HG). set (p := next_prime it). cbv zeta.
    destruct (next_prime_spec it) as (Pp & Gp & Lp). fold p in Pp, Gp, Lp.
    assert (Cp : coprime210 p = true) by (apply coprime210_prime; auto; lia).
    assert (HG' : forall j, 0 <= j <= gi y -> if (low <? gn j) && (gn j <=? high) then ft_inv T p (gn j) (G j) else G j = F j).
    { intros j Hj. specialize (HG j Hj). destruct (_ && _); auto. eapply ft_skip; [| |exact HG]; [lia|]. intros s Ps Hs. apply Lp; auto. lia. }
    clear HG.
    assert (Hp11 : 11 * p <= 128 * y + 20000).
    { destruct (prime_gap_128 it ltac:(lia)) as (q & Pq & Q1 & Q2); [destruct Hit2; lia|]. pose proof (Lp q Pq Q1). destruct Hit2; lia. }
    destruct (Z.gtb_spec (p * 11) high) as [Gt|Le].
    { apply wp_bind. apply next_multiple_ok; [lia..|]. intros k _ _ _. rewrite chk64 by lia. rewrite bind_Ok.
      destruct (Z.gtb_spec (p * 11) high); [|lia]. cbn [wp].
      eapply HQ; [exact Ga|]. intros j Hj. specialize (HG' j Hj). destruct ((low <? gn j) && (gn j <=? high)) eqn:W; [|exact HG'].
      rewrite andb_true_iff, Z.ltb_lt, Z.leb_le in W. eapply ft_end; [| | | |exact HG']; [lia|lia|apply gn_coprime|lia]. }
    apply wp_bind. refine (wp_mono _ _ _ (ft_pass p low high y 1 _ (fun v => if v =? T then p else if v =? 0 then v else Z.lxor v 1) f1 G _ _ _ _ _ _ _ _ _ _ _ _) _);
      [..|intros [m i] W; rewrite chk64 by lia; rewrite bind_Ok; destruct (Z.gtb_spec (p * 11) high); [lia|]; apply wp_bind; exact W]; cbv beta.
    all: [> lia|exact Cp|lia|lia|lia|lia|lia|lia|exact Ga| |].
    { intros j s v Hj Hr D Hi Ev EG Ls. cbv beta. rewrite get_index_ok by (pose proof (gn_pos j); lia). rewrite bind_Ok, gi_gn, Ev, bind_Ok.
      destruct (Z.eqb_spec v T) as [EvT|NvT].
      - f_equal. assert (p <= T - 2).
        { assert (p * p <= gn j). { destruct D as [k Ek]. rewrite Ek in Hi. rewrite Z.div_mul in Hi by lia. assert (Hk : 1 <= k) by (pose proof (gn_pos j); nia).
            assert (k <> 1) by (intros ->; change (gi 1) with 0 in Hi; lia).
            specialize (HG' j Hj). destruct (Z.ltb_spec low (gn j)), (Z.leb_spec (gn j) high); try lia. cbn [andb] in HG'.
            destruct (exists_prime_divisor k ltac:(lia)) as (s0 & Ps & Ds).
            assert (p <= s0).
            { destruct HG' as [[E0 _]|(P & r & HP & Hrr & E & Hs & Hl & Hmu & V)]; [lia|].
              assert (Dn : (s0 | gn j)) by (rewrite Ek; now apply Z.divide_mul_l).
              rewrite <- EG, EvT in V. destruct (Z.eqb_spec P 1) as [->|NP].
              - apply Hs; auto. replace r with (gn j) by lia. exact Dn.
              - cbn [orb] in V. destruct (primeb (gn j)) eqn:PN.
                + exfalso. apply primeb_spec in PN. assert (Dp : (p | gn j)) by (exists k; lia). apply prime_div_prime in Dp; auto. assert (k = 1) by (apply (Z.mul_reg_r k 1 p); lia). lia.
                + exfalso. unfold lpv in V. destruct (least_factor_spec P ltac:(lia)) as (L1 & L2 & L3).
                  set (l := least_factor P) in *.
                  pose proof (Hl _ L1 L2). assert (A1 : l <= P) by (apply Z.divide_pos_le; auto; lia).
                  assert (A2 : p <= r).
                  { assert (Dp : (p | P * r)) by (rewrite <- E; exists k; lia). apply prime_mult in Dp; auto. destruct Dp as [Dp|Dp].
                    - specialize (Hl p Pp Dp). lia. - apply Z.divide_pos_le in Dp; lia. }
                  pose proof (prime_ge_2 _ L1). assert (A3 : l * l <= gn j) by (rewrite E; apply Z.mul_le_mono_nonneg; lia).
                  assert (A4 : l * l < (T - 1) * (T - 1)) by (rewrite Z.pow_2_r in Hy; lia).
                  assert (A5 : l < T - 1) by (clear - A4 HT2; nia). destruct (mu P =? 1); lia. }
            apply Z.divide_pos_le in Ds; [|lia]. rewrite Ek. apply Z.mul_le_mono_nonneg_r; lia. }
          nia. }
        destruct HT as [-> | ->].
        + change (2 ^ 16 - 1) with (Z.ones 16). rewrite Z.land_ones by lia. apply Z.mod_small. lia.
        + change (2 ^ 32 - 1) with (Z.ones 32). rewrite Z.land_ones by lia. apply Z.mod_small. lia.
      - destruct (Z.eqb_spec v 0) as [Ev0|Nv0]; cbn [negb]; [|reflexivity]. symmetry. apply aset_same. exact Ev. }
    intros f2 A2.
    assert (KEY : forall f3, arr f3 (gi y + 1) (fun j => if (low <? gn j) && (gn j <=? high) then ft_upd T p (gn j) (G j) else G j) ->
      wp (Ok (inl (p, f3)) : res ((Z * list Z) + list Z)) (fun r => match r with
        | inl s' => (let '(it0, f0) := s' in (10 <= it0 /\ (it0 = 10 \/ 11 * it0 <= y)) /\ exists G0, arr f0 (gi y + 1) G0 /\ forall j, 0 <= j <= gi y -> if (low <? gn j) && (gn j <=? high) then ft_inv T (it0 + 1) (gn j) (G0 j) else G0 j = F j) /\
           0 <= (let '(it0, _) := s' in Z.max 0 (high - it0 + 1)) < Z.max 0 (high - it + 1)
        | inr f0 => Q f0 end)).
    { intros f3 A3. cbn [wp]. split; [|lia]. split; [split; [lia|right; lia]|]. eexists. split; [exact A3|]. intros j Hj. cbv beta. specialize (HG' j Hj).
      destruct ((low <? gn j) && (gn j <=? high)) eqn:W; [|exact HG']. rewrite andb_true_iff, Z.ltb_lt, Z.leb_le in W.
      apply ft_step; auto; [lia|lia|apply gn_coprime|lia|lia]. }
    assert (E1 : forall j, 0 <= j <= gi y -> wh p low high 1 (gn j) = (low <? gn j) && (gn j <=? high) && ((gn j mod p =? 0) && negb (gn j =? p))).
    { intros j Hj. unfold wh. rewrite <- !andb_assoc. f_equal. f_equal. destruct (gn j mod p =? 0) eqn:M; [|reflexivity]. cbn [andb].
      apply mod0_divide in M; [|lia]. destruct M as [k Ek]. rewrite Ek, Z.div_mul by lia. assert (Hk : 1 <= k) by (pose proof (gn_pos j); nia).
      destruct (Z.eqb_spec (k * p) p) as [E|N].
      - assert (k = 1) by (apply (Z.mul_reg_r k 1 p); lia). subst k. reflexivity.
      - assert (k <> 1) by (intros ->; lia). destruct (gi_bounds k Hk) as (B0 & B1 & B2).
        assert (gi k <> 0) by (intros E0; rewrite E0 in B2; change (gn (0 + 1)) with 11 in B2;
           assert (Ck : coprime210 k = true) by (apply (coprime210_div k (gn j)); [exists p; lia|apply gn_coprime]); pose proof (coprime210_ge k Ck); lia).
        cbn [negb]. apply Z.leb_le. lia. }
    assert (PP : 0 < p * p) by (apply Z.mul_pos_pos; lia).
    assert (E2 : forall j, 0 <= j <= gi y -> wh (p * p) low high 0 (gn j) = (low <? gn j) && (gn j <=? high) && (gn j mod (p * p) =? 0)).
    { intros j Hj. unfold wh. destruct (gn j mod (p * p) =? 0) eqn:M; [|now rewrite !andb_false_r]. rewrite !andb_true_r.
      apply mod0_divide in M; [|lia]. destruct M as [k Ek]. rewrite Ek at 3. rewrite Z.div_mul by lia.
      assert (Hk : 1 <= k) by (pose proof (gn_pos j); nia). destruct (gi_bounds k Hk) as (B0 & _). destruct (Z.leb_spec 0 (gi k)); [|lia]. now rewrite andb_true_r. }
    destruct (Z.leb_spec p sy) as [Lsy|Gsy].
    + assert (PY : p * p <= y) by (assert (p * p <= sy * sy) by (apply Z.mul_le_mono_nonneg; lia); lia).
      rewrite chk64 by lia. rewrite bind_Ok.
      apply wp_bind. apply wp_bind. refine (wp_mono _ _ _ (ft_pass (p * p) low high y 0 _ (fun _ => 0) f2 _ _ _ _ _ _ _ _ _ _ _ _ _) _);
      [..|intros [m i] W; exact W].
      all: [> lia|apply coprime210_mul; auto|lia|lia|lia|lia|lia|lia|exact A2| |].
      { intros j s v Hj Hr D Hi Ev EG Ls. cbv beta. rewrite get_index_ok by (pose proof (gn_pos j); lia). now rewrite bind_Ok, gi_gn. }
      intros f3 A3. apply KEY. eapply arr_ext; [exact A3|]. intros j Hj. cbv beta. rewrite E1, E2 by lia. unfold ft_upd.
      destruct ((low <? gn j) && (gn j <=? high)); [|reflexivity]. cbn [andb]. destruct (gn j mod (p * p) =? 0); [reflexivity|].
      destruct ((gn j mod p =? 0) && negb (gn j =? p)); reflexivity.
    + rewrite bind_Ok. apply KEY. eapply arr_ext; [exact A2|]. intros j Hj. cbv beta. rewrite E1 by lia. unfold ft_upd.
      destruct ((low <? gn j) && (gn j <=? high)) eqn:W; [|reflexivity]. rewrite andb_true_iff, Z.ltb_lt, Z.leb_le in W. cbn [andb].
      replace (gn j mod (p * p) =? 0) with false; [destruct ((gn j mod p =? 0) && negb (gn j =? p)); reflexivity|].
      symmetry. apply mod0_false; [lia|]. intros D. apply Z.divide_pos_le in D; [|lia]. assert ((sy + 1) * (sy + 1) <= p * p) by (apply Z.mul_le_mono_nonneg; lia). lia.
  - split; [split; [lia|now left]|]. exists F. split; [exact Ha|]. intros j Hj. destruct ((low <? gn j) && (gn j <=? high)) eqn:W; [|reflexivity].
    rewrite andb_true_iff, Z.ltb_lt, Z.leb_le in W. rewrite HF by lia. apply ft_start; [lia|apply gn_coprime].
  - lia.
Qed.

(** *** The table *)
Lemma ft_chunk d y' n t : 1 <= d -> 2 <= n <= y' -> (1 + d * t < n <= Z.min (1 + d * t + d) y' <-> (n - 2) / d = t).
Proof.
  intros Hd Hn. pose proof (Z.div_mod (n - 2) d ltac:(lia)) as DM. pose proof (Z.mod_pos_bound (n - 2) d ltac:(lia)) as MB. split.
  - intros H1. assert (1 + d * t < n /\ n <= 1 + d * t + d) as [A B] by lia. clear H1. set (q := (n - 2) / d) in *. nia.
  - intros <-. lia.
Qed.
Lemma ft_one_ok T y' d N L t l1 l2 f F : (T = 2 ^ 16 - 1 \/ T = 2 ^ 32 - 1) -> 8 <= y' <= (T - 1) ^ 2 - 1 -> y' < 2 ^ 55 -> 1 <= d <= y' -> (d - 1) * N <= y' -> N <= 2 ^ 31 ->
  L = gi y' -> NoDup (l1 ++ t :: l2) -> 0 <= t < N -> arr f (L + 1) F -> F 0 = T ->
  (forall j, 1 <= j <= L -> if existsb (Z.eqb ((gn j - 2) / d)) l1 then ft_final T (gn j) (F j) else F j = T) ->
  wp (ft_thread T y' (Z.sqrt y') d t f) (fun f' => exists F', arr f' (L + 1) F' /\ F' 0 = T /\
         forall j, 1 <= j <= L -> if existsb (Z.eqb ((gn j - 2) / d)) (l1 ++ [t]) then ft_final T (gn j) (F' j) else F' j = T).
Proof.
  intros HT Hy' Hyb' Hd HdN HNb HL HND HtL Ha F0 HF. assert (G1 : gn L <= y') by (subst L; apply gi_bounds; lia). assert (G0 : 0 <= L) by (subst L; apply gi_bounds; lia).
  pose proof (ft_chunk d y') as CH.
  assert (GB : forall j, 1 <= j <= L -> 2 <= gn j <= y').
        { intros j Hj. pose proof (gn_ge j ltac:(lia)). pose proof (gn_mono_le j L ltac:(lia)). lia. }
        assert (NT1 : existsb (Z.eqb t) l1 = false).
        { apply not_true_is_false. intros E. apply existsb_exists in E. destruct E as (s & Hs & Es). apply Z.eqb_eq in Es. subst s.
          apply NoDup_remove_2 in HND. apply HND. apply in_or_app. now left. }
        eapply (ft_thread_ok T y' d t f F); [exact HT|lia|lia|lia|lia| |subst L; exact Ha| |].
        { assert ((d - 1) * t <= (d - 1) * N) by (apply Z.mul_le_mono_nonneg_l; lia). lia. }
        - intros j Hj Hr. destruct (Z.eq_dec j 0) as [->|]; [exact F0|]. specialize (HF j ltac:(lia)). apply CH in Hr; [|lia|apply GB; subst L; lia].
          rewrite Hr, NT1 in HF. exact HF.
        - intros f' F' Ha' HF'. exists F'. split; [subst L; exact Ha'|]. split.
          + specialize (HF' 0 ltac:(subst L; lia)). change (gn 0) with 1 in HF'. destruct (Z.ltb_spec (1 + d * t) 1); [nia|]. cbn [andb] in HF'. congruence.
          + intros j Hj. specialize (HF' j ltac:(subst L; lia)). specialize (HF j Hj). rewrite existsb_app. cbn [existsb]. rewrite orb_false_r.
            pose proof (CH (gn j) t ltac:(lia) (GB j Hj)) as CHj.
            destruct (Z.eqb_spec ((gn j - 2) / d) t) as [E|NE].
            * rewrite orb_true_r. apply CHj in E. destruct (Z.ltb_spec (1 + d * t) (gn j)), (Z.leb_spec (gn j) (Z.min (1 + d * t + d) y')); try lia. exact HF'.
            * rewrite orb_false_r. destruct ((1 + d * t <? gn j) && (gn j <=? Z.min (1 + d * t + d) y')) eqn:W; [|rewrite HF'; exact HF].
              rewrite andb_true_iff, Z.ltb_lt, Z.leb_le in W. exfalso. apply NE. now apply CHj.
Qed.

Lemma fold_res_rule {A} (g : A -> Z -> res A) (I : list Z -> A -> Prop) l2 : forall l1 a, I l1 a ->
  (forall l1' t l2' a, l1 ++ l2 = l1' ++ t :: l2' -> In t l2 -> I l1' a -> wp (g a t) (I (l1' ++ [t]))) ->
  wp (fold_left (fun f t => x <- f ;; g x t) l2 (Ok a)) (I (l1 ++ l2)).
Proof.
  induction l2 as [|t l2 IH]; intros l1 a Ha Hs.
  - cbn [fold_left wp]. now rewrite app_nil_r.
  - cbn [fold_left]. rewrite bind_Ok. pose proof (Hs l1 t l2 a eq_refl (or_introl eq_refl) Ha) as W. destruct (g a t) as [a'|]; [|contradiction].
    cbn [wp] in W. replace (l1 ++ t :: l2) with ((l1 ++ [t]) ++ l2) in * by (rewrite <- app_assoc; reflexivity).
    apply IH; auto. intros l1' t' l2' a2 E Hin. apply (Hs l1' t' l2' a2 E). now right.
Qed.
Lemma ft_threads_ok T y' d N L : (T = 2 ^ 16 - 1 \/ T = 2 ^ 32 - 1) -> 8 <= y' <= (T - 1) ^ 2 - 1 -> y' < 2 ^ 55 -> 1 <= d <= y' -> (d - 1) * N <= y' -> N <= 2 ^ 31 ->
  L = gi y' ->
  forall l2 l1 f F, NoDup (l1 ++ l2) -> (forall t, In t l2 -> 0 <= t < N) -> arr f (L + 1) F -> F 0 = T ->
     (forall j, 1 <= j <= L -> if existsb (Z.eqb ((gn j - 2) / d)) l1 then ft_final T (gn j) (F j) else F j = T) ->
     wp (fold_left (fun f t => factor <- f ;; ft_thread T y' (Z.sqrt y') d t factor) l2 (Ok f))
        (fun f' => exists F', arr f' (L + 1) F' /\ F' 0 = T /\ forall j, 1 <= j <= L -> if existsb (Z.eqb ((gn j - 2) / d)) (l1 ++ l2) then ft_final T (gn j) (F' j) else F' j = T).
Proof.
  intros HT Hy' Hyb' Hd HdN HNb HL. assert (G1 : gn L <= y') by (subst L; apply gi_bounds; lia). assert (G0 : 0 <= L) by (subst L; apply gi_bounds; lia).
  intros l2 l1 f F HND HI Ha F0 HF.
  apply (fold_res_rule (fun factor t => ft_thread T y' (Z.sqrt y') d t factor) (fun l f' => exists F', arr f' (L + 1) F' /\ F' 0 = T /\
    forall j, 1 <= j <= L -> if existsb (Z.eqb ((gn j - 2) / d)) l then ft_final T (gn j) (F' j) else F' j = T)).
  - exists F. auto.
  - intros l1' t l2' f1 El Hin (F1 & A1 & F1_0 & HF1). rewrite El in HND. apply (ft_one_ok T y' d N L t l1' l2' f1 F1); auto.
Qed.

Theorem FactorTable_ok T y threads order (Q : list Z -> Prop) : (T = 2 ^ 16 - 1 \/ T = 2 ^ 32 - 1) ->
  y <= (T - 1) ^ 2 - 1 -> y < 2 ^ 55 -> in_s 32 threads -> (forall n, 1 <= n -> Permutation (order n) (zrange 0 n)) ->
  (forall f F, arr f (gi (Z.max 8 y) + 1) F -> F 0 = T -> (forall j, 1 <= j <= gi (Z.max 8 y) -> ft_final T (gn j) (F j)) -> Q f) ->
  wp (FactorTable T y threads order) Q.
Proof.
  intros HT Hy Hyb Hth Hord HQ. unfold FactorTable. unfold ft_max. destruct (Z.gtb_spec y ((T - 1) ^ 2 - 1)); [lia|].
  remember (Z.max 8 y) as y' eqn:Ey'. assert (Hy' : 8 <= y' <= (T - 1) ^ 2 - 1).
  { subst y'. split; [lia|]. apply Z.max_lub; [|lia]. destruct HT as [-> | ->]; discriminate. }
  assert (Hyb' : y' < 2 ^ 55) by (subst y'; lia).
  rewrite get_index_ok by lia. rewrite bind_Ok.
  destruct (gi_bounds y' ltac:(lia)) as (G0 & G1 & G2). remember (gi y') as L eqn:HL.
  assert (HN : 1 <= ideal_num_threads threads y' (10 ^ 7) <= 2 ^ 31).
  { unfold ideal_num_threads. split; [lia|]. apply Z.max_lub; [lia|]. pose proof (swrap_range 32 (Z.min threads (Z.quot y' (Z.max 1 (10 ^ 7)))) ltac:(lia)) as R.
    unfold in_s, smax in R. change (32 - 1) with 31 in R. lia. }
  remember (ideal_num_threads threads y' (10 ^ 7)) as N eqn:HNe. clear HNe.
  destruct (ceil_div_all i64 y' N) as (d & Ed & D1 & D2); [cbn; tauto|lia|lia|change (tmax i64) with (2 ^ 63 - 1); lia|].
  rewrite Ed, bind_Ok. assert (Hd : 1 <= d) by nia.
  assert (Hdb : d <= y'). { apply D2. nia. }
  assert (HdN : (d - 1) * N <= y'). { destruct (Z.le_gt_cases ((d - 1) * N) y'); auto. specialize (D2 (d - 1) ltac:(lia)). lia. }
  specialize (Hord N ltac:(lia)).
  assert (ND : NoDup (order N)) by (eapply Permutation_NoDup; [apply Permutation_sym; exact Hord|apply zrange_NoDup]).
  assert (IN : forall t, In t (order N) <-> 0 <= t < N).
  { intros t. rewrite <- in_zrange. split; apply Permutation_in; [auto|now apply Permutation_sym]. }
  eapply wp_mono; [eapply (ft_threads_ok T y' d N L HT Hy' Hyb' ltac:(lia) HdN ltac:(lia) HL (order N) [] _ (fun _ => T))|].
  - exact ND.
  - intros t Ht. now apply IN.
  - apply arr_make. lia.
  - reflexivity.
  - intros j Hj. reflexivity.
  - intros f' (F' & Ha' & F0' & HF'). eapply HQ; eauto. intros j Hj. specialize (HF' j Hj). cbn [app] in HF'.
    replace (existsb (Z.eqb ((gn j - 2) / d)) (order N)) with true in HF'; [exact HF'|]. symmetry. apply existsb_exists.
    exists ((gn j - 2) / d). split; [|apply Z.eqb_refl]. apply IN. pose proof (gn_ge j ltac:(lia)). pose proof (gn_mono_le j L ltac:(lia)).
    split; [apply Z.div_pos; lia|apply Z.div_lt_upper_bound; nia].
Qed.

(** *** Statement used by the property file *)
Lemma ft_lookup T y threads order : (T = 2 ^ 16 - 1 \/ T = 2 ^ 32 - 1) ->
  y <= ft_max T -> y < 2 ^ 55 -> in_s 32 threads -> (forall n, 1 <= n -> Permutation (order n) (zrange 0 n)) ->
  wp (FactorTable T y threads order) (fun f => forall n, 1 < n <= Z.max 8 y -> coprime210 n = true ->
    exists i v, get_index n = Ok i /\ get_number i = Ok n /\ ft_lpf f i = Ok v /\
      (mu n = 0 -> v = 0) /\ (mu n <> 0 -> ft_mu f i = Ok (mu n)) /\
      (mu n <> 0 -> forall p, prime p -> p * p <= y -> p < n -> (p < v <-> p < least_factor n))).
Proof.
  intros HT Hy Hyb Hth Hord. apply FactorTable_ok; auto. intros f F Ha _ HF n Hn Hc.
  exists (gi n), (F (gi n)). destruct (gi_bounds n ltac:(lia)) as (B0 & B1 & B2). pose proof (gn_gi n ltac:(lia) Hc) as En.
  assert (Hi : 1 <= gi n <= gi (Z.max 8 y)).
  { split; [|apply gi_mono; lia]. destruct (Z.eq_dec (gi n) 0) as [E|]; [|lia]. rewrite E in En. change (gn 0) with 1 in En. lia. }
  specialize (HF _ Hi). rewrite En in HF. destruct HF as (H1 & H2 & H3).
  assert (HT2 : 2 ^ 16 - 1 <= T) by (destruct HT as [-> | ->]; discriminate).
  assert (HTo : Z.land T 1 = 1) by (destruct HT as [-> | ->]; reflexivity).
  split; [apply get_index_ok; lia|]. split; [rewrite get_number_ok by lia; now rewrite En|].
  assert (G : aget f (gi n) = Ok (F (gi n))) by (apply (arr_get _ _ _ _ Ha); lia).
  split; [exact G|]. split; [exact H2|].
  destruct (least_factor_spec n ltac:(lia)) as (L1 & L2 & L3). set (l := least_factor n) in *.
  assert (L5 : 11 <= l) by (apply (coprime210_factors n); auto).
  assert (Lo : Z.odd l = true).
  { destruct (Z.odd l) eqn:O; auto. exfalso. apply (f_equal negb) in O. rewrite Z.negb_odd in O. apply Z.even_spec in O. destruct O as [w Ew].
    assert (D : (2 | l)) by (exists w; lia). apply prime_div_prime in D; [lia|apply prime_2|auto]. }
  assert (OD : forall v, Z.land v 1 = Z.b2z (Z.odd v)).
  { intros v. change 1 with (Z.ones 1) at 1. rewrite Z.land_ones by lia. change (2 ^ 1) with 2. rewrite Zmod_odd. destruct (Z.odd v); reflexivity. }
  split.
  - intros M. unfold ft_mu. rewrite G, bind_Ok. destruct (prime_dec' n) as [P|P].
    + rewrite (H1 P). destruct (Z.eqb_spec T 0); [lia|]. cbn [negb assert_ bind]. rewrite HTo. change (1 =? 0) with false. cbv iota. now rewrite (mu_prime n P).
    + rewrite (H3 M P). unfold lpv. fold l. destruct (mu_unit n M) as [E|E]; rewrite E.
      * change (1 =? 1) with true. cbv iota. destruct (Z.eqb_spec (l - 1) 0); [lia|]. cbn [negb assert_ bind]. rewrite OD, Z.odd_sub, Lo. reflexivity.
      * change (-1 =? 1) with false. cbv iota. rewrite Z.sub_0_r. destruct (Z.eqb_spec l 0); [lia|]. cbn [negb assert_ bind]. rewrite OD, Lo. reflexivity.
  - intros M p Pp Hpy Hpn. destruct (prime_dec' n) as [P|P].
    + rewrite (H1 P). assert (l = n) by (symmetry; apply prime_div_prime in L2; auto; lia).
      assert (p < T). { unfold ft_max in Hy. rewrite Z.pow_2_r in Hy. clear - Hpy Hy HT2 Pp. pose proof (prime_ge_2 p Pp). nia. } lia.
    + rewrite (H3 M P). unfold lpv. fold l. destruct (mu n =? 1); [|rewrite Z.sub_0_r; reflexivity].
      assert (p <> l - 1); [|lia]. intros E. assert (EV : Z.even p = true) by (rewrite E, Z.even_sub, <- Z.negb_odd, Lo; reflexivity).
      apply Z.even_spec in EV. destruct EV as [w Ew]. assert (D : (2 | p)) by (exists w; lia). apply prime_div_prime in D; [lia|apply prime_2|auto].
Qed.
Lemma ft_index_spec n : 1 <= n -> exists i m, get_index n = Ok i /\ get_number i = Ok m /\ m <= n /\ coprime210 m = true /\
  forall k, m < k <= n -> coprime210 k = false.
Proof.
  intros Hn. destruct (gi_bounds n Hn) as (B0 & B1 & B2). exists (gi n), (gn (gi n)). split; [now apply get_index_ok|].
  split; [now apply get_number_ok|]. split; [exact B1|]. split; [apply gn_coprime|]. intros k Hk.
  destruct (coprime210 k) eqn:C; auto. exfalso. pose proof (gn_pos (gi n) B0). pose proof (gn_gi k ltac:(lia) C) as Ek.
  rewrite <- Ek in Hk at 1. assert (A : gn (gi n) < gn (gi k)) by lia. apply gn_lt_inv in A.
  pose proof (gn_mono_le (gi n + 1) (gi k) ltac:(lia)). lia.
Qed.
