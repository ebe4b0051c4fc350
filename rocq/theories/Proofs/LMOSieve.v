(** Sieving with multiples of primes in a plain array, with and without a tree of sums. *)
From Coq Require Import ZArith List Bool Lia Znumtheory.
From Verif.Base Require Import Res Word Zl Arr IType.
From Verif.Spec Require Import Primes LMOSpec S2Spec.
From Verif.Model Require Import Fenwick S2 LMO.
From Verif.Proofs Require Import Primes NT LMO Imath Tables Phi Leaf S2Leaf S2 Fenwick HardLeaf HardLoops LMOLeaf LMOQuery.
Import ListNotations.
Open Scope Z_scope.
Local Ltac Zify.zify_post_hook ::= idtac.

(** [k] is the first multiple of p at or above pos; the first odd one if the step is 2 p *)
Definition next_ok (p s pos k : Z) : Prop := (p | k) /\ pos <= k < pos + s /\ (s = p \/ (s = 2 * p /\ Z.odd k = true)).
Definition hit (k s m : Z) : bool := (k <=? m) && ((m - k) mod s =? 0).

Lemma hit_iff p s pos k m : 2 <= p -> next_ok p s pos k -> pos <= m -> hit k s m = true <-> (p | m) /\ (s = p \/ Z.odd m = true).
Proof.
  intros Hp ([q Hq] & Hk & Hs) Hm. assert (S0 : 0 < s) by lia. unfold hit. rewrite andb_true_iff, Z.leb_le, Z.eqb_eq. split.
  - intros [H1 H2]. apply Z.mod_divide in H2; [|lia]. destruct H2 as [t Ht]. destruct Hs as [->|[-> Ho]].
    + split; [|auto]. exists (q + t). lia.
    + split; [exists (q + 2 * t); lia|]. right. replace m with (k + 2 * (t * p)) by lia. rewrite Z.odd_add, Ho, Z.odd_mul. reflexivity.
  - intros [[t Ht] H2]. destruct Hs as [->|[-> Ho]].
    + assert (q <= t) by nia. split; [nia|]. apply Z.mod_divide; [lia|]. exists (t - q). lia.
    + destruct H2 as [H2|H2]; [lia|].
      assert (E : exists u, t - q = 2 * u).
      { assert (E : Z.even (t - q) = true); [|apply Z.even_spec in E; exact E].
        assert (A : Z.odd t = true) by (rewrite Ht, Z.odd_mul in H2; apply andb_true_iff in H2; tauto).
        assert (B : Z.odd q = true) by (rewrite Hq, Z.odd_mul in Ho; apply andb_true_iff in Ho; tauto).
        rewrite Z.even_sub, <- !Z.negb_odd, A, B. reflexivity. }
      destruct E as [u Hu]. assert (T : t = q + 2 * u) by lia. assert (M : m = k + u * (2 * p)) by (rewrite Ht, Hq, T; ring).
      assert (0 <= u) by (destruct (Z.lt_ge_cases u 0); [nia|lia]). split; [nia|]. apply Z.mod_divide; [lia|]. exists u. lia.
Qed.
Lemma next_ok_step p s pos k t pos' : next_ok p s pos k -> 0 <= t -> pos' <= k + t * s < pos' + s -> next_ok p s pos' (k + t * s).
Proof.
  intros (A & B & C) Ht H. split; [|split; [exact H|]].
  - apply Z.divide_add_r; [exact A|]. apply Z.divide_mul_r. destruct C as [->|[-> _]]; [apply Z.divide_refl|exists 2; reflexivity].
  - destruct C as [->|[-> C]]; [auto|]. right. split; auto. rewrite Z.odd_add, C. replace (t * (2 * p)) with (2 * (t * p)) by ring. rewrite Z.odd_mul. reflexivity.
Qed.
Lemma next_ok_first p : prime p -> next_ok p p 1 p.
Proof. intros Hp. pose proof (prime_ge_2 p Hp). split; [apply Z.divide_refl|]. split; [lia|auto]. Qed.
Lemma prime_odd p : prime p -> 3 <= p -> Z.odd p = true.
Proof.
  intros Hp H3. rewrite <- Z.negb_even. destruct (Z.even p) eqn:E; auto. exfalso. apply Z.even_spec in E. destruct E as [k Hk].
  destruct (Znumtheory.prime_divisors p Hp 2) as [D|[D|[D|D]]]; try lia. exists k. lia.
Qed.
Lemma next_ok_first2 p : prime p -> 3 <= p -> next_ok p (2 * p) 1 p.
Proof. intros Hp H3. split; [apply Z.divide_refl|]. split; [lia|]. right. split; auto. now apply prime_odd. Qed.

(** the sieve after the multiples have been removed *)
Definition hits (S : Z -> Z) (low k s m j : Z) : Z := if hit k s (low + j) && (low + j <? m) then 0 else S j.
Lemma hits_start S low k s j : hits S low k s k j = S j.
Proof. unfold hits, hit. destruct (Z.leb_spec k (low + j)), (Z.ltb_spec (low + j) k); try lia; cbn [andb]; auto. now rewrite andb_false_r. Qed.
Lemma hits_next S low k s t j : 0 < s -> 0 <= t -> hits S low k s (k + t * s + s) j = if j =? k + t * s - low then 0 else hits S low k s (k + t * s) j.
Proof.
  intros Hs Ht. unfold hits. destruct (Z.eqb_spec j (k + t * s - low)) as [->|N].
  - replace (low + (k + t * s - low)) with (k + t * s) by ring. unfold hit. replace (k + t * s - k) with (t * s) by ring. rewrite Z.mod_mul by lia.
    destruct (Z.leb_spec k (k + t * s)); [|nia]. destruct (Z.ltb_spec (k + t * s) (k + t * s + s)); [reflexivity|lia].
  - destruct (hit k s (low + j)) eqn:H; cbn [andb]; auto. unfold hit in H. apply andb_true_iff in H. destruct H as [H1 H2]. apply Z.leb_le in H1.
    apply Z.eqb_eq in H2. apply Z.mod_divide in H2; [|lia]. destruct H2 as [u Hu].
    destruct (Z.ltb_spec (low + j) (k + t * s)), (Z.ltb_spec (low + j) (k + t * s + s)); auto; [lia|]. exfalso.
    assert (u = t) by nia. subst u. lia.
Qed.

(** the numbers between pos and high are represented in the array, as left by the first a primes *)
Definition sieved (S : Z -> Z) (low pos high a : Z) : Prop := forall j, 0 <= j -> pos <= low + j < high -> S j = Z.b2z (roughb a (low + j)).

Lemma sieved_hits S low pos high b p s k m : prime p -> pi p = b -> 1 <= pos -> next_ok p s pos k -> (s = p \/ 2 <= b) -> high <= m ->
  sieved S low pos high (b - 1) -> sieved (hits S low k s m) low pos high b.
Proof.
  intros Hp Hb Hpos HN Hs Hm HS j Hj Hr. pose proof (prime_ge_2 p Hp). unfold hits. rewrite (HS j Hj Hr).
  destruct (Z.ltb_spec (low + j) m); [|lia]. rewrite andb_true_r. rewrite <- Hb at 2. rewrite roughb_step by (auto; lia). rewrite Hb.
  pose proof (hit_iff p s pos k (low + j) ltac:(lia) HN ltac:(lia)) as HI.
  destruct (Z.eqb_spec ((low + j) mod p) 0) as [E|E].
  - cbn [negb]. rewrite andb_false_r. cbn [Z.b2z]. destruct (hit k s (low + j)) eqn:HH; auto.
    destruct Hs as [->|Hs]; [assert (HT : false = true); [|discriminate HT]; apply HI; split; [apply Z.mod_divide; lia|auto]|].
    destruct (Z.odd (low + j)) eqn:O; [assert (HT : false = true); [|discriminate HT]; apply HI; split; [apply Z.mod_divide; lia|auto]|].
    rewrite rough_even; [reflexivity|lia|lia|]. rewrite <- Z.negb_odd, O. reflexivity.
  - cbn [negb]. rewrite andb_true_r. destruct (hit k s (low + j)) eqn:HH; auto. exfalso. apply E. apply Z.mod_divide; [lia|]. now apply HI.
Qed.

Lemma mark_ok sieve low k high s n S : 0 < s -> 0 <= low <= k -> k < 2 ^ 63 -> high - low <= n -> high + s < 2 ^ 63 -> arr sieve n S ->
  wp (mark sieve low k high s) (fun '(sieve', k') => exists t, 0 <= t /\ k' = k + t * s /\ high <= k' /\ (t = 0 \/ k' - s < high) /\ arr sieve' n (hits S low k s k')).
Proof.
  intros Hs Hk Hk63 Hn Hb HA. unfold mark.
  apply (loop_rule _ (fun '(sv, m) => exists t, 0 <= t /\ m = k + t * s /\ (t = 0 \/ m - s < high) /\ arr sv n (hits S low k s m)) (fun '(_, m) => Z.max 0 (high - m))).
  - intros [sv m] (t & Ht & -> & Hm & HA'). destruct (Z.ltb_spec (k + t * s) high) as [L|L].
    + apply wp_bind. apply (arr_set sv n (hits S low k s (k + t * s))); auto; [nia|]. intros sv' HA2. rewrite schk64 by nia. rewrite bind_Ok. apply wp_ok.
      split; [|lia]. exists (t + 1). split; [lia|]. split; [ring|]. split; [lia|]. eapply arr_ext; [exact HA2|]. intros j Hj. cbv beta. symmetry. now apply hits_next.
    + apply wp_ok. exists t. do 4 (split; [assumption || reflexivity|]). exact HA'.
  - exists 0. split; [lia|]. split; [ring|]. split; [auto|]. replace (k + 0 * s) with k by ring. eapply arr_ext; [exact HA|]. intros j Hj. symmetry. apply hits_start.
  - assert (2 ^ 63 < 2 ^ 400) by reflexivity. lia.
Qed.

(** one prime: src/lmo/pi_lmo3.cpp:82-83 and 117-118 *)
Lemma mark_prime sieve low pos k high s b p n S : prime p -> pi p = b -> p < 2 ^ 31 -> 0 <= low <= pos -> 1 <= pos < high -> high - low <= n -> high < 2 ^ 62 ->
  next_ok p s pos k -> (s = p \/ 2 <= b) -> arr sieve n S -> sieved S low pos high (b - 1) ->
  wp (mark sieve low k high s) (fun '(sieve', k') => (exists S', arr sieve' n S' /\ sieved S' low pos high b /\ forall j, S' j = 0 \/ S' j = S j) /\ next_ok p s high k').
Proof.
  intros Hp Hb Hp31 Hlow Hpos Hn Hh HN Hs HA HS. pose proof (prime_ge_2 p Hp). pose proof HN as (N1 & N2 & N3). assert (S0 : 0 < s <= 2 * p) by lia.
  eapply wp_mono; [apply (mark_ok sieve low k high s n S); auto; lia|]. intros [sv k'] (t & Ht & -> & Hk & Hm & HA'). split.
  - exists (hits S low k s (k + t * s)). split; auto. split; [now apply (sieved_hits S low pos high b p)|]. intros j. unfold hits. destruct (_ && _); auto.
  - apply (next_ok_step p s pos); auto. split; [lia|]. destruct Hm as [->|Hm]; lia.
Qed.

(** the first c primes *)
Lemma mark_first_ok y primes c low high sieve next n n' S w : (forall b, 1 <= b <= c -> aget primes b = Ok (pr y b)) -> 0 <= c <= pi y -> c < n' -> y < 2 ^ 31 ->
  1 <= low < high -> high - low <= n -> high < 2 ^ 62 -> arr sieve n S -> sieved S low low high 0 -> arr next n' w -> (forall b, 1 <= b <= c -> next_ok (pr y b) (pr y b) low (w b)) ->
  wp (mark_first primes c low high sieve next) (fun '(sieve', next') => (exists S', arr sieve' n S' /\ sieved S' low low high c /\ forall j, S' j = 0 \/ S' j = S j) /\
    exists w', arr next' n' w' /\ (forall b, 1 <= b <= c -> next_ok (pr y b) (pr y b) high (w' b)) /\ forall b, c < b < n' -> w' b = w b).
Proof.
  intros Hpr Hc Hn' Hy Hl Hn Hh HA HS HW HN. unfold mark_first.
  apply (for_rule 1 (c + 1) _ (fun b '(sv, nx) => (exists S', arr sv n S' /\ sieved S' low low high (b - 1) /\ forall j, S' j = 0 \/ S' j = S j) /\
    exists w', arr nx n' w' /\ (forall i, 1 <= i < b -> next_ok (pr y i) (pr y i) high (w' i)) /\ forall i, b <= i < n' -> w' i = w i)).
  - pose proof (pi_nonneg y). destruct (Z.le_gt_cases 0 y); [pose proof (pi_le y ltac:(lia))|rewrite pi_small in * by lia]; assert (2 ^ 31 < 2 ^ 400) by reflexivity; lia.
  - split; [exists S; auto|]. exists w. split; auto. split; [intros; lia|auto].
  - intros b [sv nx] Hb [(S' & A1 & A2 & A3) (w' & W1 & W2 & W3)]. rewrite (arr_get _ _ _ b W1) by lia. rewrite bind_Ok. rewrite Hpr by lia. rewrite bind_Ok.
    destruct (pr_spec y b ltac:(lia)) as (P1 & P2 & P3). apply wp_bind. rewrite W3 by lia.
    eapply wp_mono; [apply (mark_prime sv low low (w b) high (pr y b) b (pr y b) n S'); auto; try lia; apply HN; lia|].
    intros [sv2 k2] [(S2 & B1 & B2 & B3) N2]. apply wp_bind. apply (arr_set nx n' w'); auto; [lia|]. intros nx2 W1'. apply wp_ok. split.
    + exists S2. split; auto. split; [now replace (b + 1 - 1) with b by ring|]. intros j. destruct (B3 j) as [E|E]; auto. rewrite E. apply A3.
    + eexists. split; [exact W1'|]. cbv beta. split; intros i Hi.
      * destruct (Z.eqb_spec i b) as [->|]; [exact N2|]. apply W2. lia.
      * destruct (Z.eqb_spec i b); [lia|]. apply W3. lia.
  - intros [sv nx]. rewrite Z.max_r by lia. replace (c + 1 - 1) with c by ring. intros [A (w' & W1 & W2 & W3)]. split; auto. exists w'. split; auto. split; intros b Hb; [apply W2; lia|apply W3; lia].
Qed.

(** ** With a binary indexed tree *)
Definition tree_ok (tree : list Z) (seg low : Z) (S : Z -> Z) : Prop := tree_rep tree (seg / 2) (fun k => (low + 2 * (k - 1)) * S (2 * (k - 1))).

Lemma tree_sum a low high n S : Z.odd low = true -> 1 <= a -> 1 <= low -> sieved S low low high a -> 0 <= n < high - low ->
  sumr 1 (Z.shiftr n 1 + 2) (fun k => (low + 2 * (k - 1)) * S (2 * (k - 1))) = phi_sum (low + n) a - phi_sum (low - 1) a.
Proof.
  intros Ho Ha Hl HS Hn. assert (0 <= n) as N0 by lia. revert Hn. pattern n. apply natlike_ind; [| |exact N0].
  - intros Hn. change (Z.shiftr 0 1 + 2) with (1 + 1). rewrite sumr_snoc, sumr_empty by lia. rewrite HS by lia.
    replace (low + 0) with (low - 1 + 1) by ring. rewrite phi_sum_snoc by lia. replace (low + 2 * (1 - 1)) with (low - 1 + 1) by ring.
    destruct (roughb a (low - 1 + 1)); cbn [Z.b2z]; ring.
  - intros m Hm IH Hn. specialize (IH ltac:(lia)). replace (low + Z.succ m) with (low + m + 1) by lia. rewrite phi_sum_snoc by lia.
    rewrite Z.shiftr_div_pow2 in * by lia. change (2 ^ 1) with 2 in *.
    destruct (Z.even m) eqn:E.
    + apply Z.even_spec in E. destruct E as [h ->]. replace (Z.succ (2 * h)) with (1 + h * 2) by lia. rewrite Z.div_add by lia. change (1 / 2) with 0.
      replace (2 * h) with (h * 2) in IH by ring. rewrite Z.div_mul in IH by lia. replace (0 + h + 2) with (h + 2) by ring. rewrite IH.
      rewrite rough_even; [|lia|lia|]; [rewrite (Z.mul_comm 2 h); ring|]. rewrite Z.even_add, Z.even_add, <- (Z.negb_odd low), Ho, Z.even_mul. reflexivity.
    + assert (O : Z.odd m = true) by (rewrite <- Z.negb_even, E; reflexivity). apply Z.odd_spec in O. destruct O as [h ->].
      replace (Z.succ (2 * h + 1)) with ((h + 1) * 2) by lia. rewrite Z.div_mul by lia. replace (2 * h + 1) with (1 + h * 2) in IH by ring.
      rewrite Z.div_add in IH by lia. change (1 / 2) with 0 in IH. replace (h + 1 + 2) with (h + 2 + 1) by ring. rewrite sumr_snoc by lia.
      replace (0 + h + 2) with (h + 2) in IH by ring. rewrite IH. rewrite HS by lia. replace (low + 2 * (h + 2 - 1)) with (low + (2 * h + 1) + 1) by ring.
      replace (low + (1 + h * 2)) with (low + (2 * h + 1)) by ring. destruct (roughb a (low + (2 * h + 1) + 1)); cbn [Z.b2z]; ring.
Qed.

Lemma tree_cells seg low (S : Z -> Z) : 0 < seg < 2 ^ 62 -> 1 <= low < 2 ^ 62 -> (forall j, 0 <= j < seg -> S j = 0 \/ S j = 1) -> cells (seg / 2) (fun k => (low + 2 * (k - 1)) * S (2 * (k - 1))).
Proof.
  intros Hs Hl H01. assert (2 * (seg / 2) <= seg) by (apply Z.mul_div_le; lia). split; [lia|]. intros k Hk. cbv beta. destruct (H01 (2 * (k - 1)) ltac:(lia)) as [-> | ->]; lia.
Qed.
Lemma tree_query tree seg a low high n S : Z.odd low = true -> (2 | seg) -> 0 < seg < 2 ^ 62 -> 1 <= a -> 1 <= low < 2 ^ 62 -> high <= low + seg -> (forall j, 0 <= j < seg -> S j = 0 \/ S j = 1) -> tree_ok tree seg low S -> sieved S low low high a ->
  0 <= n < high - low -> bit_sum tree n = Ok (phi_sum (low + n) a - phi_sum (low - 1) a).
Proof.
  intros Ho [h Hh] Hseg Ha Hl Hhi H01 HT HS Hn. rewrite <- (tree_sum a low high n S) by (auto; lia).
  assert (E : seg / 2 = h) by (subst seg; now rewrite Z.div_mul by lia). apply (bit_sum_ok tree (seg / 2)).
  - now apply tree_cells.
  - exact HT.
  - rewrite Z.shiftr_div_pow2 by lia. change (2 ^ 1) with 2. split; [apply Z.div_pos; lia|]. rewrite E. apply Z.div_lt_upper_bound; lia.
Qed.

(** cross_off of pi_lmo4.cpp *)
Lemma lmo4_cross_ok y primes sieve tree seg low high b k S : aget primes b = Ok (pr y b) -> 2 <= b <= pi y -> y < 2 ^ 31 -> Z.odd low = true -> (2 | seg) -> 0 < seg < 2 ^ 62 ->
  1 <= low < high -> high <= low + seg -> high < 2 ^ 62 -> arr sieve seg S -> (forall j, 0 <= j < seg -> S j = 0 \/ S j = 1) -> tree_ok tree seg low S -> sieved S low low high (b - 1) ->
  next_ok (pr y b) (2 * pr y b) low k ->
  wp (lmo4_cross primes low high b (sieve, tree) k) (fun '(v', k') => (exists S', arr (fst v') seg S' /\ (forall j, 0 <= j < seg -> S' j = 0 \/ S' j = 1) /\ tree_ok (snd v') seg low S' /\ sieved S' low low high b) /\ next_ok (pr y b) (2 * pr y b) high k').
Proof.
  intros Hpr Hb Hy Ho [h Hh] Hseg Hl Hhi Hh62 HA H01 HT HS HN. unfold lmo4_cross. rewrite Hpr, bind_Ok. destruct (pr_spec y b ltac:(lia)) as (P1 & P2 & P3).
  set (p := pr y b) in *. pose proof (prime_ge_2 p P1). pose proof HN as (N1 & N2 & N3).
  assert (Ok' : Z.odd k = true) by (destruct N3 as [N3|[_ N3]]; [lia|exact N3]). cbn [fst snd]. apply wp_bind. set (s := 2 * p) in *.
  apply (loop_rule _ (fun '(sv, tr, m) => exists t, 0 <= t /\ m = k + t * s /\ (t = 0 \/ m - s < high) /\ arr sv seg (hits S low k s m) /\
    tree_ok tr seg low (hits S low k s m)) (fun '(_, _, m) => Z.max 0 (high - m))).
  - intros [[sv tr] m] (t & Ht & -> & Hm & HA' & HT'). replace (p * 2) with s by (unfold s; ring). destruct (Z.ltb_spec (k + t * s) high) as [L|L].
    + assert (T0 : 0 <= t * s) by nia. rewrite (arr_get _ _ _ _ HA') by lia. rewrite bind_Ok. set (j := k + t * s - low).
      assert (EV : exists i, j = 2 * i). { apply Z.even_spec. unfold j, s. rewrite Z.even_sub, Z.even_add, <- (Z.negb_odd low), Ho, <- (Z.negb_odd k), Ok'.
        replace (t * (2 * p)) with (2 * (t * p)) by ring. rewrite Z.even_mul. reflexivity. }
      destruct EV as [i Hi]. assert (N01 : hits S low k s (k + t * s) j = 0 \/ hits S low k s (k + t * s) j = 1). { unfold hits. destruct (_ && _); [auto|]. apply H01. unfold j. lia. }
      assert (NX : forall q, hits S low k s (k + t * s + s) q = if q =? j then 0 else hits S low k s (k + t * s) q) by (intros q; unfold j; apply hits_next; lia).
      assert (S1 : 0 <= k + t * s + s < 2 ^ 63) by (unfold s in *; lia).
      assert (D : k + (t + 1) * s = k + t * s + s) by ring. destruct N01 as [E|E].
      * rewrite E. change (0 =? 0) with true. cbv iota. rewrite bind_Ok. rewrite schk64 by lia. rewrite bind_Ok. apply wp_ok. split; [|lia].
        assert (NE : forall q, hits S low k s (k + t * s) q = hits S low k s (k + t * s + s) q) by (intros q; rewrite NX; destruct (Z.eqb_spec q j) as [->|]; auto).
        exists (t + 1). split; [lia|]. split; [ring|]. split; [lia|]. split.
        -- eapply arr_ext; [exact HA'|]. intros q _. apply NE.
        -- eapply tree_rep_ext; [exact HT'|]. intros q _. cbv beta. now rewrite NE.
      * rewrite E. change (1 =? 0) with false. cbv iota. apply wp_bind. apply wp_bind. apply (arr_set sv seg (hits S low k s (k + t * s))); auto; [lia|]. intros sv' HA2.
        assert (ES : Z.shiftr (k + t * s - low) 1 = i). { fold j. rewrite Hi, Z.shiftr_div_pow2 by lia. change (2 ^ 1) with 2. rewrite (Z.mul_comm 2 i). now rewrite Z.div_mul by lia. }
        assert (E2 : seg / 2 = h) by (rewrite Hh; now rewrite Z.div_mul by lia).
        apply wp_bind. apply (bit_update_ok tr (seg / 2) (fun q => (low + 2 * (q - 1)) * hits S low k s (k + t * s) (2 * (q - 1))) (k + t * s) low).
        -- apply (tree_cells seg low (hits S low k s (k + t * s))); [lia|lia|]. intros q Hq. unfold hits. destruct (_ && _); [auto|now apply H01].
        -- exact HT'.
        -- lia.
        -- lia.
        -- rewrite ES, E2. lia.
        -- intros tr' HT2. rewrite ES in HT2. apply wp_ok. rewrite schk64 by lia. rewrite bind_Ok. apply wp_ok. split; [|lia].
           exists (t + 1). split; [lia|]. split; [ring|]. split; [lia|]. split.
           ++ eapply arr_ext; [exact HA2|]. intros q _. cbv beta. fold j. now rewrite NX.
           ++ eapply tree_rep_ext; [exact HT2|]. intros q Hq. cbv beta. rewrite NX. destruct (Z.eqb_spec q (i + 1)) as [->|Nq].
              ** replace (2 * (i + 1 - 1)) with j by lia. rewrite E, Z.eqb_refl. lia.
              ** destruct (Z.eqb_spec (2 * (q - 1)) j); [lia|reflexivity].
    + apply wp_ok. apply wp_ok. cbn [fst snd]. split.
      * exists (hits S low k s (k + t * s)). split; auto. split; [intros j Hj; unfold hits; destruct (_ && _); auto|]. split; auto. apply (sieved_hits S low low high b p); auto; lia.
      * apply (next_ok_step p s low); auto. split; [lia|]. destruct Hm as [->|Hm]; lia.
  - exists 0. split; [lia|]. split; [ring|]. split; [auto|]. replace (k + 0 * s) with k by ring. split.
    + eapply arr_ext; [exact HA|]. intros j Hj. symmetry. apply hits_start.
    + eapply tree_rep_ext; [exact HT|]. intros j Hj. cbv beta. now rewrite hits_start.
  - assert (2 ^ 63 < 2 ^ 400) by reflexivity. lia.
Qed.
