(** Correctness of the sieved tables of src/generate.cpp. *)
From Coq Require Import ZArith List Bool Lia Znumtheory.
From Verif.Base Require Import Res Word Zl Arr.
From Verif.Spec Require Import Primes LMOSpec.
From Verif.Proofs Require Import Primes NT LMO PhiSum.
From Verif.Model Require Import Primesieve Tables.
Import ListNotations.
Open Scope Z_scope.

Lemma sqrt_bounds n : 0 <= n -> let s := Z.sqrt n in 0 <= s /\ s * s <= n < (s + 1) * (s + 1) /\ s <= n.
Proof.
  intros H s. pose proof (Z.sqrt_spec n H) as S. cbn zeta in S. fold s in S. unfold Z.succ in S.
  pose proof (Z.sqrt_nonneg n). fold s in H0. nia.
Qed.

(** ** Trial divisors below i *)
Definition hasd (i k : Z) : bool := existsb (fun d => (d * d <=? k) && (k mod d =? 0)) (zrange 2 i).
Lemma hasd_spec i k : hasd i k = true <-> exists d, 2 <= d < i /\ d * d <= k /\ (d | k).
Proof.
  unfold hasd. rewrite existsb_exists. split.
  - intros (d & Hin & H). apply in_zrange in Hin. apply andb_prop in H. destruct H as [H1 H2].
    exists d. apply Z.leb_le in H1. apply mod0_divide in H2; [auto|lia].
  - intros (d & Hd & H1 & H2). exists d. split; [now apply in_zrange|].
    apply andb_true_intro. split; [now apply Z.leb_le|]. apply mod0_divide; auto. lia.
Qed.
Lemma hasd_false i k : hasd i k = false <-> ~ exists d, 2 <= d < i /\ d * d <= k /\ (d | k).
Proof. rewrite <- hasd_spec. destruct (hasd i k); split; congruence. Qed.
Lemma hasd_2 k : hasd 2 k = false. Proof. reflexivity. Qed.
Lemma hasd_step i k : 2 <= i -> hasd (i + 1) k = hasd i k || ((i * i <=? k) && (k mod i =? 0)).
Proof.
  intros H. unfold hasd. rewrite zrange_snoc by lia. rewrite existsb_app. simpl. now rewrite orb_false_r.
Qed.
(** a composite trial divisor adds nothing *)
Lemma hasd_composite i k : 2 <= i -> hasd i i = true -> hasd (i + 1) k = hasd i k.
Proof.
  intros Hi H. rewrite hasd_step by auto. destruct (hasd i k) eqn:E; auto. simpl.
  destruct ((i * i <=? k) && (k mod i =? 0)) eqn:F; auto. exfalso.
  apply andb_prop in F. destruct F as [F1 F2]. apply Z.leb_le in F1. apply mod0_divide in F2; [|lia].
  apply hasd_spec in H. destruct H as (d & Hd & Hdd & Dv). apply hasd_false in E. apply E.
  exists d. split; auto. split; [nia|]. eapply Z.divide_trans; eauto.
Qed.
(** a trial divisor with no divisor of its own is prime *)
Lemma hasd_prime i : 2 <= i -> hasd i i = false <-> prime i.
Proof.
  intros Hi. rewrite hasd_false. split.
  - intros H. destruct (prime_dec' i) as [P|P]; auto. exfalso.
    destruct (composite_divisor i Hi P) as (d & Hd & Dv & Hdd). apply H.
    exists d. pose proof (prime_ge_2 d Hd). repeat split; auto; nia.
  - intros P (d & Hd & Hdd & Dv). destruct (Znumtheory.prime_divisors i P d Dv) as [E|[E|[E|E]]]; lia.
Qed.
Lemma hasd_end s k : 2 <= k -> 0 <= s -> k < (s + 1) * (s + 1) -> hasd (s + 1) k = false <-> prime k.
Proof.
  intros Hk Hs Hb. rewrite hasd_false. split.
  - intros H. destruct (prime_dec' k) as [P|P]; auto. exfalso.
    destruct (composite_divisor k Hk P) as (d & Hd & Dv & Hdd). apply H.
    exists d. pose proof (prime_ge_2 d Hd). repeat split; auto; nia.
  - intros P (d & Hd & Hdd & Dv). destruct (Znumtheory.prime_divisors k P d Dv) as [E|[E|[E|E]]]; nia.
Qed.

Lemma pow400_31 : 2 ^ 32 < 2 ^ 400. Proof. reflexivity. Qed.

(** ** generate_pi *)
Lemma generate_pi_ok max : 0 <= max < 2 ^ 31 - 1 -> wp (generate_pi max) (fun l => arr l (max + 1) pi).
Proof.
  intros Hm. unfold generate_pi. pose proof (sqrt_bounds max ltac:(lia)) as (S0 & S1 & S2). set (s := Z.sqrt max) in *.
  pose proof pow400_31.
  apply wp_bind.
  apply (for_rule 2 (s + 1) _ (fun i l => arr l (max + 1) (fun k => if hasd i k then 0 else 1))); [lia| | |].
  { eapply arr_ext; [apply arr_make; lia|]. intros k Hk. now rewrite hasd_2. }
  { intros i l Hi Ha. rewrite (arr_get _ _ _ i Ha) by nia. cbn [bind].
    destruct (hasd i i) eqn:E; cbn [Z.eqb negb].
    - simpl. eapply arr_ext; [exact Ha|]. intros k Hk. now rewrite hasd_composite by (auto; lia).
    - eapply (arr_for_step l _ _ (i * i) (max + 1) i (fun _ _ => Ok 0) (fun _ => 0)); eauto; try nia.
      intros l' H'. eapply arr_ext; [exact H'|]. intros k Hk. cbn beta. rewrite hit_multiple by (try lia; apply Z.divide_factor_l).
      rewrite hasd_step by lia. destruct (Z.ltb_spec k (max + 1)); [|lia]. rewrite andb_true_r.
      destruct (hasd i k), ((i * i <=? k) && (k mod i =? 0)); auto. }
  intros sieve Hs. apply wp_bind.
  apply (for_rule 2 (max + 1) _ (fun i st => arr (fst st) (max + 1) (fun k => if k <? i then pi k else 0) /\ snd st = pi (i - 1))).
  - lia.
  - cbn [fst snd]. split; [|reflexivity]. eapply arr_ext; [apply arr_make; lia|]. intros k Hk.
    cbn beta. destruct (Z.ltb_spec k 2); auto. now rewrite pi_small by lia.
  - intros i [l pix] Hi [Ha Hp]. cbn [fst snd] in *.
    rewrite (arr_get _ _ _ i Hs) by lia. cbn [bind].
    assert (V : pix + (if hasd (Z.max 2 (s + 1)) i then 0 else 1) = pi i).
    { replace i with (i - 1 + 1) at 2 by ring. rewrite pi_succ, Hp. replace (i - 1 + 1) with i by ring. f_equal.
      destruct (Z.lt_ge_cases s 1).
      - rewrite Z.max_l by lia. rewrite hasd_2. replace (primeb i) with true; auto. symmetry. apply primeb_spec. nia.
      - rewrite Z.max_r by lia. pose proof (hasd_end s i ltac:(lia) S0 ltac:(lia)) as E.
        destruct (hasd (s + 1) i) eqn:F.
        + replace (primeb i) with false; auto. symmetry. apply primeb_false. intros P. apply E in P. congruence.
        + replace (primeb i) with true; auto. symmetry. apply primeb_spec. now apply E. }
    rewrite V. pose proof (pi_le i ltac:(lia)). pose proof (pi_nonneg i).
    apply wp_bind, wp_schk. { unfold in_s, smin, smax. change (32 - 1) with 31. lia. }
    apply wp_bind. eapply arr_set; [exact Ha|lia|]. intros l' H'. cbn [wp fst snd].
    split; [|f_equal; lia]. eapply arr_ext; [exact H'|]. intros k Hk. cbn beta.
    destruct (Z.eqb_spec k i) as [->|N].
    + destruct (Z.ltb_spec i (i + 1)); auto. lia.
    + destruct (Z.ltb_spec k i), (Z.ltb_spec k (i + 1)); auto; lia.
  - intros [l pix] [Ha _]. cbn [wp fst snd] in *. eapply arr_ext; [exact Ha|]. intros k Hk. cbn beta.
    destruct (Z.ltb_spec k (Z.max 2 (max + 1))); auto. lia.
Qed.

(** ** generate_lpf *)
Lemma hd_filter_min (f g : Z -> bool) hi d : 0 <= d -> forall lo q, hi - lo <= d ->
  In q (filter f (filter g (zrange lo hi))) -> hd 0 (filter f (filter g (zrange lo hi))) <= q.
Proof.
  revert d. apply (natlike_ind (fun d => forall lo q, hi - lo <= d ->
    In q (filter f (filter g (zrange lo hi))) -> hd 0 (filter f (filter g (zrange lo hi))) <= q)).
  - intros lo q H. rewrite zrange_empty by lia. simpl. tauto.
  - intros d Hd IH lo q H. destruct (Z.lt_ge_cases lo hi) as [L|L]; [|rewrite zrange_empty by lia; simpl; tauto].
    intros Hq. assert (Hr : lo <= q).
    { apply filter_In in Hq. destruct Hq as [Hq _]. apply filter_In in Hq. destruct Hq as [Hq _]. apply in_zrange in Hq. lia. }
    revert Hq. rewrite zrange_cons by auto. cbn [filter].
    destruct (g lo); [cbn [filter]; destruct (f lo)|].
    + cbn [hd]. lia.
    + apply IH. lia.
    + apply IH. lia.
Qed.
Lemma least_factor_spec n : 2 <= n -> prime (least_factor n) /\ (least_factor n | n) /\
  forall q, prime q -> (q | n) -> least_factor n <= q.
Proof.
  intros Hn. destruct (exists_prime_divisor n Hn) as (p & Hp & Dp).
  unfold least_factor.
  assert (Hin : forall q, In q (prime_divisors n) <-> prime q /\ (q | n)) by (intros q; apply in_prime_divisors; lia).
  assert (L : forall q, In q (prime_divisors n) -> hd 0 (prime_divisors n) <= q).
  { intros q. unfold prime_divisors, primes_upto. apply (hd_filter_min _ _ _ (n - 1)); lia. }
  assert (NE : prime_divisors n <> []) by (intros F; assert (I : In p (prime_divisors n)) by (now apply Hin); rewrite F in I; inversion I).
  destruct (prime_divisors n) as [|a l] eqn:F; [congruence|]. cbn [hd].
  destruct (proj1 (Hin a) (or_introl eq_refl)) as [H1 H2]. split; auto. split; auto.
  intros q Hq Dq. cbn [hd] in L. apply L. now apply Hin.
Qed.
Lemma least_factor_unique n p : 2 <= n -> prime p -> (p | n) -> (forall q, prime q -> (q | n) -> p <= q) -> least_factor n = p.
Proof.
  intros Hn Hp Dp Hmin. destruct (least_factor_spec n Hn) as (H1 & H2 & H3).
  apply Z.le_antisymm; [now apply H3|now apply Hmin].
Qed.

(** contents of the table while the outer loop is at i *)
Definition lpf_inv (i k v : Z) : Prop :=
  (v = 1 /\ hasd i k = false) \/
  (2 <= v < i /\ v * v <= k /\ (v | k) /\ hasd v k = false).

Lemma lpf_final s k v : 2 <= k -> 0 <= s -> k < (s + 1) * (s + 1) -> lpf_inv (Z.max 2 (s + 1)) k v ->
  (if v =? 1 then k else v) = least_factor k.
Proof.
  intros Hk Hs Hb [[-> H]|(H1 & H2 & H3 & H4)].
  - assert (P : prime k).
    { apply (hasd_end (Z.max 1 s) k Hk); [lia| |replace (Z.max 1 s + 1) with (Z.max 2 (s + 1)) by lia; auto].
      assert (s <= Z.max 1 s) by lia. nia. }
    cbn [Z.eqb Pos.eqb]. symmetry. apply least_factor_unique; auto; [apply Z.divide_refl|].
    intros q Hq D. apply prime_div_prime in D; auto. lia.
  - destruct (Z.eqb_spec v 1); [lia|]. symmetry.
    assert (N : forall d, 2 <= d < v -> ~ (d | k)).
    { intros d Hd D. apply hasd_false in H4. apply H4. exists d. split; auto. split; [nia|auto]. }
    apply least_factor_unique; auto.
    + apply hasd_prime; [lia|]. apply hasd_false. intros (d & Hd & _ & D). apply (N d Hd). eapply Z.divide_trans; eauto.
    + intros q Hq D. pose proof (prime_ge_2 q Hq). destruct (Z.le_gt_cases v q); auto. elim (N q); auto.
Qed.

Definition lpf_value (k : Z) : Z := if k =? 0 then 1 else if k =? 1 then 2 ^ 31 - 1 else least_factor k.

Lemma generate_lpf_ok max : 0 <= max < 2 ^ 31 - 1 -> wp (generate_lpf max) (fun l => arr l (max + 1) lpf_value).
Proof.
  intros Hm. unfold generate_lpf. pose proof (sqrt_bounds max ltac:(lia)) as (S0 & S1 & S2). set (s := Z.sqrt max) in *.
  pose proof pow400_31.
  assert (SW : forall z, 0 <= z <= max -> swrap 32 z = z).
  { intros z Hz. apply swrap_id; [lia|]. unfold in_s, smin, smax. change (32 - 1) with 31. lia. }
  apply wp_bind.
  apply (for_rule 2 (s + 1) _ (fun i l => exists F, arr l (max + 1) F /\ forall k, 0 <= k <= max -> lpf_inv i k (F k))); [lia| | |].
  { exists (fun _ => 1). split; [apply arr_make; lia|]. intros k Hk. left. auto. }
  { intros i l Hi (F & Ha & HF). rewrite (arr_get _ _ _ i Ha) by nia. cbn [bind].
    destruct (Z.eqb_spec (F i) 1) as [E|E].
    - eapply (arr_for_step l _ _ (i * i) (max + 1) i (fun _ w => Ok (if w =? 1 then i else w)) (fun k => if F k =? 1 then i else F k)); eauto; try nia.
      { intros j l1 v Hj Ev. rewrite Ev. cbn [bind]. destruct (v =? 1); [now rewrite SW by nia|].
        symmetry. now apply aset_same. }
      intros l' H'. exists (fun k => if hit (i * i) (max + 1) i k then if F k =? 1 then i else F k else F k). split; auto.
      intros k Hk. rewrite hit_multiple by (try lia; apply Z.divide_factor_l).
      destruct (Z.ltb_spec k (max + 1)); [|lia]. rewrite andb_true_r.
      specialize (HF k Hk). destruct HF as [[H1 H2]|(H1 & H2 & H3 & H4)].
      + rewrite H1. cbn [Z.eqb Pos.eqb].
        destruct ((i * i <=? k) && (k mod i =? 0)) eqn:B.
        * right. apply andb_prop in B. destruct B as [B1 B2]. apply Z.leb_le in B1. apply mod0_divide in B2; [|lia].
          split; [lia|]. auto.
        * left. split; auto. rewrite hasd_step, H2, B by lia. reflexivity.
      + assert (W : (if (i * i <=? k) && (k mod i =? 0) then if F k =? 1 then i else F k else F k) = F k).
        { destruct (Z.eqb_spec (F k) 1); [lia|]. destruct (_ && _); auto. }
        rewrite W. right. split; [lia|auto].
    - simpl. exists F. split; auto. intros k Hk.
      assert (HI : hasd i i = true).
      { destruct (HF i ltac:(nia)) as [[H1 _]|(H1 & H2 & H3 & H4)]; [congruence|]. apply hasd_spec. exists (F i). auto. }
      destruct (HF k Hk) as [[H1 H2]|(H1 & H2 & H3 & H4)].
      + left. split; auto. rewrite hasd_composite; auto. lia.
      + right. split; [lia|auto]. }
  intros l (F & Ha & HF). apply wp_bind.
  eapply (arr_for l _ _ 2 (max + 1) (fun k v => Ok (if v =? 1 then k else v)) (fun k => if F k =? 1 then k else F k)); eauto; try lia.
  { intros j l1 v Hj Ev. rewrite Ev. cbn [bind]. destruct (v =? 1); [now rewrite SW by nia|].
    symmetry. now apply aset_same. }
  intros l' H'. rewrite (arr_len _ _ _ H').
  destruct (Z.gtb_spec (max + 1) 1).
  - eapply arr_set; [exact H'|lia|]. intros l2 H2. eapply arr_ext; [exact H2|]. intros k Hk. cbn beta. unfold lpf_value.
    destruct (Z.eqb_spec k 1) as [->|N1]; [reflexivity|].
    destruct (Z.leb_spec 2 k), (Z.ltb_spec k (max + 1)); cbn [andb]; try lia.
    + destruct (Z.eqb_spec k 0); [lia|]. apply (lpf_final s); auto; try lia. apply HF. lia.
    + replace k with 0 in * by lia. cbn [Z.eqb]. destruct (HF 0 ltac:(lia)) as [[-> _]|(? & ? & _)]; [reflexivity|nia].
  - simpl. eapply arr_ext; [exact H'|]. intros k Hk. cbn beta. replace k with 0 by lia. unfold lpf_value. cbn.
    destruct (HF 0 ltac:(lia)) as [[-> _]|(? & ? & _)]; [reflexivity|nia].
Qed.

(** ** generate_moebius *)
Definition mob_inv (i k v : Z) : Prop :=
  (v = 0 /\ exists p, prime p /\ (p * p | k)) \/
  (exists P r, 1 <= P /\ 1 <= r /\ k = P * r /\
     (forall q, prime q -> (q | r) -> i <= q) /\ (forall q, prime q -> (q | P) -> q < i) /\
     mu P <> 0 /\ v = mu P * P).

Lemma mu_square p k : prime p -> 1 <= k -> (p * p | k) -> mu k = 0.
Proof.
  intros Hp Hk D. pose proof (prime_ge_2 p Hp). destruct D as [u Hu].
  replace k with (p * (u * p)) by lia. apply mu_mul_div; auto; [nia|]. apply Z.divide_factor_r.
Qed.
Lemma mu_unit P : mu P <> 0 -> mu P = 1 \/ mu P = -1.
Proof. intros H. destruct (mu_values P) as [?|[?|?]]; auto. congruence. Qed.

Lemma mob_prime i v : 2 <= i -> mob_inv i i v -> v = 1 <-> prime i.
Proof.
  intros Hi [[-> (p & Hp & D)]|(P & r & HP & Hr & E & Hq & Hl & Hmu & ->)].
  - split; [discriminate|]. intros Pi. exfalso. pose proof (prime_ge_2 p Hp).
    assert (D1 : (p | i)) by (eapply Z.divide_trans; [apply Z.divide_factor_l|exact D]).
    apply prime_div_prime in D1; auto. subst p. apply Z.divide_pos_le in D; nia.
  - split.
    + intros V. assert (P = 1) by (destruct (mu_unit P Hmu) as [M|M]; rewrite M in V; lia). subst P.
      rewrite Z.mul_1_l in E. subst r. destruct (prime_dec' i) as [Pi|Pi]; auto. exfalso.
      destruct (composite_divisor i Hi Pi) as (p & Hp & D & L). pose proof (prime_ge_2 p Hp).
      specialize (Hq p Hp D). nia.
    + intros Pi. assert (P = 1 \/ P = i).
      { assert (D : (P | i)) by (exists r; lia). destruct (Znumtheory.prime_divisors i Pi P D) as [?|[?|[?|?]]]; lia. }
      destruct H as [->| ->]; [reflexivity|]. specialize (Hl i Pi (Z.divide_refl i)). lia.
Qed.
Lemma mob_skip i k v : ~ prime i -> mob_inv i k v -> mob_inv (i + 1) k v.
Proof.
  intros Hn [H|(P & r & HP & Hr & E & Hq & Hl & Hmu & V)]; [now left|right].
  exists P, r. repeat (split; [assumption|]). split; [|split; [|auto]].
  - intros q Pq D. specialize (Hq q Pq D). assert (q <> i) by (intros ->; auto). lia.
  - intros q Pq D. specialize (Hl q Pq D). lia.
Qed.
Lemma mob_next i k v : prime i -> 1 <= k -> mob_inv i k v ->
  mob_inv (i + 1) k (if (k mod (i * i) =? 0) then 0 else if (k mod i =? 0) then v * - i else v).
Proof.
  intros Pi Hk H. pose proof (prime_ge_2 i Pi).
  destruct (k mod (i * i) =? 0) eqn:E2.
  { apply mod0_divide in E2; [|nia]. left. split; auto. exists i. auto. }
  apply mod0_false in E2; [|nia].
  destruct H as [[-> H]|(P & r & HP & Hr & E & Hq & Hl & Hmu & V)].
  { left. split; auto. destruct (k mod i =? 0); reflexivity. }
  right. destruct (k mod i =? 0) eqn:E1.
  - apply mod0_divide in E1; [|lia].
    assert (NP : ~ (i | P)) by (intros D; specialize (Hl i Pi D); lia).
    rewrite E in E1. apply prime_mult in E1; auto. destruct E1 as [D|D]; [contradiction|].
    destruct D as [r' Hr']. exists (i * P), r'. split; [nia|]. split; [nia|]. split; [subst; ring|].
    split; [|split; [|split]].
    + intros q Pq D. assert (i <= q) by (apply Hq; auto; subst r; now apply Z.divide_mul_l).
      assert (q <> i); [|lia]. intros ->. apply E2. destruct D as [w ->]. exists (P * w). subst. ring.
    + intros q Pq D. apply prime_mult in D; auto. destruct D as [D|D].
      * apply prime_div_prime in D; auto. lia.
      * specialize (Hl q Pq D). lia.
    + rewrite mu_mul by auto. lia.
    + rewrite mu_mul by auto. subst v. ring.
  - apply mod0_false in E1; [|lia]. exists P, r. repeat (split; [assumption|]). split; [|split; [|auto]].
    + intros q Pq D. specialize (Hq q Pq D). assert (q <> i); [|lia]. intros ->. apply E1. subst k. now apply Z.divide_mul_r.
    + intros q Pq D. specialize (Hl q Pq D). lia.
Qed.
(** the int32_t product does not overflow *)
Lemma mob_bound i k v : prime i -> 1 <= k -> mob_inv i k v -> (i | k) -> - k <= v * - i <= k.
Proof.
  intros Pi Hk [[-> _]|(P & r & HP & Hr & E & Hq & Hl & Hmu & V)] D; [lia|].
  pose proof (prime_ge_2 i Pi).
  rewrite E in D. apply prime_mult in D; auto. destruct D as [D|D]; [specialize (Hl i Pi D); lia|].
  apply Z.divide_pos_le in D; [|lia]. assert (P * i <= k) by nia.
  destruct (mu_unit P Hmu) as [M|M]; rewrite M in V; subst v; nia.
Qed.
Lemma mob_final s k v : 2 <= k -> 0 <= s -> k < (s + 1) * (s + 1) -> mob_inv (s + 1) k v ->
  (if v =? k then 1 else if v =? - k then -1 else if v <? 0 then 1 else if v >? 0 then -1 else v) = mu k.
Proof.
  intros Hk Hs Hb [[-> (p & Hp & D)]|(P & r & HP & Hr & E & Hq & Hl & Hmu & V)].
  - rewrite (mu_square p k) by (auto; lia). destruct (Z.eqb_spec 0 k); [lia|]. destruct (Z.eqb_spec 0 (- k)); [lia|]. reflexivity.
  - assert (R : r = 1 \/ (prime r /\ ~ (r | P))).
    { destruct (Z.eq_dec r 1); auto. right. assert (Pr : prime r).
      - destruct (prime_dec' r) as [Pr|Pr]; auto. exfalso.
        destruct (composite_divisor r ltac:(lia) Pr) as (p & Hp & D & L).
        specialize (Hq p Hp D). pose proof (prime_ge_2 p Hp). nia.
      - split; auto. intros D. specialize (Hl r Pr D). specialize (Hq r Pr (Z.divide_refl r)). lia. }
    destruct R as [->|[Pr Nr]].
    + rewrite Z.mul_1_r in E. subst P. destruct (mu_unit k Hmu) as [M|M]; rewrite M in *; subst v.
      * rewrite Z.mul_1_l, Z.eqb_refl. reflexivity.
      * destruct (Z.eqb_spec (-1 * k) k); [lia|]. destruct (Z.eqb_spec (-1 * k) (- k)); [reflexivity|lia].
    + pose proof (prime_ge_2 r Pr). rewrite E, Z.mul_comm, mu_mul by auto. assert (P < k) by nia.
      destruct (mu_unit P Hmu) as [M|M]; rewrite M in *; subst v.
      * destruct (Z.eqb_spec (1 * P) (r * P)); [nia|]. destruct (Z.eqb_spec (1 * P) (- (r * P))); [nia|].
        destruct (Z.ltb_spec (1 * P) 0); [lia|]. destruct (Z.gtb_spec (1 * P) 0); lia.
      * destruct (Z.eqb_spec (-1 * P) (r * P)); [nia|]. destruct (Z.eqb_spec (-1 * P) (- (r * P))); [nia|].
        destruct (Z.ltb_spec (-1 * P) 0); lia.
Qed.

Lemma generate_moebius_ok max : 0 <= max < 2 ^ 31 - 1 ->
  wp (generate_moebius max) (fun l => arr l (max + 1) (fun k => if k =? 0 then 1 else mu k)).
Proof.
  intros Hm. unfold generate_moebius. pose proof (sqrt_bounds max ltac:(lia)) as (S0 & S1 & S2). set (s := Z.sqrt max) in *.
  pose proof pow400_31.
  apply wp_bind.
  apply (for_rule 2 (s + 1) _ (fun i l => exists F, arr l (max + 1) F /\ F 0 = 1 /\ F 1 = 1 /\
            forall k, 1 <= k <= max -> mob_inv i k (F k))); [lia| | |].
  { exists (fun _ => 1). split; [apply arr_make; lia|]. split; auto. split; auto. intros k Hk. right. exists 1, k.
    split; [lia|]. split; [lia|]. split; [lia|]. split; [intros q Hq _; now apply prime_ge_2|].
    split; [|split; [discriminate|reflexivity]].
    intros q Hq D. pose proof (prime_ge_2 q Hq). apply Z.divide_1_r_nonneg in D; lia. }
  { intros i l Hi (F & Ha & F0 & F1 & HF). rewrite (arr_get _ _ _ i Ha) by nia. cbn [bind].
    pose proof (mob_prime i (F i) ltac:(lia) (HF i ltac:(nia))) as PI.
    destruct (Z.eqb_spec (F i) 1) as [E|E].
    - apply PI in E. clear PI. apply wp_bind.
      eapply (arr_for_step l _ _ i (max + 1) i (fun _ w => schk 32 (w * - i)) (fun k => F k * - i)); eauto; try nia.
      { intros k Hk Hd. apply schk_ok.
        assert (D : (i | k)). { apply Z.mod_divide in Hd; [|lia]. replace k with (k - i + i) by ring. apply Z.divide_add_r; auto. apply Z.divide_refl. }
        pose proof (mob_bound i k (F k) E ltac:(lia) (HF k ltac:(lia)) D).
        unfold in_s, smin, smax. change (32 - 1) with 31. lia. }
      { intros j l1 v Hj Ev. rewrite Ev. cbn [bind]. rewrite (swrap_id 32 (- i)); [reflexivity|lia|].
        unfold in_s, smin, smax. change (32 - 1) with 31. nia. }
      intros l1 H1.
      eapply (arr_for_step l1 _ _ (i * i) (max + 1) (i * i) (fun _ _ => Ok 0) (fun _ => 0)); eauto; try nia.
      intros l2 H2. eexists. split; [exact H2|]. cbn beta.
      assert (II : forall k, 1 <= k <= max -> (i * i <=? k) && (k <? max + 1) && (k mod (i * i) =? 0) = (k mod (i * i) =? 0)).
      { intros k Hk. destruct (Z.ltb_spec k (max + 1)); [|lia]. rewrite andb_true_r.
        destruct (Z.leb_spec (i * i) k); auto. cbn [andb]. symmetry. apply mod0_false; [nia|]. intros D. apply Z.divide_pos_le in D; lia. }
      assert (I1 : forall k, 1 <= k <= max -> (i <=? k) && (k <? max + 1) && (k mod i =? 0) = (k mod i =? 0)).
      { intros k Hk. destruct (Z.ltb_spec k (max + 1)); [|lia]. rewrite andb_true_r.
        destruct (Z.leb_spec i k); auto. cbn [andb]. symmetry. apply mod0_false; [nia|]. intros D. apply Z.divide_pos_le in D; lia. }
      split; [|split].
      + unfold hit. destruct (Z.leb_spec (i * i) 0); [nia|]. destruct (Z.leb_spec i 0); [lia|]. exact F0.
      + unfold hit. destruct (Z.leb_spec (i * i) 1); [nia|]. destruct (Z.leb_spec i 1); [lia|]. exact F1.
      + intros k Hk. rewrite !hit_multiple by (try nia; apply Z.divide_refl). rewrite II, I1 by lia.
        apply mob_next; auto; lia.
    - simpl. exists F. repeat (split; [assumption|]). intros k Hk. apply mob_skip; auto. intros P. apply E. now apply PI. }
  intros l (F & Ha & F0 & F1 & HF).
  eapply (arr_for l _ _ 2 (max + 1) (fun k v => Ok (if v =? k then 1 else if v =? - k then -1 else if v <? 0 then 1 else if v >? 0 then -1 else v))
     (fun k => (if F k =? k then 1 else if F k =? - k then -1 else if F k <? 0 then 1 else if F k >? 0 then -1 else F k))); eauto; try lia.
  { intros j l1 v Hj Ev. rewrite Ev. cbn [bind]. destruct (v =? j); auto. destruct (v =? - j); auto.
    destruct (v <? 0); auto. destruct (v >? 0); auto. symmetry. now apply aset_same. }
  intros l' H'. eapply arr_ext; [exact H'|]. intros k Hk. cbn beta.
  destruct (Z.leb_spec 2 k), (Z.ltb_spec k (max + 1)); cbn [andb]; try lia.
  - destruct (Z.eqb_spec k 0); [lia|]. destruct (Z.le_gt_cases 1 s).
    + apply (mob_final s); [lia|lia|lia|]. replace (s + 1) with (Z.max 2 (s + 1)) by lia. apply HF. lia.
    + assert (k <= 3) by nia. apply (mob_final 1); [lia|lia|lia|]. replace (1 + 1) with (Z.max 2 (s + 1)) by lia. apply HF. lia.
  - assert (K : k = 0 \/ k = 1) by lia. destruct K as [-> | ->]; cbn [Z.eqb]; auto.
Qed.

(** ** generate_prime_sums *)
Definition psum_table_value (N k : Z) : Z := lsum (fun p => p) (firstn (Z.to_nat k) (primes_upto N)).
Lemma generate_prime_sums_ok N : N < 2 ^ 300 ->
  wp (generate_prime_sums N) (fun l => zlen l = pi N + 1 /\ forall k, 0 <= k <= pi N -> aget l k = Ok (psum_table_value N k)).
Proof.
  intros HN. unfold generate_prime_sums, generate_primes. rewrite prime_table_len.
  assert (HP : pi N < 2 ^ 301).
  { assert (E : 2 ^ 301 = 2 * 2 ^ 300) by reflexivity. assert (0 < 2 ^ 300) by reflexivity. destruct (Z.lt_ge_cases N 0); [rewrite pi_small by lia; lia|]. pose proof (pi_le N H0). lia. }
  pose proof (pi_nonneg N).
  assert (F0 : arr (prime_table N) (pi N + 1) (fun k => nth (Z.to_nat k) (prime_table N) 0)).
  { rewrite <- prime_table_len. apply arr_nth. }
  assert (F400 : 2 ^ 301 < 2 ^ 400) by reflexivity.
  apply (for_rule 1 (pi N + 1) _ (fun i l => arr l (pi N + 1)
           (fun k => if k <? i then psum_table_value N k else nth (Z.to_nat k) (prime_table N) 0))).
  - lia.
  - eapply arr_ext; [exact F0|]. intros k Hk. cbn beta. destruct (Z.ltb_spec k 1); auto.
    replace k with 0 by lia. reflexivity.
  - intros i l Hi Ha. rewrite (arr_get _ _ _ i Ha), (arr_get _ _ _ (i - 1) Ha) by lia. cbn [bind].
    eapply arr_set; [exact Ha|lia|]. intros l' H'. eapply arr_ext; [exact H'|]. intros k Hk. cbn beta.
    destruct (Z.ltb_spec i i); [lia|]. destruct (Z.ltb_spec (i - 1) i); [|lia].
    destruct (Z.eqb_spec k i) as [->|Nk].
    + destruct (Z.ltb_spec i (i + 1)); [|lia]. unfold psum_table_value.
      replace (Z.to_nat i) with (S (Z.to_nat (i - 1))) by lia. unfold prime_table. cbn [nth].
      unfold pi, zlen in Hi. assert (Hl : (Z.to_nat (i - 1) < length (primes_upto N))%nat) by lia.
      revert Hl. generalize (Z.to_nat (i - 1)) (primes_upto N). clear. induction n as [|n IH]; intros [|a l] Hl; simpl in *; try lia.
      rewrite <- IH by lia. simpl. lia.
    + destruct (Z.ltb_spec k i), (Z.ltb_spec k (i + 1)); auto; lia.
  - intros l Ha. split; [eapply arr_len; eauto|]. intros k Hk.
    rewrite (arr_get _ _ _ k Ha) by lia. destruct (Z.ltb_spec k (Z.max 1 (pi N + 1))); auto. lia.
Qed.

(** the k-th entry is the sum of the first k primes *)
Lemma psum_table_prime N p : prime p -> p <= N -> psum_table_value N (pi p) = prime_sum p.
Proof.
  intros Hp L. unfold psum_table_value, prime_sum. rewrite (primes_upto_split p N L).
  unfold pi, zlen. rewrite Nat2Z.id. rewrite firstn_app, firstn_all, Nat.sub_diag. simpl. now rewrite app_nil_r.
Qed.
Lemma psum_table_pi N x : x <= N -> psum_table_value N (pi x) = prime_sum x.
Proof.
  intros L. unfold psum_table_value, prime_sum. rewrite (primes_upto_split x N L).
  unfold pi, zlen. rewrite Nat2Z.id. rewrite firstn_app, firstn_all, Nat.sub_diag. simpl. now rewrite app_nil_r.
Qed.
