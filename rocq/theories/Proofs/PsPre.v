(** PreSieve: the buffer and its copies. *)
From Coq Require Import ZArith List Lia Bool Znumtheory.
From Verif.Base Require Import Res Word Zl Each.
From Verif.Model Require Import PsTables PsMath PsErat.
From Verif.Spec Require Import PsSpec.
From Verif.Proofs Require Import PsWheel PsCross PsSmall PsFirst PsMedium PsBig PsAdd.
Import ListNotations.
Open Scope Z_scope.
Local Ltac Zify.zify_post_hook ::= idtac.

Lemma presieved_spec mx n : presieved mx n = true <-> forall p, In p pre_primes -> p <= mx -> n mod p <> 0.
Proof.
  unfold presieved. change [7; 11; 13; 17; 19] with pre_primes. rewrite forallb_forall. split.
  - intros H p Hp Hm. specialize (H p Hp). rewrite orb_true_iff, Z.ltb_lt, negb_true_iff, Z.eqb_neq in H. lia.
  - intros H p Hp. specialize (H p Hp). rewrite orb_true_iff, Z.ltb_lt, negb_true_iff, Z.eqb_neq. destruct (Z.le_gt_cases p mx); auto.
Qed.
Lemma presieved_false mx n : presieved mx n = false <-> exists p, In p pre_primes /\ p <= mx /\ n mod p = 0.
Proof.
  split.
  - intros H. unfold presieved in H. change [7; 11; 13; 17; 19] with pre_primes in H.
    apply not_true_iff_false in H. rewrite forallb_forall in H.
    destruct (existsb (fun p => (p <=? mx) && (n mod p =? 0)) pre_primes) eqn:E.
    + apply existsb_exists in E. destruct E as (p & Hp & E). rewrite andb_true_iff, Z.leb_le, Z.eqb_eq in E. exists p. tauto.
    + exfalso. apply H. intros p Hp. destruct (Z.ltb_spec mx p); auto. cbn. apply negb_true_iff, Z.eqb_neq. intros E0.
      assert (T : existsb (fun p => (p <=? mx) && (n mod p =? 0)) pre_primes = true); [|congruence].
      apply existsb_exists. exists p. rewrite andb_true_iff, Z.leb_le, Z.eqb_eq. auto.
  - intros (p & Hp & Hm & E). destruct (presieved mx n) eqn:H; auto. rewrite presieved_spec in H. exfalso. now apply (H p).
Qed.

Definition good_product (mx prod : Z) : Prop :=
  (210 <= prod <= 9699690 /\ mx * mx <= prod) /\ prod mod 30 = 0 /\ forall p, In p pre_primes -> p <= mx -> prod mod p = 0.
Lemma good_products i : 0 <= i < 5 -> exists p prod, aget pre_primes i = Ok p /\ aget pre_products i = Ok prod /\ good_product p prod /\ 7 <= p <= 19.
Proof.
  intros H.
  assert (C : i = 0 \/ i = 1 \/ i = 2 \/ i = 3 \/ i = 4) by lia.
  assert (R : forall x y, forallb (fun p => (x <? p) || (y mod p =? 0)) pre_primes = true -> forall p, In p pre_primes -> p <= x -> y mod p = 0).
  { intros x y E p Hp Hm. rewrite forallb_forall in E. specialize (E p Hp). rewrite orb_true_iff, Z.ltb_lt, Z.eqb_eq in E. lia. }
  destruct C as [->|[->|[->|[->| ->]]]]; eexists _, _; (split; [reflexivity|]; split; [reflexivity|]; split; [|lia]);
    (split; [lia|]; split; [reflexivity|]; apply R; reflexivity).
Qed.

(** The buffer holds the presieved numbers of its period. *)
Definition pre_ok (ps : presieve) : Prop :=
  7 <= ps_max ps <= 19 /\ good_product (ps_max ps) (ps_prod ps) /\ ps_size ps = ps_prod ps / 30 /\ zlen (ps_buf ps) = ps_size ps /\
  holds (ps_buf ps) (ps_prod ps) (presieved (ps_max ps)).

Lemma pre_prime_cop p : In p pre_primes -> 7 <= p <= 19 /\ cop 30 p = true /\ p mod 30 <> 0.
Proof.
  intros H. assert (E : forallb (fun p => (7 <=? p) && (p <=? 19) && cop 30 p) pre_primes = true) by reflexivity.
  rewrite forallb_forall in E. specialize (E p H). rewrite !andb_true_iff, !Z.leb_le in E. destruct E as ((? & ?) & ?).
  split; [lia|]. split; auto. rewrite Z.mod_small; lia.
Qed.

Theorem presieve_buffer_ok mx prod : 7 <= mx <= 19 -> good_product mx prod ->
  wp (presieve_buffer mx prod) (fun ps => pre_ok ps /\ ps_max ps = mx).
Proof.
  intros Hmx ((HP & HP0) & HP30 & Hdiv). unfold presieve_buffer.
  pose proof (Z.div_mod prod 30 ltac:(lia)) as DM. rewrite HP30, Z.add_0_r in DM. set (size := prod / 30) in *.
  assert (Hsz : 7 <= size <= 323323) by lia.
  apply wp_bind.
  apply each_rule with (Inv := fun done e => exists l, small_state prod e l /\ es_stop e = prod * 2 /\ es_l1 e = size /\
     (forall p, In p l -> In p pre_primes /\ p <= mx) /\ (forall p, In p done -> p <= mx -> In p l \/ spent 30 prod (prod * 2) p)).
  - exists []. split; [|split; [reflexivity|split; [reflexivity|split; intros p []]]]. split; constructor.
  - intros done p e (rest & Er) (l & S1 & S2 & S3 & S4 & S5). assert (Hp : In p pre_primes) by (rewrite Er; apply in_app_iff; right; now left).
    destruct (pre_prime_cop p Hp) as (P1 & P2 & _). destruct (Z.leb_spec p mx).
    + apply (esmall_add_rule prod e l p size); auto; try lia; try nia.
      * intros SP. exists l. split; [auto|split; [auto|split; [auto|split; [auto|]]]].
        intros p' Hp' Hm. apply in_app_iff in Hp'. destruct Hp' as [Hp'|[<-|[]]]; auto. right. now rewrite <- S2.
      * intros e' E1 E2 E3 E4. exists (l ++ [p]). split; [auto|split; [congruence|split; [congruence|split]]].
        -- intros p' Hp'. apply in_app_iff in Hp'. destruct Hp' as [Hp'|[<-|[]]]; auto.
        -- intros p' Hp' Hm. apply in_app_iff in Hp'. destruct Hp' as [Hp'|[<-|[]]].
           ++ destruct (S5 p' Hp' Hm); [left; apply in_app_iff; auto|auto].
           ++ left. apply in_app_iff. right. now left.
    + cbn [wp]. exists l. split; [auto|split; [auto|split; [auto|split; [auto|]]]].
      intros p' Hp' Hm. apply in_app_iff in Hp'. destruct Hp' as [Hp'|[<-|[]]]; auto. lia.
  - intros e (l & S1 & S2 & S3 & S4 & S5). apply wp_bind.
    assert (LEN : zlen (amake size 255) = size) by (apply amake_len; lia).
    apply (esmall_cross_rule prod size size (fun _ => true) e l); auto; try lia.
    { intros i Hi. exists 255. rewrite amake_get by lia. split; [reflexivity|]. split; [lia|]. intros j Hj.
      assert (E : forallb (fun j => Z.testbit 255 j) (zrange 0 8) = true) by reflexivity. rewrite forallb_forall in E. apply E. now apply in_zrange. }
    intros e' buf Hl _ _ _ _ HH. cbn [wp]. split; [|reflexivity]. unfold pre_ok. cbn [ps_max ps_prod ps_size ps_buf].
    split; [auto|]. split; [split; auto|]. split; [reflexivity|]. split; [auto|].
    eapply holds_ext; [exact HH|]. intros i j Hi Hj. cbv beta. cbn [andb].
    assert (Cm : cop 30 (prod + 30 * i + off j) = true) by (apply place_cop; auto).
    pose proof (off_bound j Hj) as OB. assert (Rm : prod + 6 < prod + 30 * i + off j <= 2 * prod + 1) by lia. rewrite Hl in Hi.
    set (m := prod + 30 * i + off j) in *. clearbody m. clear HH.
    destruct (presieved mx m) eqn:E.
    + rewrite presieved_spec in E. apply negb_true_iff. destruct (struck 30 l m) eqn:ES; auto. exfalso.
      apply existsb_exists in ES. destruct ES as (p & Hp & ES). destruct (S4 p Hp). apply (E p); auto. unfold strikes in ES.
      rewrite !andb_true_iff, Z.eqb_eq in ES. tauto.
    + apply presieved_false in E. destruct E as (p & Hp & Hpm & E). apply negb_false_iff. rewrite !andb_true_iff, !Z.ltb_lt. split; [split|]; try lia.
      destruct (pre_prime_cop p Hp) as (P1 & P2 & _). pose proof (Hdiv p Hp Hpm) as Dp.
      pose proof (Z.div_mod m p ltac:(lia)) as DMm. rewrite E, Z.add_0_r in DMm.
      pose proof (Z.div_mod prod p ltac:(lia)) as DMp. rewrite Dp, Z.add_0_r in DMp.
      assert (M2 : m <= 2 * prod).
      { destruct (Z.eq_dec m (2 * prod + 1)) as [Em|]; [|lia]. exfalso. assert (K : p * (m / p - 2 * (prod / p)) = 1) by (replace (p * (m / p - 2 * (prod / p))) with (p * (m / p) - 2 * (p * (prod / p))) by ring; lia). assert (p <= 1) by (apply Z.divide_pos_le; [lia|]; exists (m / p - 2 * (prod / p)); lia). lia. }
      assert (Cq : cop 30 (m / p) = true).
      { rewrite DMm in Cm. unfold cop in Cm |- *. rewrite Z.eqb_eq in Cm |- *. apply Zgcd_1_rel_prime in Cm. apply Zgcd_1_rel_prime.
        apply rel_prime_div with (p * (m / p)); auto. exists p. ring. }
      assert (Pq : p <= m / p) by (apply Z.div_le_lower_bound; nia).
      destruct (S5 p Hp Hpm) as [I|SP].
      * apply existsb_exists. exists p. split; auto. unfold strikes. rewrite E, Cq. cbn. now apply Z.leb_le.
      * exfalso. specialize (SP (m / p) Cq Pq). rewrite <- DMm in SP. lia.
Qed.

Theorem presieve_init_ok start stop ps : ps = presieve0 \/ pre_ok ps ->
  wp (presieve_init start stop ps) (fun ps' => pre_ok ps' /\ ps_max ps <= ps_max ps').
Proof.
  intros H. unfold presieve_init. set (t := _ / 100). clearbody t.
  assert (I : 0 <= lower_bound_count (removelast pre_products) t < 5).
  { unfold lower_bound_count. set (f := fun x => x <? t). split; [unfold zlen; lia|].
    assert (G : forall l : list Z, zlen (filter f l) <= zlen l).
    { induction l as [|a l IH]; [cbn; lia|]. cbn [filter]. destruct (f a); rewrite !zlen_cons in *; lia. }
    specialize (G (removelast pre_products)). change (zlen (removelast pre_products)) with 4 in G. lia. }
  destruct (good_products _ I) as (p & prod & E1 & E2 & G & P). apply wp_bind. apply (wp_of_eq _ p); auto.
  rewrite Z.gtb_ltb. destruct (Z.ltb_spec (ps_max ps) p).
  - apply wp_bind. apply (wp_of_eq _ prod); auto. eapply wp_mono; [apply presieve_buffer_ok; auto|].
    intros ps' (H1 & H2). split; auto. lia.
  - cbn [wp]. destruct H as [->|H]; [cbn in *; lia|]. split; auto. lia.
Qed.

(** *** copy *)
Lemma presieved_period mx prod m m' : good_product mx prod -> m mod prod = m' mod prod -> presieved mx m = presieved mx m'.
Proof.
  intros (HP & _ & HD) E. apply eq_true_iff_eq. rewrite !presieved_spec.
  assert (K : forall p, In p pre_primes -> p <= mx -> m mod p = m' mod p).
  { intros p Hp Hm. pose proof (pre_prime_cop p Hp). specialize (HD p Hp Hm). apply Z.mod_divide in HD; [|lia].
    rewrite (Zmod_div_mod p prod m), (Zmod_div_mod p prod m') by (auto; lia). now rewrite E. }
  split; intros H p Hp Hm; [rewrite <- K by auto|rewrite K by auto]; auto.
Qed.

Theorem presieve_copy_ok sieve size low ps (Q : list Z -> Prop) : pre_ok ps -> low mod 30 = 0 -> 0 <= low -> 1 <= size <= zlen sieve -> zlen sieve <= 2 ^ 40 ->
  (forall l, zlen l = zlen sieve -> (forall k, size <= k < zlen sieve -> aget l k = aget sieve k) ->
     (forall k, 0 <= k < size -> exists b, aget l k = Ok b /\ 0 <= b < 256 /\ forall j, 0 <= j < 8 -> Z.testbit b j = presieved (ps_max ps) (low + 30 * k + off j)) -> Q l) ->
  wp (presieve_copy sieve size low ps) Q.
Proof.
  intros (HM & HG & HS & HL & HB) Hlow Hlow0 Hsize Hbig HQ. pose proof HG as (HP & HP30 & _). unfold presieve_copy.
  destruct (Z.eqb_spec (ps_prod ps) 0); [lia|].
  pose proof (Z.div_mod (ps_prod ps) 30 ltac:(lia)) as DM. rewrite HP30, Z.add_0_r, <- HS in DM.
  set (N := ps_size ps) in *. set (P := ps_prod ps) in *. set (i0 := low mod P / 30).
  pose proof (Z.mod_pos_bound low P ltac:(lia)) as MB.
  assert (E0 : low mod P = 30 * i0).
  { unfold i0. apply Z.div_exact; [lia|]. rewrite <- Hlow. symmetry. apply Zmod_div_mod; try lia. exists N. lia. }
  assert (I0 : 0 <= i0 < N) by lia.
  (* what the pieces must add up to *)
  assert (FIN : forall l, zlen l = zlen sieve -> (forall k, size <= k < zlen sieve -> aget l k = aget sieve k) ->
            (forall k, 0 <= k < size -> aget l k = aget (ps_buf ps) ((i0 + k) mod N)) -> Q l).
  { intros l H1 H2 H3. apply HQ; auto. intros k Hk. rewrite H3 by auto. pose proof (Z.mod_pos_bound (i0 + k) N ltac:(lia)).
    destruct (HB ((i0 + k) mod N) ltac:(lia)) as (b & B1 & B2 & B3). exists b. split; auto. split; auto. intros j Hj. rewrite B3 by auto.
    apply (presieved_period _ P); auto.
    pose proof (Z.div_mod low P ltac:(lia)) as D1. pose proof (Z.div_mod (i0 + k) N ltac:(lia)) as D2.
    replace (low + 30 * k + off j) with (P + 30 * ((i0 + k) mod N) + off j + (low / P + (i0 + k) / N - 1) * P).
    - symmetry. apply Z.mod_add. lia.
    - replace ((low / P + (i0 + k) / N - 1) * P) with (P * (low / P) + 30 * (N * ((i0 + k) / N)) - P) by (rewrite DM; ring). lia. }
  set (left := N - i0) in *. destruct (Z.leb_spec size left).
  - apply acopy_ok; try lia. intros l Hl Hg. apply FIN; auto.
    + intros k Hk. rewrite Hg by lia. destruct (Z.leb_spec 0 k), (Z.ltb_spec k (0 + size)); try lia. reflexivity.
    + intros k Hk. rewrite Hg by lia. destruct (Z.leb_spec 0 k), (Z.ltb_spec k (0 + size)); try lia. cbn [andb]. f_equal. rewrite Z.mod_small; lia.
  - apply wp_bind. apply acopy_ok; try lia. intros l Hl Hg. apply wp_bind.
    apply (loop_rule _ (fun '(i, sv) => left <= i < size /\ (i0 + i) mod N = 0 /\ zlen sv = zlen sieve /\
        (forall k, size <= k < zlen sieve -> aget sv k = aget sieve k) /\ (forall k, 0 <= k < i -> aget sv k = aget (ps_buf ps) ((i0 + k) mod N)))
      (fun '(i, _) => size - i)).
    + intros [i sv] (J1 & J2 & J3 & J4 & J5). destruct (Z.ltb_spec (i + N) size).
      * apply wp_bind. apply acopy_ok; try lia. intros l2 Hl2 Hg2. cbn [wp].
        split; [split; [lia|split; [|split; [lia|split]]]|lia].
        -- replace (i0 + (i + N)) with (i0 + i + 1 * N) by ring. rewrite Z.mod_add by lia. auto.
        -- intros k Hk. rewrite Hg2 by lia. destruct (Z.leb_spec i k), (Z.ltb_spec k (i + N)); try lia. cbn [andb]. auto.
        -- intros k Hk. rewrite Hg2 by lia. destruct (Z.leb_spec i k); [|apply J5; lia]. destruct (Z.ltb_spec k (i + N)); [|lia]. cbn [andb]. f_equal.
           replace (i0 + k) with ((i0 + i) + (k - i)) by ring. rewrite <- Zplus_mod_idemp_l, J2. rewrite Z.mod_small; lia.
      * cbn [wp]. apply acopy_ok; try lia. intros l2 Hl2 Hg2. apply FIN; [lia| |].
        -- intros k Hk. rewrite Hg2 by lia. destruct (Z.leb_spec i k), (Z.ltb_spec k (i + (size - i))); try lia. cbn [andb]. auto.
        -- intros k Hk. rewrite Hg2 by lia. destruct (Z.leb_spec i k); [|apply J5; lia]. destruct (Z.ltb_spec k (i + (size - i))); [|lia]. cbn [andb]. f_equal.
           replace (i0 + k) with ((i0 + i) + (k - i)) by ring. rewrite <- Zplus_mod_idemp_l, J2. rewrite Z.mod_small; lia.
    + split; [lia|]. split; [|split; [auto|split]].
      * replace (i0 + left) with (1 * N) by (unfold left; ring). apply Z.mod_mul. lia.
      * intros k Hk. rewrite Hg by lia. destruct (Z.leb_spec 0 k), (Z.ltb_spec k (0 + left)); try lia. reflexivity.
      * intros k Hk. rewrite Hg by lia. destruct (Z.leb_spec 0 k), (Z.ltb_spec k (0 + left)); try lia. cbn [andb]. f_equal. rewrite Z.mod_small; lia.
    + lia.
Qed.
