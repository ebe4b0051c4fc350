(** Correctness of the model of src/phi_sum.cpp. *)
From Coq Require Import ZArith List Bool Lia Znumtheory.
From Verif.Base Require Import Res Word Zl IType.
From Verif.Spec Require Import Primes IntSpec LMOSpec PhiSumSpec.
From Verif.Proofs Require Import Primes NT LMO Imath Int256 Int256b Int256c Primesieve.
From Verif.Model Require Import Int256 Imath Primesieve PhiSum.
Import ListNotations.
Open Scope Z_scope.

Lemma Phi_nonneg w x a : (forall n, 1 <= n -> 0 <= w n) -> 0 <= Phi w x a.
Proof.
  intros H. apply sumr_nonneg. intros n Hn. destruct (roughb a n); [apply H|]; lia.
Qed.
Lemma phi_sum_nonneg x a : 0 <= phi_sum x a.
Proof. apply Phi_nonneg. lia. Qed.
Lemma phi_nonneg x a : 0 <= phi x a.
Proof. apply Phi_nonneg. lia. Qed.
Lemma phi_sum_le x a : 0 <= x -> 2 * phi_sum x a <= x * (x + 1).
Proof.
  intros H. assert (L : phi_sum x a <= phi_sum x 0).
  { unfold phi_sum, Phi. apply sumr_le. intros n Hn. rewrite (roughb_le0 0) by lia. destruct (roughb a n); lia. }
  rewrite phi_sum_0 in L by lia.
  assert (2 * (x * (x + 1) / 2) <= x * (x + 1)) by (apply Z.mul_div_le; lia). lia.
Qed.
Lemma phi_sum_x0 x : x < 1 -> forall a, phi_sum x a = 0.
Proof. intros H a. unfold phi_sum, Phi. now rewrite sumr_empty by lia. Qed.

(** the entries 1..a of the table are the first a primes, all of type int *)
Definition good_table (primes : list Z) (a : Z) : Prop :=
  forall b, 1 <= b <= a -> exists p, aget primes b = Ok p /\ prime p /\ pi p = b /\ p < 2 ^ 31.
Lemma good_table_mono primes a a' : a' <= a -> good_table primes a -> good_table primes a'.
Proof. intros H G b Hb. apply G. lia. Qed.

Lemma tri_shift x : 0 <= x -> Z.shiftr (x * (x + 1)) 1 = phi_sum x 0.
Proof. intros H. rewrite phi_sum_0 by auto. rewrite Z.shiftr_div_pow2 by lia. reflexivity. Qed.

Lemma phi_sum_step p x : prime p -> phi_sum x (pi p) = phi_sum x (pi p - 1) - p * phi_sum (x / p) (pi p - 1).
Proof. intros Hp. apply (Phi_rec (fun n => n)); auto using mult_id. Qed.

Lemma Phi_one w y x : 1 <= x <= y -> Phi w x (pi y) = w 1.
Proof.
  intros H. unfold Phi. rewrite sumr_cons by lia. rewrite roughb_1. rewrite sumr_zero; [lia|].
  intros n Hn. replace (roughb (pi y) n) with false; auto. symmetry. apply roughb_false; [lia|].
  intros R. apply rough_above in R; lia.
Qed.
Lemma phi_sum_one y x : 1 <= x <= y -> phi_sum x (pi y) = 1.
Proof. apply (Phi_one (fun n => n)). Qed.

Lemma wp_schk n z (Q : Z -> Prop) : in_s n z -> Q z -> wp (schk n z) Q.
Proof. intros H HQ. rewrite schk_ok; auto. Qed.

Ltac pow_all := repeat match goal with |- context[2 ^ ?k] => is_ground k; let v := eval vm_compute in (2 ^ k) in change (2 ^ k) with v end;
  repeat match goal with H : context[2 ^ ?k] |- _ => let v := eval vm_compute in (2 ^ k) in change (2 ^ k) with v in H end.

Lemma phi_sum128_ok n : forall s x a primes, s = 1 \/ s = -1 -> 1 <= x <= smax 64 ->
  0 <= a < Z.of_nat n -> a < 2 ^ 300 -> good_table primes a ->
  phi_sum128 n s x a primes = Ok (s * phi_sum x a).
Proof.
  induction n as [|n IH]; intros s x a primes Hs Hx Ha Hf G; [lia|].
  apply wp_eq. cbn [phi_sum128].
  assert (B : forall b, 0 <= 2 * phi_sum x b <= x * (x + 1)).
  { intros b. pose proof (phi_sum_nonneg x b). pose proof (phi_sum_le x b). lia. }
  assert (XX : x * (x + 1) <= 2 ^ 126).
  { unfold smax in Hx. change (64 - 1) with 63 in Hx. change (2 ^ 63) with 9223372036854775808 in Hx.
    change (2 ^ 126) with 85070591730234615865843651857942052864. nia. }
  assert (RNG : forall z, - 2 ^ 126 <= z <= 2 ^ 126 -> in_s 128 z).
  { intros z Hz. unfold in_s, smin, smax. change (128 - 1) with 127.
    change (2 ^ 127) with (2 * 2 ^ 126). lia. }
  apply (loop_rule _ (fun st => 0 <= fst st <= a /\ snd st = s * (phi_sum x a - phi_sum x (fst st)))
                     (fun st => fst st)).
  - intros [b sum] [Hb Hsum]. cbn [fst snd] in *.
    pose proof (B a). pose proof (B b).
    destruct (Z.gtb_spec b 0) as [Hb0|Hb0].
    + destruct (G b) as (p & Ep & Hp & Pp & Lp); [lia|]. rewrite Ep. cbn [bind].
      pose proof (prime_ge_2 p Hp).
      destruct (Z.leb_spec x p).
      * assert (E1 : phi_sum x b = 1) by (rewrite <- Pp; apply phi_sum_one; lia).
        apply wp_bind, wp_schk; [apply RNG; destruct Hs; subst; lia|]. simpl. rewrite Hsum, E1. ring.
      * rewrite (fast_div_gt_ok i64 i32); cbn [bind]; try lia.
        2:{ simpl; auto. } 2:{ simpl; auto. } 2:{ reflexivity. }
        2:{ unfold in_t, tmin, tmax, tdigits; simpl. unfold smax in Hx. simpl in Hx. lia. }
        2:{ unfold in_t, tmin, tmax, tdigits; simpl. lia. }
        assert (X2 : 1 <= x / p <= x). { split; [apply Z.div_le_lower_bound; lia|apply Z.div_le_upper_bound; nia]. }
        rewrite IH; [|lia|lia|lia|lia|apply (good_table_mono _ a); auto; lia]. cbn [bind].
        pose proof (phi_sum_step p x Hp) as R. rewrite Pp in R.
        pose proof (B (b - 1)).
        assert (E : - s * phi_sum (x / p) (b - 1) * p = s * (phi_sum x b - phi_sum x (b - 1))) by (rewrite R; ring).
        rewrite E. apply wp_bind, wp_schk; [apply RNG; destruct Hs; subst; lia|].
        apply wp_bind, wp_schk; [apply RNG; destruct Hs; subst; lia|].
        simpl. split; [split; [lia|]|lia]. rewrite Hsum. ring.
    + replace b with 0 in * by lia.
      apply wp_bind, wp_schk; [apply RNG; nia|]. apply wp_bind, wp_schk; [apply RNG; lia|].
      rewrite tri_shift by lia.
      apply wp_bind, wp_schk; [apply RNG; destruct Hs; subst; lia|].
      apply wp_bind, wp_schk; [apply RNG; destruct Hs; subst; lia|].
      simpl. rewrite Hsum. ring.
  - cbn [fst snd]. split; [lia|ring].
  - cbn [fst]. lia.
Qed.

(** ** 256-bit version *)
Definition rep256 (r : i256) (v : Z) : Prop := wf256 r /\ sval r = v.
Lemma rep_native v : - 2 ^ 127 <= v < 2 ^ 128 -> rep256 (of_native v) v.
Proof. intros H. split; [apply of_native_wf|now apply of_native_sval]. Qed.
Lemma rep_add a b u v : rep256 a u -> rep256 b v -> in_s 256 (u + v) -> rep256 (add256 a b) (u + v).
Proof.
  intros [W1 <-] [W2 <-] H. split; [now apply add256_wf|]. rewrite add256_sval by auto. apply swrap_id; auto. lia.
Qed.
Lemma rep_mul a b u v : rep256 a u -> rep256 b v -> in_s 256 (u * v) ->
  ~ in_window (- u) -> ~ in_window (- v) -> rep256 (mul256 a b) (u * v).
Proof.
  intros [W1 <-] [W2 <-] H N1 N2. unfold in_window in *.
  destruct (mul256_partial a b W1 W2) as [W E]; [lia|lia|]. split; auto. rewrite E. apply swrap_id; auto; lia.
Qed.
Lemma rep_shr1 a u : rep256 a u -> 0 <= u -> exists r, shr256 a 1 = Ok r /\ rep256 r (Z.shiftr u 1).
Proof.
  intros [W <-] H. destruct (shr256_sval_nonneg a 1 W H) as (r & E & W' & V); [lia|].
  exists r. split; auto. split; auto. rewrite V, Z.shiftr_div_pow2 by lia. reflexivity.
Qed.

Lemma phi_sum256_ok X A : window_free X A -> A < 2 ^ 300 -> forall n m s a primes,
  1 <= m -> s = mu m -> s = 1 \/ s = -1 -> rough a m -> (forall q, prime q -> (q | m) -> pi q <= A) ->
  a <= A -> 1 <= X / m <= smax 128 ->
  0 <= a < Z.of_nat n -> good_table primes a ->
  wp (phi_sum256 n s (X / m) a primes) (fun r => rep256 r (s * phi_sum (X / m) a)).
Proof.
  intros WF HA n. induction n as [|n IH]; intros m s a primes Hm Es Hs Rm Qm HaA Hx Ha G; [lia|].
  cbn [phi_sum256]. set (x := X / m) in *.
  assert (B : forall b, 0 <= 2 * phi_sum x b <= x * (x + 1)).
  { intros b. pose proof (phi_sum_nonneg x b). pose proof (phi_sum_le x b). lia. }
  assert (Hx' : x < 2 ^ 127). { unfold smax in Hx. change (128 - 1) with 127 in Hx. lia. }
  assert (XX : x * (x + 1) <= 2 ^ 254).
  { change (2 ^ 254) with (2 ^ 127 * 2 ^ 127). nia. }
  assert (RNG : forall z, - 2 ^ 254 <= z <= 2 ^ 254 -> in_s 256 z).
  { intros z Hz. unfold in_s, smin, smax. change (256 - 1) with 255.
    change (2 ^ 255) with (2 * 2 ^ 254). lia. }
  assert (NW : forall z, - 2 ^ 127 <= z -> ~ in_window (- z)).
  { intros z Hz. unfold in_window. change (2 ^ 128) with (2 * 2 ^ 127).
    assert (2 ^ 64 < 2 ^ 127) by reflexivity. lia. }
  assert (P127 : 2 ^ 31 < 2 ^ 127) by reflexivity.
  assert (P128 : 2 ^ 128 = 2 * 2 ^ 127) by reflexivity.
  apply (loop_rule _ (fun st => 0 <= fst st <= a /\ rep256 (snd st) (s * (phi_sum x a - phi_sum x (fst st))))
                     (fun st => fst st)).
  - intros [b sum] [Hb Hsum]. cbn [fst snd] in *.
    pose proof (B a). pose proof (B b).
    destruct (Z.gtb_spec b 0) as [Hb0|Hb0].
    + destruct (G b) as (p & Ep & Hp & Pp & Lp); [lia|]. rewrite Ep. cbn [bind].
      pose proof (prime_ge_2 p Hp).
      destruct (Z.leb_spec x p).
      * assert (E1 : phi_sum x b = 1) by (rewrite <- Pp; apply phi_sum_one; lia).
        simpl. replace (s * phi_sum x a) with (s * (phi_sum x a - phi_sum x b) + s) by (rewrite E1; ring).
        apply rep_add; auto; [apply rep_native; destruct Hs; subst; lia|].
        apply RNG. destruct Hs; subst; lia.
      * rewrite (fast_div_gt_ok i128 i32); cbn [bind]; try lia.
        2:{ simpl; auto. } 2:{ simpl; auto. } 2:{ reflexivity. }
        2:{ unfold in_t, tmin, tmax, tdigits; simpl. unfold smax in Hx. simpl in Hx. lia. }
        2:{ unfold in_t, tmin, tmax, tdigits; simpl. lia. }
        assert (X2 : 1 <= x / p <= x). { split; [apply Z.div_le_lower_bound; lia|apply Z.div_le_upper_bound; nia]. }
        assert (EX : x / p = X / (p * m)). { unfold x. rewrite Z.div_div by lia. f_equal. ring. }
        assert (PM : 1 <= p * m) by (assert (P2 : 2 <= p) by lia; clear - Hm P2; nia).
        assert (Nd : ~ (p | m)) by (apply Rm; auto; lia).
        assert (Mu : mu (p * m) = - s) by (rewrite mu_mul; auto; lia).
        assert (HV : wp (if x / p <=? smax 64 then v <- phi_sum128 n (- s) (x / p) (b - 1) primes;; Ok (of_native v)
                         else phi_sum256 n (- s) (x / p) (b - 1) primes)
                     (fun v => rep256 v (- s * phi_sum (x / p) (b - 1)))).
        { destruct (Z.leb_spec (x / p) (smax 64)).
          - rewrite phi_sum128_ok; [|lia|lia|lia|lia|apply (good_table_mono _ a); auto; lia]. cbn [bind wp].
            apply rep_native. pose proof (phi_sum_nonneg (x / p) (b - 1)). pose proof (phi_sum_le (x / p) (b - 1)).
            assert (x / p * (x / p + 1) <= 2 ^ 127).
            { assert (Y : 1 <= x / p <= smax 64) by lia. revert Y. generalize (x / p). clear. intros y Y.
              unfold smax in Y. change (64 - 1) with 63 in Y. change (2 ^ 127) with (2 * 2 ^ 63 * 2 ^ 63). nia. }
            destruct Hs as [-> | ->]; lia.
          - rewrite EX. apply IH; try lia.
            + intros q Hq L D. apply prime_mult in D; auto. destruct D as [D|D].
              * apply prime_div_prime in D; auto. subst q. lia.
              * apply (Rm q Hq); auto. lia.
            + intros q Hq D. apply prime_mult in D; auto. destruct D as [D|D].
              * apply prime_div_prime in D; auto. subst q. lia.
              * now apply Qm.
            + apply (good_table_mono _ a); auto; lia. }
        apply wp_bind. eapply wp_mono; [exact HV|]. clear HV. intros v HV. cbn [wp fst snd].
        split; [|lia]. split; [lia|].
        pose proof (phi_sum_step p x Hp) as R. rewrite Pp in R.
        pose proof (B (b - 1)).
        assert (E : - s * phi_sum (x / p) (b - 1) * p = s * (phi_sum x b - phi_sum x (b - 1))) by (rewrite R; ring).
        replace (s * (phi_sum x a - phi_sum x (b - 1)))
          with (s * (phi_sum x a - phi_sum x b) + - s * phi_sum (x / p) (b - 1) * p) by (rewrite E; ring).
        apply rep_add; auto.
        -- apply rep_mul; auto; [apply rep_native; lia| | |apply NW; lia].
           ++ rewrite E. apply RNG. destruct Hs; subst; lia.
           ++ destruct Hs as [E1|E1]; rewrite E1.
              ** replace (- (- (1) * phi_sum (x / p) (b - 1))) with (phi_sum (x / p) (b - 1)) by ring.
                 rewrite EX, <- Pp. apply (WF (p * m) p); auto; [lia| |].
                 { apply Z.divide_factor_l. }
                 intros q Hq D. apply prime_mult in D; auto. destruct D as [D|D].
                 { apply prime_div_prime in D; auto. subst q. lia. }
                 split; [|now apply Qm]. destruct (Z.le_gt_cases p q); auto. exfalso.
                 apply (Rm q Hq); auto. pose proof (pi_mono q p). lia.
              ** apply NW. pose proof (phi_sum_nonneg (x / p) (b - 1)). lia.
        -- rewrite E. apply RNG. destruct Hs; subst; lia.
    + replace b with 0 in * by lia.
      assert (R1 : rep256 (mul256 (of_native x) (add256 (of_native x) (of_native 1))) (x * (x + 1))).
      { apply rep_mul; [apply rep_native; lia|apply rep_add; try (apply rep_native; lia); apply RNG; nia| | |]; try (apply NW; lia).
        apply RNG; lia. }
      destruct (rep_shr1 _ _ R1) as (r & Er & Rr); [nia|]. rewrite Er. cbn [bind wp].
      rewrite tri_shift in Rr by lia.
      replace (s * phi_sum x a) with (s * (phi_sum x a - phi_sum x 0) + phi_sum x 0 * s) by ring.
      apply rep_add; auto.
      * apply rep_mul; auto; try (apply NW; lia); [apply rep_native; lia|].
        apply RNG. destruct Hs; subst; lia.
      * apply RNG. destruct Hs; subst; lia.
  - cbn [fst snd]. split; [lia|]. replace (s * (phi_sum x a - phi_sum x a)) with 0 by ring. apply rep_native. lia.
  - cbn [fst]. lia.
Qed.

(** ** Top level *)
Lemma pi_le n : 0 <= n -> pi n <= n.
Proof.
  revert n. apply natlike_ind.
  - vm_compute. discriminate.
  - intros n Hn IH. unfold Z.succ. rewrite pi_succ. destruct (primeb (n + 1)); lia.
Qed.

Lemma phi_sum_table_good a : a <= pi (2 ^ 31 - 1) -> good_table (phi_sum_table a) a.
Proof.
  intros Ha b Hb. unfold phi_sum_table. destruct (Z.ltb_spec a 10).
  - assert (H9 : b = 1 \/ b = 2 \/ b = 3 \/ b = 4 \/ b = 5 \/ b = 6 \/ b = 7 \/ b = 8 \/ b = 9) by lia.
    assert (P : forall p, primeb p = true -> prime p) by (intros; now apply primeb_spec).
    destruct H9 as [-> |[-> |[-> |[-> |[-> |[-> |[-> |[-> | ->]]]]]]]];
      eexists; (split; [reflexivity|]); (split; [apply P; reflexivity|split; reflexivity]).
  - apply generate_n_primes_get; [exact Hb|]. clear - Hb Ha. lia.
Qed.
Lemma a_fuel a : a <= pi (2 ^ 31 - 1) -> a < 2 ^ 300.
Proof.
  intros H. assert (pi (2 ^ 31 - 1) <= 2 ^ 31 - 1) by (apply pi_le; discriminate).
  assert (2 ^ 31 < 2 ^ 300) by reflexivity. lia.
Qed.

Lemma phi_sum_64_ok x a : x <= smax 64 -> 0 <= a <= pi (2 ^ 31 - 1) -> phi_sum_64 x a = Ok (phi_sum x a).
Proof.
  intros Hx Ha. unfold phi_sum_64. destruct (Z.ltb_spec x 1).
  - now rewrite phi_sum_x0 by lia.
  - rewrite phi_sum128_ok; [now rewrite Z.mul_1_l|now left|lia|lia| |].
    + apply a_fuel. apply Ha. + apply phi_sum_table_good. apply Ha.
Qed.

Lemma phi_sum_128_ok x a : smin 64 <= x <= smax 128 -> 0 <= a <= pi (2 ^ 31 - 1) -> window_free x a ->
  wp (phi_sum_128 x a) (fun r => rep256 r (phi_sum x a)).
Proof.
  intros Hx Ha WF. unfold phi_sum_128. destruct (Z.leb_spec x (smax 64)).
  - rewrite swrap_id by (unfold in_s; lia). rewrite phi_sum_64_ok by lia. cbn [bind wp].
    apply rep_native. pose proof (phi_sum_nonneg x a).
    assert (P : 2 ^ 128 = 4 * 2 ^ 63 * 2 ^ 63) by reflexivity.
    assert (P1 : 0 < 2 ^ 127) by reflexivity.
    destruct (Z.lt_ge_cases x 0). { rewrite phi_sum_x0 by lia. split; [lia|reflexivity]. }
    pose proof (phi_sum_le x a ltac:(lia)). unfold smax in *. change (64 - 1) with 63 in *. nia.
  - assert (E : x = x / 1) by (now rewrite Z.div_1_r). assert (S64 : 0 < smax 64) by reflexivity.
    rewrite E at 1. eapply wp_mono.
    + apply (phi_sum256_ok x a WF (a_fuel a (proj2 Ha)) (S (Z.to_nat a)) 1); [lia|reflexivity|now left| | |lia| |lia|].
      * apply rough_1.
      * intros q Hq D. apply Z.divide_1_r_nonneg in D; [|apply prime_ge_2 in Hq; lia]. subst. now apply not_prime_1 in Hq.
      * rewrite Z.div_1_r; lia.
      * apply phi_sum_table_good. apply Ha.
    + cbn beta. intros r. rewrite <- E. rewrite Z.mul_1_l. auto.
Qed.

(** without any assumption the 256-bit version terminates with some value *)
Lemma phi_sum256_total n : forall s x a primes, s = 1 \/ s = -1 -> 1 <= x <= smax 128 -> 0 <= a < Z.of_nat n -> a < 2 ^ 300 -> good_table primes a ->
  wp (phi_sum256 n s x a primes) (fun _ => True).
Proof.
  induction n as [|n IH]; intros s x a primes Hs Hx Ha Ha3 G; [lia|]. cbn [phi_sum256].
  apply (loop_rule _ (fun st => 0 <= fst st <= a) (fun st => fst st)).
  - intros [b sum] Hb. cbn [fst] in *. destruct (Z.gtb_spec b 0) as [Hb0|Hb0].
    + destruct (G b) as (p & Ep & Hp & Pp & Lp); [lia|]. rewrite Ep. cbn [bind]. pose proof (prime_ge_2 p Hp).
      destruct (Z.leb_spec x p); [exact I|].
      rewrite (fast_div_gt_ok i128 i32); cbn [bind]; try lia.
      2:{ simpl; auto. } 2:{ simpl; auto. } 2:{ reflexivity. }
      2:{ unfold in_t, tmin, tmax, tdigits; simpl. unfold smax in Hx. simpl in Hx. lia. }
      2:{ unfold in_t, tmin, tmax, tdigits; simpl. lia. }
      assert (X2 : 1 <= x / p <= x). { split; [apply Z.div_le_lower_bound; lia|apply Z.div_le_upper_bound; nia]. }
      apply wp_bind. apply (wp_mono _ (fun _ => True)).
      * destruct (Z.leb_spec (x / p) (smax 64)).
        -- rewrite phi_sum128_ok; [exact I|lia|lia|lia|lia|apply (good_table_mono _ a); auto; lia].
        -- apply IH; try lia. apply (good_table_mono _ a); auto; lia.
      * intros v _. cbn [wp fst]. lia.
    + unfold shr256. destruct (1 >=? 128) eqn:E; [discriminate|]. unfold ushr, ushl. cbn [Z.leb Z.ltb Z.compare andb Pos.compare Pos.compare_cont]. exact I.
  - cbn [fst]. lia.
  - cbn [fst]. assert (2 ^ 300 < 2 ^ 400) by reflexivity. lia.
Qed.
Lemma phi_sum_128_total x a : smin 64 <= x <= smax 128 -> 0 <= a <= pi (2 ^ 31 - 1) -> exists r, phi_sum_128 x a = Ok r.
Proof.
  intros Hx Ha. assert (W : wp (phi_sum_128 x a) (fun _ => True)); [|destruct (wp_inv _ _ W) as (r & E & _); eauto].
  unfold phi_sum_128. destruct (Z.leb_spec x (smax 64)).
  - rewrite swrap_id by (unfold in_s; lia). rewrite phi_sum_64_ok by lia. exact I.
  - assert (0 < smax 64) by reflexivity. apply phi_sum256_total; [now left|lia|lia|apply a_fuel; lia|apply phi_sum_table_good; lia].
Qed.

(** every x below the first failure is free of the defect *)
Definition first_bad : Z := 52175271301331128848.
Lemma window_free_small x a : x < first_bad -> window_free x a.
Proof.
  intros Hx m p Hm Hmu Hp Hd _ [W1 W2].
  assert (M2 : 2 <= m). { pose proof (prime_ge_2 p Hp). apply Z.divide_pos_le in Hd; lia. }
  destruct (Z.lt_ge_cases (x / m) 0) as [L|L].
  { rewrite phi_sum_x0 in W1 by lia. assert (0 < 2 ^ 128 - 2 ^ 64) by reflexivity. lia. }
  pose proof (phi_sum_le (x / m) (pi p - 1) L) as U.
  assert (Hq : x / m <= 26087635650665564423).
  { unfold first_bad in Hx. assert (0 <= x). { destruct (Z.lt_ge_cases x 0); auto. assert (x / m < 0) by (apply Z.div_lt_upper_bound; lia). lia. }
    transitivity (x / 2); [apply Z.div_le_compat_l; lia|]. apply Z.lt_succ_r. apply Z.div_lt_upper_bound; lia. }
  change (2 ^ 128 - 2 ^ 64) with 340282366920938463444927863358058659840 in W1.
  clear - U Hq W1 L. nia.
Qed.
Lemma window_free_64 x a : x <= smax 64 -> window_free x a.
Proof. intros. apply window_free_small. unfold smax in *. change (2 ^ (64 - 1)) with 9223372036854775808 in *. unfold first_bad. lia. Qed.

Lemma phi_sum_1_eval x : 0 <= x -> phi_sum x 1 = x * (x + 1) / 2 - 2 * (x / 2 * (x / 2 + 1) / 2).
Proof.
  intros H. pose proof (phi_sum_step 2 x prime_2) as R. change (pi 2) with 1 in R.
  rewrite R. change (1 - 1) with 0. rewrite !phi_sum_0; auto. apply Z.div_pos; lia.
Qed.

(** phi_sum of the first bad argument *)
Lemma phi_sum_128_wrong : exists r, phi_sum_128 first_bad 1 = Ok r /\
  sval r = phi_sum first_bad 1 + 2 ^ 128.
Proof.
  eexists. split; [vm_compute; reflexivity|].
  rewrite phi_sum_1_eval by discriminate. vm_compute. reflexivity.
Qed.

(** products of distinct primes out of {2} *)
Lemma odd_only_two m p : 1 <= m -> mu m = -1 -> prime p -> (p | m) ->
  (forall q, prime q -> (q | m) -> p <= q /\ pi q <= 1) -> m = 2 /\ p = 2.
Proof.
  intros Hm Hmu Hp Hd Hq.
  assert (T : forall q, prime q -> (q | m) -> q = 2).
  { intros q Pq Dq. destruct (Hq q Pq Dq) as [_ L]. pose proof (pi_pos_prime q Pq).
    apply prime_pi_inj; auto using prime_2. change (pi 2) with 1. lia. }
  assert (p = 2) by now apply T. subst p. split; auto.
  destruct Hd as [k ->]. assert (Hk : 1 <= k) by lia.
  destruct (Z.eq_dec k 1) as [->|Nk]; auto. exfalso.
  destruct (exists_prime_divisor k ltac:(lia)) as (q & Pq & Dq).
  assert (q = 2) by (apply T; auto; now apply Z.divide_mul_l). subst q.
  rewrite (Z.mul_comm k 2), mu_mul_div in Hmu; auto; lia.
Qed.

Lemma one_le_pi31 : 1 <= pi (2 ^ 31 - 1).
Proof.
  apply (Z.le_trans _ (pi 2)).
  - vm_compute. discriminate.
  - apply pi_mono. vm_compute. discriminate.
Qed.
