(** Correctness of the model of src/S1.cpp. *)
From Coq Require Import ZArith List Bool Lia Znumtheory.
From Verif.Base Require Import Res Word Zl Par.
From Verif.Spec Require Import Primes IntSpec LMOSpec PhiSumSpec.
From Verif.Model Require Import Int256 Accum Primesieve PhiSum S1.
From Verif.Proofs Require Import Int256 Primes NT LMO Primesieve PhiSum Phi Accum Bounds.
Import ListNotations.
Open Scope Z_scope.
Local Ltac Zify.zify_post_hook ::= idtac.

(** Sum of the weights h (n0 * m) over the square free m <= y / n0 without the first b primes *)
Definition V (h : Z -> Z) (y b n0 : Z) : Z :=
  sumr 1 (y / n0 + 1) (fun m => if roughb b m then if mu m =? 0 then 0 else h (n0 * m) else 0).

Lemma V_step h y p n0 : prime p -> 1 <= n0 -> V h y (pi p - 1) n0 = V h y (pi p) n0 + V h y (pi p) (n0 * p).
Proof.
  intros Hp Hn. pose proof (prime_ge_2 p Hp). unfold V.
  assert (E : sumr 1 (y / (n0 * p) + 1) (fun m => if roughb (pi p) m then if mu m =? 0 then 0 else h (n0 * p * m) else 0) =
    sumr 1 (y / n0 + 1) (fun m => if m mod p =? 0 then (if roughb (pi p - 1) m then if mu m =? 0 then 0 else h (n0 * m) else 0) else 0)).
  { rewrite sumr_multiples by lia. rewrite Z.div_div by lia. apply sumr_ext. intros m Hm.
    rewrite roughb_mul by (auto; lia). rewrite roughb_step by (auto; lia). rewrite <- Z.mul_assoc.
    destruct (roughb (pi p - 1) m); cbn [andb]; auto. destruct (m mod p =? 0) eqn:E.
    - rewrite mu_mul_div; [reflexivity|auto|lia|]. apply mod0_divide; auto; lia.
    - rewrite mu_mul; [|auto|lia|]. { cbn [negb]. destruct (Z.eqb_spec (mu m) 0) as [->|]; [reflexivity|]. destruct (Z.eqb_spec (- mu m) 0); [lia|reflexivity]. }
      apply mod0_false; auto; lia. }
  rewrite E, <- sumr_add. apply sumr_ext. intros m Hm. rewrite roughb_step by (auto; lia).
  destruct (m mod p =? 0), (roughb (pi p - 1) m); cbn [andb negb]; lia.
Qed.

Lemma V_last h y b n0 : 1 <= n0 <= y -> pi (y / n0) <= b -> V h y b n0 = h n0.
Proof.
  intros Hn Hb. unfold V. assert (1 <= y / n0) by (apply Z.div_le_lower_bound; lia).
  rewrite (sumr_single 1 (y / n0 + 1) 1); [|lia|].
  - rewrite roughb_1, mu_1, Z.mul_1_r. reflexivity.
  - intros m Hm Hm1. destruct (roughb b m) eqn:E; auto. apply roughb_spec in E; [|lia].
    exfalso. apply Hm1. apply (rough_above (y / n0)); [lia|]. now apply (rough_mono _ b).
Qed.

Definition Vabs (h : Z -> Z) : Z -> Z -> Z -> Z := V (fun n => Z.abs (h n)).
Lemma V_abs h y b n0 : Z.abs (V h y b n0) <= Vabs h y b n0.
Proof.
  unfold Vabs, V. eapply Z.le_trans; [apply sumr_abs|]. apply sumr_le. intros m Hm. destruct (roughb b m); [|lia]. destruct (mu m =? 0); lia.
Qed.
Lemma Vabs_nonneg h y b n0 : 0 <= Vabs h y b n0.
Proof. unfold Vabs, V. apply sumr_nonneg. intros m Hm. destruct (roughb b m); [|lia]. destruct (mu m =? 0); lia. Qed.
Lemma Vabs_ge h y b n0 : 1 <= n0 <= y -> Z.abs (h n0) <= Vabs h y b n0.
Proof.
  intros Hn. unfold Vabs, V. assert (1 <= y / n0) by (apply Z.div_le_lower_bound; lia). rewrite sumr_cons by lia. rewrite roughb_1, mu_1, Z.mul_1_r.
  change (1 =? 0) with false. cbv iota. match goal with |- _ <= _ + ?s => assert (0 <= s); [|lia] end.
  apply sumr_nonneg. intros m Hm. destruct (roughb b m); [|lia]. destruct (mu m =? 0); lia.
Qed.

Section S1.
  (** [P] is the value of the machine-level phi_sum(., c), h n the value of the leaf n *)
  Context (w x y c : Z) (P h : Z -> Z).
  Let W := next_larger w.
  Hypothesis Hw : w = 64 \/ w = 128.
  Hypothesis Hx : 0 <= x.
  Hypothesis Hy : 1 <= y.
  Hypothesis Hyw : y * y <= smax w.
  Hypothesis Hc : 0 <= c.
  Hypothesis Hphi : forall n, 1 <= n <= y -> phi_sum_X w (x / n) c = Ok (P (x / n)).
  Hypothesis Hh1 : P x = swrap W (h 1).
  Hypothesis Hhp : forall p, prime p -> p <= y -> t_mul W (P (x / p)) p = Ok (swrap W (- h p)).
  Hypothesis Hh : forall n, 2 <= n <= y -> ~ prime n -> mu n <> 0 -> t_mul W (P (x / n)) (mu n * n) = Ok (swrap W (h n)).
  Let primes := generate_primes y.

  Lemma HW : width W.
  Proof. apply width_next. Qed.

  Lemma S1_thread_ok n : forall MU b n0, 0 <= b < zlen primes -> zlen primes - b <= Z.of_nat n -> 2 <= n0 <= y ->
    mu n0 = - MU -> MU <> 0 -> (forall q, prime q -> (q | n0) -> pi q <= b) -> fits W (Vabs h y b n0 - Z.abs (h n0)) ->
    S1_thread n w MU x y b c n0 primes = Ok (swrap W (V h y b n0 - h n0)).
  Proof.
    pose proof (prime_table_len y) as Hlen. change (prime_table y) with primes in Hlen. pose proof HW as HW.
    induction n as [|n IH]; intros MU b0 n0 Hb0 Hn Hn0 Hmu HMU Hdiv HF; [lia|].
    apply wp_eq. cbn [S1_thread]. fold W.
    apply (loop_rule _ (fun '(b, s) => b0 + 1 <= b <= zlen primes /\
                          exists v, s = swrap W v /\ v = V h y b0 n0 - V h y (b - 1) n0 /\ Z.abs v + Vabs h y (b - 1) n0 <= Vabs h y b0 n0)
                       (fun '(b, _) => Z.max 0 (zlen primes - b))).
    - intros [b s] (Hb & v & -> & -> & Hv). destruct (Z.ltb_spec b (zlen primes)) as [L|L].
      + destruct (prime_table_get y b ltac:(lia)) as (p & E & Hp & Pb & Hpy). change (prime_table y) with primes in E.
        rewrite E, bind_Ok. pose proof (prime_ge_2 p Hp) as Hp2.
        rewrite schk_ok.
        2:{ unfold in_s. split; [|nia]. assert (smin w <= 0) by (destruct Hw as [-> | ->]; discriminate). nia. }
        rewrite bind_Ok. rewrite Z.gtb_ltb. destruct (Z.ltb_spec y (n0 * p)) as [Lt|Ge].
        * cbn [wp]. rewrite (V_last h y (b - 1) n0); [reflexivity|lia|].
          replace (b - 1) with (pi (p - 1)); [|rewrite <- Pb, (pi_prime p Hp); ring].
          apply pi_mono. assert (y / n0 < p); [|lia]. apply Z.div_lt_upper_bound; lia.
        * assert (Hnp : 2 <= n0 * p <= y) by nia.
          assert (Hpn : ~ (p | n0)). { intros D. specialize (Hdiv p Hp D). lia. }
          assert (Hmu2 : mu (n0 * p) = MU). { rewrite Z.mul_comm, mu_mul; auto; lia. }
          assert (Hcomp : ~ prime (n0 * p)).
          { intros Q. destruct (Znumtheory.prime_divisors _ Q p) as [C|[C|[C|C]]]; [exists n0; ring|nia|nia|nia|nia]. }
          pose proof (V_step h y p n0 Hp ltac:(lia)) as VS. rewrite Pb in VS.
          pose proof (V_step (fun n => Z.abs (h n)) y p n0 Hp ltac:(lia)) as VA. rewrite Pb in VA.
          change (V (fun n => Z.abs (h n))) with (Vabs h) in VA.
          pose proof (Vabs_ge h y b (n0 * p) ltac:(lia)) as G1. pose proof (Vabs_ge h y b n0 ltac:(lia)) as G2. pose proof (V_abs h y b (n0 * p)) as G3.
          rewrite Z.quot_div_nonneg by nia. rewrite Hphi by nia. rewrite bind_Ok.
          rewrite <- Hmu2 at 1. rewrite Hh by (auto; lia). rewrite bind_Ok.
          rewrite t_add_sw; [|exact HW|eapply fits_mono; [|exact HF]; lia]. rewrite bind_Ok.
          rewrite IH; [|lia|lia|lia|lia|lia| |].
          2:{ intros q Hq D. apply prime_mult in D; [|auto]. destruct D as [D|D]; [specialize (Hdiv q Hq D); lia|].
              rewrite (prime_div_prime q p Hq Hp D). lia. }
          2:{ eapply fits_mono; [|exact HF]. lia. }
          rewrite bind_Ok. rewrite t_add_sw; [|exact HW|].
          2:{ eapply fits_mono; [|exact HF].
              (* the terms below n0 * p *)
              assert (Z.abs (V h y b (n0 * p) - h (n0 * p)) <= Vabs h y b (n0 * p) - Z.abs (h (n0 * p))).
              { unfold Vabs, V. assert (1 <= y / (n0 * p)) by (apply Z.div_le_lower_bound; lia).
                rewrite !(sumr_cons 1) by lia. rewrite roughb_1, mu_1, Z.mul_1_r. change (1 =? 0) with false. cbv iota.
                match goal with |- Z.abs (_ + ?s - _) <= _ + ?t - _ => assert (Z.abs s <= t); [|lia] end.
                eapply Z.le_trans; [apply sumr_abs|]. apply sumr_le. intros m Hm. destruct (roughb b m); [|lia]. destruct (mu m =? 0); lia. }
              lia. }
          rewrite bind_Ok. cbn [wp]. split; [|lia]. split; [lia|]. replace (b + 1 - 1) with b by ring.
          eexists. split; [reflexivity|]. split; lia.
      + cbn [wp]. rewrite (V_last h y (b - 1) n0); [reflexivity|lia|]. replace (b - 1) with (pi y) by lia.
        apply pi_mono. apply Z.div_le_upper_bound; nia.
    - split; [lia|]. exists 0. replace (b0 + 1 - 1) with b0 by ring. split; [symmetry; apply swrap_0, HW|]. split; [ring|lia].
    - assert (zlen primes < 2 ^ 400); [|lia]. rewrite Hlen. pose proof (pi_le y ltac:(lia)).
      assert (y < 2 ^ 128).
      { assert (smax w < 2 ^ 128) by (destruct Hw as [-> | ->]; reflexivity). nia. }
      assert (2 ^ 128 + 1 < 2 ^ 400) by reflexivity. lia.
  Qed.

  Lemma V_telescope k : c <= pi y -> sumr (c + 1) (pi y + 1) (fun b => V k y (b - 1) 1 - V k y b 1) = V k y c 1 - k 1.
  Proof.
    intros Hcy. rewrite <- (V_last k y (pi y) 1); [|lia|rewrite Z.div_1_r; lia].
    replace (pi y) with (c + (pi y - c)) by ring. assert (Hd : 0 <= pi y - c) by lia.
    generalize dependent (pi y - c). intros d Hd. pattern d. apply natlike_ind; [| |exact Hd].
    - rewrite sumr_empty by lia. rewrite Z.add_0_r. ring.
    - intros i Hi IH. unfold Z.succ. replace (c + (i + 1) + 1) with ((c + i + 1) + 1) by ring.
      rewrite sumr_snoc by lia. rewrite IH. replace (c + i + 1 - 1) with (c + i) by ring.
      replace (c + (i + 1)) with (c + i + 1) by ring. ring.
  Qed.

  Lemma S1_master_ok sched : valid_sched sched -> fits W (Vabs h y c 1) -> S1_master sched w x y c = Ok (swrap W (V h y c 1)).
  Proof.
    intros HS HF. unfold S1_master. fold W. pose proof (prime_table_len y) as Hlen. change (prime_table y) with primes in Hlen.
    change (generate_primes y) with primes. pose proof HW as HW.
    replace (phi_sum_X w x c) with (Ok (P x)) by (rewrite <- (Z.div_1_r x); rewrite Hphi by lia; reflexivity).
    rewrite bind_Ok, Hh1.
    assert (TA : forall k, k 1 + sumr (c + 1) (zlen primes) (fun b => V k y (b - 1) 1 - V k y b 1) = V k y c 1).
    { intros k. rewrite Hlen. destruct (Z.le_gt_cases c (pi y)).
      + rewrite V_telescope by auto. lia.
      + rewrite sumr_empty by lia. rewrite (V_last k y c 1); [lia|lia|]. rewrite Z.div_1_r. lia. }
    rewrite (par_enc_ok _ _ (swrap W) (fits W) (fun _ => True) (fun b => V h y (b - 1) 1 - V h y b 1) (fun b => Vabs h y (b - 1) 1 - Vabs h y b 1) (c + 1) (zlen primes)).
    - do 2 f_equal. apply TA.
    - apply swrap_0, HW.
    - apply fits_mono.
    - intros a b. apply t_add_sw, HW.
    - intros b s [] Hb _ HB. destruct (prime_table_get y b ltac:(lia)) as (p & E & Hp & Pb & Hpy).
      change (prime_table y) with primes in E. rewrite E, bind_Ok. pose proof (prime_ge_2 p Hp) as Hp2.
      pose proof (V_step h y p 1 Hp ltac:(lia)) as VS. rewrite Pb, Z.mul_1_l in VS.
      pose proof (V_step (fun n => Z.abs (h n)) y p 1 Hp ltac:(lia)) as VA. rewrite Pb, Z.mul_1_l in VA.
      change (V (fun n => Z.abs (h n))) with (Vabs h) in VA. pose proof (Vabs_ge h y b p ltac:(lia)) as G1.
      rewrite Z.quot_div_nonneg by lia. rewrite Hphi by lia. rewrite bind_Ok.
      rewrite Hhp by (auto; lia). rewrite bind_Ok. rewrite t_sub_sw; [|exact HW|eapply fits_mono; [|exact HB]; lia]. rewrite bind_Ok.
      rewrite S1_thread_ok; [|lia|unfold zlen in *; lia|lia| |lia| |].
      2:{ rewrite <- (Z.mul_1_r p), mu_mul; [rewrite mu_1; reflexivity|auto|lia|]. intros D. apply Z.divide_1_r_nonneg in D; lia. }
      2:{ intros q Hq D. rewrite (prime_div_prime q p Hq Hp D). lia. }
      2:{ eapply fits_mono; [|exact HB]. lia. }
      rewrite bind_Ok. rewrite t_add_sw; [|exact HW|].
      2:{ eapply fits_mono; [|exact HB].
          assert (Z.abs (V h y b p - h p) <= Vabs h y b p - Z.abs (h p)).
          { unfold Vabs, V. assert (1 <= y / p) by (apply Z.div_le_lower_bound; lia).
            rewrite !(sumr_cons 1) by lia. rewrite roughb_1, mu_1, Z.mul_1_r. change (1 =? 0) with false. cbv iota.
            match goal with |- Z.abs (_ + ?s - _) <= _ + ?t - _ => assert (Z.abs s <= t); [|lia] end.
            eapply Z.le_trans; [apply sumr_abs|]. apply sumr_le. intros m Hm. destruct (roughb b m); [|lia]. destruct (mu m =? 0); lia. }
          lia. }
      rewrite bind_Ok. cbn [wp fst snd]. split; [|exact I]. f_equal. lia.
    - intros b Hb. destruct (prime_table_get y b ltac:(lia)) as (p & E & Hp & Pb & Hpy).
      pose proof (V_step h y p 1 Hp ltac:(lia)) as VS. rewrite Pb, Z.mul_1_l in VS.
      pose proof (V_step (fun n => Z.abs (h n)) y p 1 Hp ltac:(lia)) as VA. rewrite Pb, Z.mul_1_l in VA.
      change (V (fun n => Z.abs (h n))) with (Vabs h) in VA. pose proof (V_abs h y b p). lia.
    - apply HS.
    - exact I.
    - eapply fits_mono; [|exact HF]. pose proof (TA (fun n => Z.abs (h n))) as T. change (V (fun n => Z.abs (h n))) with (Vabs h) in T. cbv beta in T. lia.
  Qed.
End S1.

(** The exact value of the leaf n *)
Definition leaf1 (x c n : Z) : Z := mu n * n * phi_sum (x / n) c.
Lemma S1_sum_V x y c : V (leaf1 x c) y c 1 = S1_sum x y c.
Proof.
  unfold V, S1_sum, leaf1. rewrite Z.div_1_r. apply sumr_ext. intros m Hm. rewrite Z.mul_1_l.
  destruct (roughb c m); auto. destruct (Z.eqb_spec (mu m) 0) as [->|]; ring.
Qed.
Lemma phi_sum_sq t a : 0 <= t -> phi_sum t a <= t * t.
Proof.
  intros Ht. assert (phi_sum t a <= sumr 1 (t + 1) (fun n => n)).
  { unfold phi_sum. apply sumr_le. intros n Hn. destruct (roughb a n); lia. }
  pose proof (sumr_id t Ht). nia.
Qed.
Lemma leaf1_sq x c n : 0 <= x -> 1 <= n -> 0 <= n * phi_sum (x / n) c <= x * (x / n).
Proof.
  intros Hx Hn. assert (0 <= x / n) by (apply Z.div_pos; lia). pose proof (phi_sum_nonneg (x / n) c). pose proof (phi_sum_sq (x / n) c ltac:(lia)).
  split; [apply Z.mul_nonneg_nonneg; lia|]. pose proof (Z.mul_div_le x n ltac:(lia)).
  transitivity (n * (x / n * (x / n))); [apply Z.mul_le_mono_nonneg_l; lia|]. rewrite Z.mul_assoc. apply Z.mul_le_mono_nonneg_r; lia.
Qed.
Lemma leaf1_abs x c n : 0 <= x -> 1 <= n -> Z.abs (leaf1 x c n) <= n * phi_sum (x / n) c.
Proof.
  intros Hx Hn. unfold leaf1. pose proof (leaf1_sq x c n Hx Hn). rewrite <- Z.mul_assoc, Z.abs_mul. pose proof (mu_values n).
  rewrite (Z.abs_eq (n * _)) by lia. assert (Z.abs (mu n) = 0 \/ Z.abs (mu n) = 1) as [->| ->] by lia; lia.
Qed.
Definition S1_abs (x y c : Z) : Z := sumr 1 (y + 1) (fun n => if roughb c n then n * phi_sum (x / n) c else 0).
Lemma Vabs_S1_abs x y c : 0 <= x -> Vabs (leaf1 x c) y c 1 <= S1_abs x y c.
Proof.
  intros Hx. unfold Vabs, V, S1_abs. rewrite Z.div_1_r. apply sumr_le. intros n Hn. rewrite Z.mul_1_l. pose proof (leaf1_abs x c n Hx ltac:(lia)).
  pose proof (leaf1_sq x c n Hx ltac:(lia)). destruct (roughb c n); [|lia]. destruct (mu n =? 0); lia.
Qed.
Lemma harm A J : 0 <= A -> 0 <= J -> sumr 1 (2 ^ J) (fun n => A / n) <= J * A.
Proof.
  intros HA HJ. pattern J. apply natlike_ind; [| |exact HJ].
  - rewrite sumr_empty by lia. lia.
  - intros j Hj IH. rewrite Z.pow_succ_r by lia. assert (1 <= 2 ^ j) by (pose proof (Z.pow_pos_nonneg 2 j); lia). rewrite (sumr_split 1 (2 ^ j)) by lia.
    assert (sumr (2 ^ j) (2 * 2 ^ j) (fun n => A / n) <= A); [|lia].
    transitivity (sumr (2 ^ j) (2 * 2 ^ j) (fun _ => A / 2 ^ j)).
    + apply sumr_le. intros n Hn. apply Z.div_le_compat_l; lia.
    + rewrite sumr_const by lia. pose proof (Z.mul_div_le A (2 ^ j) ltac:(lia)). lia.
Qed.
Lemma S1_abs_crude x y c J : 0 <= x -> 0 <= J -> y < 2 ^ J -> S1_abs x y c <= J * (x * x).
Proof.
  intros Hx HJ Hy. unfold S1_abs. transitivity (sumr 1 (y + 1) (fun n => x * (x / n))).
  { apply sumr_le. intros n Hn. pose proof (leaf1_sq x c n Hx ltac:(lia)). destruct (roughb c n); lia. }
  transitivity (sumr 1 (2 ^ J) (fun n => x * (x / n))).
  { destruct (Z.lt_ge_cases y 0). { rewrite sumr_empty by lia. apply sumr_nonneg. intros n Hn. apply Z.mul_nonneg_nonneg; [lia|apply Z.div_pos; lia]. }
    rewrite (sumr_split 1 (y + 1) (2 ^ J)) by lia. assert (0 <= sumr (y + 1) (2 ^ J) (fun n => x * (x / n))); [|lia].
    apply sumr_nonneg. intros n Hn. apply Z.mul_nonneg_nonneg; [lia|apply Z.div_pos; lia]. }
  rewrite (sumr_scal 1 (2 ^ J) x (fun n => x / n)). pose proof (harm x J Hx HJ). replace (J * (x * x)) with (x * (J * x)) by ring. apply Z.mul_le_mono_nonneg_l; assumption.
Qed.
Lemma S1_abs_G6 x y c : 0 <= x -> 2 <= c -> S1_abs x y c <= G6 x 0 y.
Proof.
  intros Hx Hc. unfold S1_abs, G6. change (0 + 1) with 1. apply sumr_le. intros n Hn. pose proof (S6_nonneg (x / n)).
  destruct (roughb c n) eqn:E.
  - rewrite (rough_c6 c n Hc ltac:(lia) E). apply Z.mul_le_mono_nonneg_l; [lia|]. now apply phi_sum_S6.
  - destruct (c6 n); [apply Z.mul_nonneg_nonneg; lia|lia].
Qed.
Lemma S1_abs_128 x y c : 0 <= x < 2 ^ 63 -> 1 <= y < 2 ^ 32 -> 2 <= c \/ y <= 3 \/ x < 2 ^ 60 -> S1_abs x y c <= 2 ^ 127 - 1.
Proof.
  intros Hx Hy H. change (2 ^ 63) with 9223372036854775808 in *. change (2 ^ 127 - 1) with 170141183460469231731687303715884105727. change (2 ^ 60) with 1152921504606846976 in *. change (2 ^ 32) with 4294967296 in *.
  assert (SQ : forall B, x <= B -> x * x <= B * B) by (intros B HB; apply Z.mul_le_mono_nonneg; lia).
  destruct (Z.lt_ge_cases x 1152921504606846976) as [L|G].
  - pose proof (S1_abs_crude x y c 32 ltac:(lia) ltac:(lia) ltac:(lia)). specialize (SQ 1152921504606846975 ltac:(lia)). lia.
  - specialize (SQ 9223372036854775807 ltac:(lia)). destruct H as [H|[H|H]]; [| |lia].
    + pose proof (S1_abs_G6 x y c ltac:(lia) H). pose proof (G6_full x y 30 ltac:(lia) ltac:(lia) ltac:(lia) ltac:(change (6 * 2 ^ 30) with 6442450944; lia)) as F.
      assert (x * (y + 7) <= 9223372036854775807 * 4294967302) by (apply Z.mul_le_mono_nonneg; lia). lia.
    + pose proof (S1_abs_crude x y c 2 ltac:(lia) ltac:(lia) ltac:(lia)). lia.
Qed.
Lemma S1_abs_256 x y c : 0 <= x < 2 ^ 124 -> y < 2 ^ 63 -> S1_abs x y c <= 2 ^ 255 - 1.
Proof.
  intros Hx Hy. pose proof (S1_abs_crude x y c 63 ltac:(lia) ltac:(lia) Hy). assert (x * x <= 2 ^ 124 * 2 ^ 124) by (apply Z.mul_le_mono_nonneg; lia).
  assert (63 * (2 ^ 124 * 2 ^ 124) < 2 ^ 255 - 1) by reflexivity. lia.
Qed.
Lemma S1_sum_abs x y c : 0 <= x -> Z.abs (S1_sum x y c) <= S1_abs x y c.
Proof. intros Hx. rewrite <- S1_sum_V. eapply Z.le_trans; [apply V_abs|now apply Vabs_S1_abs]. Qed.

(** The leaf n as int256_t computes it, for whatever the machine-level phi_sum returns *)
Definition tm (a b : Z) : Z := sval (mul256 (of_Z256 a) (of_Z256 b)).
Definition leaf256 (P : Z -> Z) (x n : Z) : Z :=
  if n =? 1 then P x else if primeb n then - tm (P (x / n)) n else tm (P (x / n)) (mu n * n).
Definition S1_val (P : Z -> Z) (x y c : Z) : Z := V (leaf256 P x) y c 1.

Lemma t_mul_tm a b : t_mul 256 a b = Ok (tm a b). Proof. reflexivity. Qed.
Lemma tm_range a b : swrap 256 (tm a b) = tm a b.
Proof. destruct (t_mul_256 a b) as (r & E & R). rewrite t_mul_tm in E. injection E as ->. exact R. Qed.
Lemma tm_exact x c n s : 0 <= x < 2 ^ 124 -> 2 <= n < 2 ^ 63 -> s = 1 \/ s = -1 -> tm (phi_sum (x / n) c) (s * n) = s * (n * phi_sum (x / n) c).
Proof.
  intros Hx Hn Hs. pose proof (leaf1_sq x c n ltac:(lia) ltac:(lia)) as L. assert (0 <= x / n <= x). { split; [apply Z.div_pos; lia|]. apply Z.div_le_upper_bound; nia. }
  assert (x * (x / n) <= 2 ^ 124 * 2 ^ 124) by (apply Z.mul_le_mono_nonneg; lia). pose proof (phi_sum_nonneg (x / n) c).
  assert (phi_sum (x / n) c <= n * phi_sum (x / n) c) by nia. assert (M : smax 256 = 2 ^ 255 - 1) by reflexivity.
  assert (2 ^ 124 * 2 ^ 124 < 2 ^ 255 - 1) by reflexivity. assert (2 ^ 63 < 2 ^ 127) by reflexivity. assert (2 ^ 127 < 2 ^ 255 - 1) by reflexivity.
  assert (E : phi_sum (x / n) c * (s * n) = s * (n * phi_sum (x / n) c)) by ring.
  pose proof (t_mul_ok 256 (phi_sum (x / n) c) (s * n) width_256) as T. rewrite t_mul_tm in T.
  assert (Ok (tm (phi_sum (x / n) c) (s * n)) = Ok (phi_sum (x / n) c * (s * n))) as Q; [|injection Q as ->; exact E].
  apply T; rewrite ?M, ?E; destruct Hs as [-> | ->]; lia.
Qed.
Lemma leaf256_exact P x c n : 0 <= x < 2 ^ 124 -> 2 <= n < 2 ^ 63 -> mu n <> 0 -> P (x / n) = phi_sum (x / n) c -> leaf256 P x n = leaf1 x c n.
Proof.
  intros Hx Hn Hm HP. unfold leaf256, leaf1. destruct (Z.eqb_spec n 1); [lia|]. rewrite HP. destruct (primeb n) eqn:E.
  - apply primeb_spec in E. assert (mu n = -1) as ->.
    { rewrite <- (Z.mul_1_r n), mu_mul; [rewrite mu_1; reflexivity|auto|lia|]. intros D. apply Z.divide_1_r_nonneg in D; lia. }
    rewrite <- (Z.mul_1_l n) at 2. rewrite tm_exact; auto. ring.
  - pose proof (mu_values n). rewrite tm_exact by (auto; lia). ring.
Qed.
Lemma S1_val_exact P x y c : 0 <= x < 2 ^ 124 -> 1 <= y < 2 ^ 63 -> (forall n, 2 <= n <= y -> P (x / n) = phi_sum (x / n) c) ->
  S1_val P x y c = S1_sum x y c + (P x - phi_sum x c).
Proof.
  intros Hx Hy HP. rewrite <- S1_sum_V. unfold S1_val, V. rewrite Z.div_1_r. rewrite !(sumr_cons 1) by lia. rewrite roughb_1, mu_1, Z.mul_1_l.
  change (1 =? 0) with false. cbv iota. change (leaf256 P x 1) with (P x). unfold leaf1 at 1. rewrite mu_1, Z.div_1_r.
  rewrite (sumr_ext (1 + 1) (y + 1) _ (fun m => if roughb c m then if mu m =? 0 then 0 else leaf1 x c (1 * m) else 0)); [ring|].
  intros n Hn. destruct (roughb c n); auto. destruct (Z.eqb_spec (mu n) 0); auto. rewrite Z.mul_1_l. apply leaf256_exact; auto; try lia. apply HP. lia.
Qed.

(** S1 with whatever the machine-level phi_sum returns *)
Theorem S1_256 sched x y c P : valid_sched sched -> 0 <= x < 2 ^ 127 -> 1 <= y < 2 ^ 63 -> 0 <= c ->
  (forall n, 1 <= n <= y -> phi_sum_X 128 (x / n) c = Ok (P (x / n))) -> swrap 256 (P x) = P x ->
  S1_master sched 128 x y c = Ok (swrap 256 (S1_val P x y c)).
Proof.
  intros HS Hx Hy Hc HP HPx. assert (SM : smax 128 = 2 ^ 127 - 1) by reflexivity.
  apply (S1_master_ok 128 x y c P (leaf256 P x)); auto; try lia.
  - rewrite SM. nia.
  - intros p Hp Hpy. change (next_larger 128) with 256. pose proof (prime_ge_2 p Hp). rewrite t_mul_tm. f_equal. unfold leaf256. destruct (Z.eqb_spec p 1); [lia|].
    replace (primeb p) with true by (symmetry; now apply primeb_spec). rewrite Z.opp_involutive. symmetry. apply tm_range.
  - intros n Hn Hnp Hmu. change (next_larger 128) with 256. rewrite t_mul_tm. f_equal. unfold leaf256. destruct (Z.eqb_spec n 1); [lia|].
    destruct (primeb n) eqn:E; [apply primeb_spec in E; contradiction|]. symmetry. apply tm_range.
  - now left.
Qed.

Lemma phi_sum_X_range x c r : phi_sum_X 128 x c = Ok r -> swrap 256 r = r.
Proof.
  unfold phi_sum_X. change (128 =? 64) with false. cbv iota. destruct (phi_sum_128 x c); [|discriminate]. rewrite bind_Ok. intros E. injection E as <-.
  apply swrap_id; [lia|]. apply sval_range.
Qed.
Lemma phi_sum_X_128 x c : 0 <= x < 2 ^ 127 -> 0 <= c <= pi (2 ^ 31 - 1) -> window_free x c -> phi_sum_X 128 x c = Ok (phi_sum x c).
Proof.
  intros Hx Hc HW. unfold phi_sum_X. change (128 =? 64) with false. cbv iota. assert (S1 : smax 128 = 2 ^ 127 - 1) by reflexivity.
  destruct (wp_inv _ _ (phi_sum_128_ok x c ltac:(change (smin 64) with (- 2 ^ 63); lia) Hc HW)) as (r & E & _ & V). rewrite E, bind_Ok. now rewrite V.
Qed.

Lemma S1_64 sched x y c : valid_sched sched -> 0 <= x < 2 ^ 63 -> 1 <= y < 2 ^ 32 -> y * y <= smax 64 -> 0 <= c <= pi (2 ^ 31 - 1) -> 2 <= c \/ y <= 3 \/ x < 2 ^ 60 ->
  S1_master sched 64 x y c = Ok (S1_sum x y c).
Proof.
  intros HS Hx Hy Hsq Hc Hb. assert (S0 : smax 64 = 2 ^ 63 - 1) by reflexivity. pose proof (S1_abs_128 x y c Hx Hy Hb) as HA. change (2 ^ 127 - 1) with (smax 128) in HA.
  assert (HV : Vabs (leaf1 x c) y c 1 <= smax 128) by (eapply Z.le_trans; [apply Vabs_S1_abs; lia|exact HA]).
  assert (HL : forall n, 1 <= n <= y -> Z.abs (n * phi_sum (x / n) c) <= smax 128).
  { intros n Hn. pose proof (leaf1_sq x c n ltac:(lia) ltac:(lia)). assert (0 <= x / n <= x). { split; [apply Z.div_pos; lia|]. apply Z.div_le_upper_bound; nia. }
    assert (x * (x / n) <= 2 ^ 63 * 2 ^ 63) by (apply Z.mul_le_mono_nonneg; lia). assert (2 ^ 63 * 2 ^ 63 <= smax 128) by discriminate. lia. }
  assert (HP : forall n, 1 <= n <= y -> 0 <= phi_sum (x / n) c <= smax 128).
  { intros n Hn. specialize (HL n Hn). pose proof (phi_sum_nonneg (x / n) c). split; [lia|]. nia. }
  assert (C1 : 2 ^ 32 < 2 ^ 127) by reflexivity. assert (C2 : 2 ^ 32 <= smax 128) by discriminate.
  rewrite (S1_master_ok 64 x y c (fun n => phi_sum n c) (leaf1 x c)); auto; try lia; change (next_larger 64) with 128.
  - rewrite S1_sum_V. f_equal. apply swrap_small; [apply width_128|]. eapply Z.le_trans; [apply S1_sum_abs; lia|exact HA].
  - intros n Hn. assert (0 <= x / n <= x). { split; [apply Z.div_pos; lia|]. apply Z.div_le_upper_bound; nia. }
    unfold phi_sum_X. change (64 =? 64) with true. cbv iota. apply phi_sum_64_ok; auto. lia.
  - unfold leaf1. rewrite mu_1, Z.div_1_r. specialize (HP 1 ltac:(lia)). rewrite Z.div_1_r in HP. rewrite swrap_small; [ring|apply width_128|lia].
  - intros p Hp Hpy. pose proof (prime_ge_2 p Hp). specialize (HP p ltac:(lia)). specialize (HL p ltac:(lia)).
    assert (E : phi_sum (x / p) c * p = - leaf1 x c p).
    { unfold leaf1. assert (mu p = -1) as ->; [|ring]. rewrite <- (Z.mul_1_r p), mu_mul; [rewrite mu_1; reflexivity|auto|lia|]. intros D. apply Z.divide_1_r_nonneg in D; lia. }
    rewrite (Z.mul_comm p), E in HL. rewrite t_mul_ok, E; [|apply width_128|lia|lia|lia]. f_equal. symmetry. apply swrap_small; [apply width_128|lia].
  - intros n Hn _ Hm. specialize (HP n ltac:(lia)). specialize (HL n ltac:(lia)). pose proof (mu_values n) as Hmu.
    assert (E : phi_sum (x / n) c * (mu n * n) = leaf1 x c n) by (unfold leaf1; ring). pose proof (leaf1_abs x c n ltac:(lia) ltac:(lia)) as LA.
    rewrite t_mul_ok, E; [|apply width_128|lia|nia|lia]. f_equal. symmetry. apply swrap_small; [apply width_128|lia].
  - right. exact HV.
Qed.

(** S1 with whatever the machine-level phi_sum returns, for 64-bit x and above *)
Theorem S1_ok_gen sched x y c P : valid_sched sched -> 0 <= x < 2 ^ 124 -> 1 <= y < 2 ^ 63 -> 0 <= c <= pi (2 ^ 31 - 1) ->
  (x <= smax 64 -> y <= 2 ^ 32 - 1 -> y * y <= smax 64) -> 2 <= c \/ y <= 3 \/ x < 2 ^ 60 ->
  (forall n, 1 <= n <= y -> phi_sum_X 128 (x / n) c = Ok (P (x / n))) ->
  S1 sched x y c = Ok (swrap 256 (S1_val P x y c)).
Proof.
  intros HS Hx Hy Hc Hsq Hb HP. unfold S1. assert (S0 : smax 64 = 2 ^ 63 - 1) by reflexivity.
  assert (Hdiv : forall n, 1 <= n -> 0 <= x / n <= x).
  { intros n Hn. split; [apply Z.div_pos; lia|]. apply Z.div_le_upper_bound; nia. }
  assert (C : 2 ^ 124 < 2 ^ 127) by reflexivity.
  assert (HPx : swrap 256 (P x) = P x). { apply (phi_sum_X_range x c). rewrite <- (Z.div_1_r x). apply HP. lia. }
  assert (H128 : S1_master sched 128 x y c = Ok (swrap 256 (S1_val P x y c))) by (apply S1_256; auto; lia).
  destruct (Z.leb_spec y (2 ^ 32 - 1)); [|exact H128]. destruct (Z.leb_spec x (smax 64)); [|exact H128].
  rewrite swrap_id by (unfold in_s; change (smin 64) with (- 2 ^ 63); lia).
  rewrite S1_64; auto; try lia.
  assert (HE : forall n, 1 <= n <= y -> P (x / n) = phi_sum (x / n) c).
  { intros n Hn. specialize (Hdiv n ltac:(lia)). specialize (HP n Hn). rewrite phi_sum_X_128 in HP; [|lia|lia|apply window_free_64; lia]. now injection HP. }
  rewrite S1_val_exact; [|lia|lia|intros n Hn; apply HE; lia]. specialize (HE 1 ltac:(lia)). rewrite Z.div_1_r in HE. rewrite HE.
  replace (S1_sum x y c + (phi_sum x c - phi_sum x c)) with (S1_sum x y c) by ring. f_equal. symmetry. apply swrap_small; [apply width_256|].
  eapply Z.le_trans; [apply S1_sum_abs; lia|]. apply S1_abs_256; lia.
Qed.

Theorem S1_ok sched x y c : valid_sched sched -> 0 <= x < 2 ^ 124 -> 1 <= y < 2 ^ 63 -> 0 <= c <= pi (2 ^ 31 - 1) ->
  (x <= smax 64 -> y <= 2 ^ 32 - 1 -> y * y <= smax 64) -> 2 <= c \/ y <= 3 \/ x < 2 ^ 60 ->
  (forall n, 1 <= n <= y -> window_free (x / n) c) ->
  S1 sched x y c = Ok (S1_sum x y c).
Proof.
  intros HS Hx Hy Hc Hsq Hb HW. assert (C : 2 ^ 124 < 2 ^ 127) by reflexivity. rewrite (S1_ok_gen sched x y c (fun n => phi_sum n c)); auto.
  - rewrite S1_val_exact; auto. replace (_ + _) with (S1_sum x y c) by ring. f_equal. apply swrap_small; [apply width_256|].
    eapply Z.le_trans; [apply S1_sum_abs; lia|]. apply S1_abs_256; lia.
  - intros n Hn. assert (0 <= x / n <= x). { split; [apply Z.div_pos; lia|]. apply Z.div_le_upper_bound; nia. }
    apply phi_sum_X_128; auto. lia.
Qed.

(** wrong only at the root by E: the result is wrong by E *)
Theorem S1_ok_err sched x y c E : valid_sched sched -> smax 64 < x < 2 ^ 124 -> 1 <= y < 2 ^ 63 -> 2 <= c <= pi (2 ^ 31 - 1) ->
  phi_sum_X 128 x c = Ok (phi_sum x c + E) -> (forall n, 2 <= n <= y -> window_free (x / n) c) ->
  S1 sched x y c = Ok (swrap 256 (S1_sum x y c + E)).
Proof.
  intros HS Hx Hy Hc HE HW. assert (S0 : smax 64 = 2 ^ 63 - 1) by reflexivity. assert (C : 2 ^ 124 < 2 ^ 127) by reflexivity.
  set (P := fun n => if n =? x then phi_sum n c + E else phi_sum n c).
  assert (PN : forall n, 2 <= n <= y -> 0 <= x / n < x). { intros n Hn. split; [apply Z.div_pos; lia|apply Z.div_lt; lia]. }
  rewrite (S1_ok_gen sched x y c P); auto; try lia.
  - rewrite S1_val_exact; [|lia|lia|].
    + unfold P. rewrite Z.eqb_refl. do 2 f_equal. ring.
    + intros n Hn. specialize (PN n Hn). unfold P. destruct (Z.eqb_spec (x / n) x); [lia|reflexivity].
  - intros n Hn. destruct (Z.eq_dec n 1) as [->|].
    + rewrite Z.div_1_r. unfold P. now rewrite Z.eqb_refl.
    + specialize (PN n ltac:(lia)). unfold P. destruct (Z.eqb_spec (x / n) x); [lia|]. apply phi_sum_X_128; [lia|lia|]. apply HW. lia.
Qed.
