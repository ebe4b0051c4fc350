(** Correctness of the model of src/lmo/pi_lmo1.cpp. *)
From Coq Require Import ZArith List Bool Lia Znumtheory.
From Verif.Base Require Import Res Word Zl Arr IType Par.
From Verif.Spec Require Import Primes IntSpec LMOSpec PhiSumSpec.
From Verif.Model Require Import Int256 Accum Imath Primesieve PhiSum Tables PhiTiny Phi P2 S1 Oracles LMO1.
From Verif.Proofs Require Import Primes NT LMO Imath Primesieve PhiSum Tables PhiTiny Phi P2 Leaf Accum Bounds S1.
Import ListNotations.
Open Scope Z_scope.
Local Ltac Zify.zify_post_hook ::= idtac.

Lemma map_swrap32 y : y < 2 ^ 31 -> map (swrap 32) (prime_table y) = prime_table y.
Proof.
  intros Hy. unfold prime_table. cbn [map]. f_equal.
  transitivity (map (fun p => p) (primes_upto y)); [|apply map_id]. apply map_ext_in. intros p Hp.
  apply in_primes_upto in Hp. destruct Hp as [Hp Hle]. pose proof (prime_ge_2 p Hp).
  apply swrap_id; [lia|]. unfold in_s, smin, smax. change (32 - 1) with 31. lia.
Qed.

Lemma iroot3_bounds x r0 : 0 <= r0 <= 2 ^ 43 -> 0 <= x <= tmax i128 ->
  exists r, iroot i128 3 r0 x = Ok r /\ 0 <= r /\ r ^ 3 <= x < (r + 1) ^ 3.
Proof.
  intros Hr Hx.
  destruct (iroot_widths i128 3) as (H1 & H2 & H3); [cbn; tauto|cbn; tauto|].
  apply iroot_all; auto.
Qed.

Lemma cube_lt a b : 0 <= a -> 0 <= b -> a ^ 3 < b ^ 3 -> a < b.
Proof. intros. apply (Z.pow_lt_mono_l_iff a b 3); lia. Qed.

(** [E] is the error of the 256-bit phi_sum at the root; 0 except for the
    refutation. *)
Lemma pi_lmo1_gen o x E : valid_oracles o -> 2 <= x < 2 ^ 92 -> 0 <= E <= 2 ^ 128 ->
  (forall y, 1 <= y -> y ^ 3 <= x < (y + 1) ^ 3 -> exists r, phi_sum_128 x (Z.min 6 (pi y)) = Ok r /\ sval r = phi_sum x (Z.min 6 (pi y)) + E) ->
  (forall n c, 2 <= n -> window_free (x / n) c) ->
  pi_lmo1 o x = Ok (prime_sum x + E).
Proof.
  intros (HO1 & HO2 & HO3 & HO4 & _) Hx HE0 HE HW. unfold pi_lmo1.
  destruct (Z.ltb_spec x 2); [lia|].
  assert (T1 : tmax i128 = 2 ^ 127 - 1) by reflexivity.
  assert (C92 : 2 ^ 92 < 2 ^ 127 - 1) by reflexivity.
  destruct (iroot3_bounds x (o_root o)) as (y & Ey & Hy0 & Hy); [lia|lia|].
  rewrite Ey, bind_Ok. cbv zeta.
  assert (Hy1 : 1 <= y). { destruct (Z.eq_dec y 0) as [->|]; [|lia]. change ((0 + 1) ^ 3) with 1 in Hy. lia. }
  assert (Hy31 : y < 2 ^ 31 - 2).
  { apply cube_lt; [lia|discriminate|]. eapply Z.le_lt_trans; [apply Hy|]. eapply Z.lt_trans; [apply Hx|]. reflexivity. }
  rewrite (swrap_id 64) by (try lia; unfold in_s, smin, smax; change (64 - 1) with 63; lia).
  assert (Q31 : 2 ^ 31 - 1 < q31 * q31) by reflexivity.
  rewrite pi_legendre_ok; [|exact HO2|eapply Z.lt_trans; [|exact Q31]; lia]. rewrite bind_Ok. clear Q31.
  rewrite get_c_ok by lia. rewrite bind_Ok.
  set (c := Z.min 6 (pi y)) in *. pose proof (pi_nonneg y) as Hpy0.
  assert (Hc : 0 <= c <= pi y) by (unfold c; lia).
  assert (Hyx : y <= x) by nia.
  unfold generate_primes. rewrite map_swrap32 by lia.
  apply wp_eq. apply wp_bind. eapply wp_mono; [apply generate_lpf_ok; lia|]. intros lpf Hlpf.
  apply wp_bind. eapply wp_mono; [apply generate_moebius_ok; lia|]. intros mut Hmu.
  assert (Hpi31 : pi y <= pi (2 ^ 31 - 1)) by (apply pi_mono; lia).
  assert (Hdiv : forall n, 1 <= n -> 0 <= x / n <= x).
  { intros n Hn. split; [apply Z.div_pos; lia|]. apply Z.div_le_upper_bound; nia. }
  assert (Hphi : forall n b, 2 <= n -> 0 <= b <= pi y -> phi_sum_X 128 (x / n) b = Ok (phi_sum (x / n) b)).
  { intros n b Hn Hb. unfold phi_sum_X. change (128 =? 64) with false. cbv iota.
    assert (R : smin 64 <= x / n <= smax 128).
    { specialize (Hdiv n ltac:(lia)). change (smin 64) with (- 2 ^ 63). change (smax 128) with (2 ^ 127 - 1). lia. }
    destruct (wp_inv _ _ (phi_sum_128_ok (x / n) b R ltac:(lia) (HW n b Hn))) as (r & E1 & _ & V). rewrite E1, bind_Ok. now rewrite V. }
  assert (Hphi1 : phi_sum_X 128 x c = Ok (phi_sum x c + E)).
  { unfold phi_sum_X. change (128 =? 64) with false. cbv iota. destruct (HE y Hy1 ltac:(lia)) as (r & E1 & V).
    fold c in E1, V. rewrite E1, bind_Ok. now rewrite V. }
  assert (P400 : 2 ^ 32 < 2 ^ 400) by reflexivity.
  assert (HL : forall n b, 1 <= n -> 0 <= n * phi_sum (x / n) b <= 2 ^ 184).
  { intros n b Hn. pose proof (leaf1_sq x b n ltac:(lia) Hn). specialize (Hdiv n Hn).
    assert (x * (x / n) <= 2 ^ 92 * 2 ^ 92) by (apply Z.mul_le_mono_nonneg; lia). change (2 ^ 184) with (2 ^ 92 * 2 ^ 92). lia. }
  assert (HLf : forall n b k, 2 <= n <= 2 ^ 64 -> k = 0 \/ k = 1 \/ k = -1 -> t_mul 256 (phi_sum (x / n) b) (k * n) = Ok (phi_sum (x / n) b * (k * n))).
  { intros n b k Hn Hk. specialize (HL n b ltac:(lia)). pose proof (phi_sum_nonneg (x / n) b). assert (2 ^ 184 < smax 256) by reflexivity. assert (2 ^ 64 < 2 ^ 127) by reflexivity.
    apply t_mul_pos; [nia|nia|]. rewrite Z.abs_mul, (Z.abs_eq n) by lia. rewrite Z.mul_assoc, (Z.mul_comm (phi_sum _ _)), <- Z.mul_assoc, (Z.mul_comm (phi_sum _ _)). destruct Hk as [-> | [-> | ->]]; cbn [Z.abs]; lia. }
  assert (LS1 := HL 1 c ltac:(lia)). assert (C184 : 2 ^ 184 + 2 ^ 128 < smax 256) by reflexivity. assert (C127 : 1 < 2 ^ 127) by reflexivity.
  (* S1 *)
  apply wp_bind.
  apply (for_rule 1 (y + 1) _ (fun n s => s = swrap 256 (sumr 1 n (fun n => if roughb c n then mu n * n * phi_sum (x / n) c else 0) + (if n =? 1 then 0 else E)))).
  { lia. }
  { reflexivity. }
  { intros n s Hn ->. rewrite (arr_get _ _ _ n Hlpf) by lia. rewrite bind_Ok.
    rewrite pr_get by lia. rewrite bind_Ok. rewrite Z.gtb_ltb, <- (roughb_lpf_pr y c n) by lia.
    rewrite sumr_snoc by lia. destruct (Z.eqb_spec (n + 1) 1); [lia|].
    destruct (Z.eqb_spec n 1) as [->|N1].
    - rewrite roughb_1. rewrite Z.quot_1_r, Hphi1, bind_Ok.
      rewrite (arr_get _ _ _ 1 Hmu) by lia. rewrite bind_Ok. change (1 =? 0) with false. cbv iota. rewrite mu_1, Z.div_1_r. rewrite Z.div_1_r in LS1. rewrite t_mul_pos; [|lia|lia|change (Z.abs (1 * 1)) with 1; lia]. rewrite bind_Ok, t_add_256. cbn [wp]. rewrite swrap_add_l by lia. f_equal. ring.
    - destruct (roughb c n); [|cbn [wp]; f_equal; ring].
      rewrite Z.quot_div_nonneg by lia. rewrite Hphi by lia. rewrite bind_Ok.
      rewrite (arr_get _ _ _ n Hmu) by lia. rewrite bind_Ok. destruct (Z.eqb_spec n 0); [lia|]. rewrite HLf; [|lia|apply mu_values]. rewrite bind_Ok, t_add_256. cbn [wp]. rewrite swrap_add_l by lia. f_equal. ring. }
  intros s1 Hs1. rewrite Z.max_r in Hs1 by lia. destruct (Z.eqb_spec (y + 1) 1); [lia|]. change (sumr 1 (y + 1) (fun n => if roughb c n then mu n * n * phi_sum (x / n) c else 0)) with (S1_sum x y c) in Hs1.
  (* S2 *)
  apply wp_bind.
  apply (for_rule (c + 1) (pi y) _ (fun b s => s = swrap 256 (sumr (c + 1) b (fun b => S2_prime x y (pr y b))))).
  { pose proof (pi_le y ltac:(lia)). lia. }
  { now rewrite sumr_empty by lia. }
  { intros b s Hb ->. rewrite pr_get by lia. rewrite bind_Ok. destruct (pr_spec y b ltac:(lia)) as (Pp & Pb & Py).
    pose proof (prime_ge_2 _ Pp) as P2. set (p := pr y b) in *. rewrite (Z.quot_div_nonneg y p) by lia.
    rewrite sumr_snoc by lia. fold p. set (s := sumr (c + 1) b _).
    assert (Hq : 1 <= y / p <= y) by (split; [apply Z.div_le_lower_bound; lia|apply Z.div_le_upper_bound; nia]).
    apply (for_rule (y / p + 1) (y + 1) _ (fun m t => t = swrap 256 (s + sumr (y / p + 1) m (leaf x p)))).
    - lia.
    - rewrite sumr_empty by lia. f_equal. ring.
    - intros m t Hm ->. rewrite (arr_get _ _ _ m Hlpf) by lia. rewrite bind_Ok.
      rewrite Z.gtb_ltb, <- (roughb_lpf p m) by (auto; lia). rewrite sumr_snoc by lia. replace (leaf x p m) with (if roughb (pi p) m then - (mu m * (p * m) * phi_sum (x / (p * m)) (pi p - 1)) else 0) by reflexivity.
      destruct (roughb (pi p) m); [|cbn [wp]; f_equal; ring].
      rewrite Z.quot_div_nonneg by nia. rewrite Hphi by (try lia; nia). rewrite bind_Ok.
      rewrite (arr_get _ _ _ m Hmu) by lia. rewrite bind_Ok. destruct (Z.eqb_spec m 0); [lia|]. rewrite <- Pb. replace (mu m * m * p) with (mu m * (p * m)) by ring. rewrite HLf; [|split; [nia|transitivity (2 ^ 31 * 2 ^ 31); [apply Z.mul_le_mono_nonneg; lia|discriminate]]|apply mu_values]. rewrite bind_Ok, t_sub_256. cbn [wp]. rewrite swrap_sub_l by lia. f_equal. ring.
    - intros t ->. rewrite Z.max_r by lia. reflexivity. }
  intros s2 Hs2.
  assert (Hs2' : s2 = swrap 256 (S2_sum x y c)).
  { rewrite Hs2. f_equal. rewrite S2_sum_index by lia. destruct (Z.le_gt_cases (pi y) (c + 1)).
    - now rewrite !sumr_empty by lia.
    - now rewrite Z.max_r by lia. }
  clear Hs2.
  assert (Hz : x / Z.max y 1 < 2 ^ 62).
  { rewrite Z.max_l by lia. apply Z.div_lt_upper_bound; [lia|].
    replace ((y + 1) ^ 3) with (y * (y * y + 3 * y + 3) + 1) in Hy by ring.
    destruct (Z.le_gt_cases (y * y + 3 * y + 3) (2 ^ 62 - 1)) as [L|L]; [nia|]. exfalso.
    assert (2 ^ 31 - 3 <= y) by nia.
    assert (2 ^ 92 < (2 ^ 31 - 3) ^ 3) by reflexivity. assert ((2 ^ 31 - 3) ^ 3 <= y ^ 3) by (apply Z.pow_le_mono_l; lia). lia. }
  assert (C122 : 2 ^ 92 < 2 ^ 122) by reflexivity. rewrite P2_ok; [|lia|lia|exact Hz|lia|exact HO3|exact HO4].
  rewrite bind_Ok, prime_sum_tiny_ok by lia. rewrite bind_Ok. rewrite lmo_formula_ok, Hs2', Hs1. cbn [wp].
  pose proof (prime_sum_combine x y c ltac:(lia) ltac:(lia) Hc) as F.
  replace (swrap 256 (S1_sum x y c + E) + swrap 256 (S2_sum x y c) + prime_sum y - 1 - P2_sum x y) with (swrap 256 (S1_sum x y c + E) + (swrap 256 (S2_sum x y c) + prime_sum y - 1 - P2_sum x y)) by ring.
  rewrite swrap_add_l by lia. replace (S1_sum x y c + E + (swrap 256 (S2_sum x y c) + prime_sum y - 1 - P2_sum x y)) with (swrap 256 (S2_sum x y c) + (S1_sum x y c + E + prime_sum y - 1 - P2_sum x y)) by ring.
  rewrite swrap_add_l by lia. rewrite swrap_small; [lia|apply width_256|]. replace (S2_sum x y c + (S1_sum x y c + E + prime_sum y - 1 - P2_sum x y)) with (prime_sum x + E) by lia.
  pose proof (prime_sum_le x ltac:(lia)). pose proof (prime_sum_nonneg x). assert (x * x <= 2 ^ 92 * 2 ^ 92) by (apply Z.mul_le_mono_nonneg; lia). assert (2 ^ 92 * 2 ^ 92 + 2 ^ 128 < smax 256) by reflexivity. lia.
Qed.

Theorem pi_lmo1_ok o x : valid_oracles o -> x < 2 ^ 92 -> (forall n c, 1 <= n -> window_free (x / n) c) ->
  pi_lmo1 o x = Ok (prime_sum x).
Proof.
  intros HO Hx HW. destruct (Z.ltb_spec x 2) as [L|G].
  { unfold pi_lmo1. destruct (Z.ltb_spec x 2); [|lia]. now rewrite prime_sum_small by lia. }
  replace (prime_sum x) with (prime_sum x + 0) by ring. apply pi_lmo1_gen; [exact HO|lia|lia| |intros; apply HW; lia].
  intros y Hy [Hy3 _]. assert (C92 : 2 ^ 92 < 2 ^ 127 - 1) by reflexivity.
  assert (R : smin 64 <= x <= smax 128).
  { change (smin 64) with (- 2 ^ 63). change (smax 128) with (2 ^ 127 - 1). lia. }
  assert (A : 0 <= Z.min 6 (pi y) <= pi (2 ^ 31 - 1)).
  { pose proof (pi_nonneg y). split; [lia|]. etransitivity; [apply Z.le_min_r|]. apply pi_mono.
    assert (y < 2 ^ 31 - 1); [|lia]. apply cube_lt; [lia|discriminate|]. eapply Z.le_lt_trans; [apply Hy3|]. eapply Z.lt_trans; [apply Hx|]. reflexivity. }
  specialize (HW 1 (Z.min 6 (pi y)) ltac:(lia)). rewrite Z.div_1_r in HW.
  destruct (wp_inv _ _ (phi_sum_128_ok x _ R A HW)) as (r & E1 & _ & V). exists r. split; auto. rewrite V. ring.
Qed.

(** *** Exact value of phi_sum at the first failing argument *)
Fixpoint phi_sum_list (x : Z) (ps : list Z) : Z :=
  match ps with
  | [] => x * (x + 1) / 2
  | p :: ps => phi_sum_list x ps - p * phi_sum_list (x / p) ps
  end.
Fixpoint down_primes (ps : list Z) : Prop :=
  match ps with
  | [] => True
  | p :: ps => prime p /\ pi p = zlen ps + 1 /\ down_primes ps
  end.
Lemma phi_sum_list_ok ps : down_primes ps -> forall x, 0 <= x -> phi_sum x (zlen ps) = phi_sum_list x ps.
Proof.
  induction ps as [|p ps IH]; intros H x Hx.
  - apply phi_sum_0; auto.
  - destruct H as (Hp & Pi & H). rewrite zlen_cons. cbn [phi_sum_list]. pose proof (prime_ge_2 p Hp).
    replace (1 + zlen ps) with (pi p) by lia. replace (zlen ps + 1) with (pi p) by lia. rewrite phi_sum_step by auto. rewrite Pi. replace (zlen ps + 1 - 1) with (zlen ps) by ring.
    rewrite !IH by (auto; apply Z.div_pos; lia). reflexivity.
Qed.
Lemma down_6 : down_primes [13; 11; 7; 5; 3; 2].
Proof.
  cbn [down_primes]. do 6 (split; [apply primeb_spec; vm_compute; reflexivity|split; [vm_compute; reflexivity|]]). exact I.
Qed.
Lemma phi_sum_128_wrong6 : exists r, phi_sum_128 first_bad 6 = Ok r /\ sval r = phi_sum first_bad 6 + 2 ^ 128.
Proof.
  eexists. split; [vm_compute; reflexivity|].
  change 6 with (zlen [13; 11; 7; 5; 3; 2]). rewrite (phi_sum_list_ok _ down_6) by discriminate. vm_compute. reflexivity.
Qed.

Theorem pi_lmo1_wrong o : valid_oracles o -> pi_lmo1 o first_bad = Ok (prime_sum first_bad + 2 ^ 128).
Proof.
  intros HO. apply pi_lmo1_gen; [exact HO|split; [discriminate|reflexivity]|split; discriminate| |].
  - intros y Hy [_ H3]. replace (Z.min 6 (pi y)) with 6; [apply phi_sum_128_wrong6|].
    assert (13 <= y).
    { assert (12 < y + 1); [|]. { apply cube_lt; [lia|lia|]. eapply Z.lt_trans; [|exact H3]. reflexivity. }
      destruct (Z.eq_dec y 12) as [->|]; [|lia]. exfalso. revert H3. vm_compute. discriminate. }
    pose proof (pi_mono 13 y ltac:(lia)) as M. change (pi 13) with 6 in M. lia.
  - intros n c Hn. apply window_free_small. apply Z.div_lt; [reflexivity|lia].
Qed.
