(** Multiply-and-shift division is exact. *)
From Coq Require Import ZArith List Bool Lia.
From Verif.Base Require Import Res Word Zl.
From Verif.Model Require Import Libdivide.
Import ListNotations.
Open Scope Z_scope.
Local Ltac Zify.zify_post_hook ::= idtac.

Local Lemma bOk {A B} (a : A) (k : A -> res B) : bind (Ok a) k = k a. Proof. reflexivity. Qed.
Lemma uw_small n z : 0 <= z < 2 ^ n -> uwrap n z = z.
Proof. intros H. unfold uwrap. now apply Z.mod_small. Qed.
Lemma uw_range n z : 0 <= n -> 0 <= uwrap n z < 2 ^ n.
Proof. intros H. unfold uwrap. apply Z.mod_pos_bound. apply Z.pow_pos_nonneg; lia. Qed.
Lemma shr_div z k : 0 <= k -> Z.shiftr z k = z / 2 ^ k.
Proof. intros. now apply Z.shiftr_div_pow2. Qed.
Lemma ushr_ok z k : 0 <= k < 64 -> ushr 64 z k = Ok (z / 2 ^ k).
Proof. intros H. unfold ushr. destruct (Z.leb_spec 0 k), (Z.ltb_spec k 64); try lia. cbn [andb]. now rewrite shr_div by lia. Qed.
Lemma ushl_ok z k : 0 <= k < 64 -> 0 <= z * 2 ^ k < 2 ^ 64 -> ushl 64 z k = Ok (z * 2 ^ k).
Proof.
  intros H H1. unfold ushl. destruct (Z.leb_spec 0 k), (Z.ltb_spec k 64); try lia. cbn [andb].
  rewrite Z.shiftl_mul_pow2 by lia. now rewrite uw_small by lia.
Qed.
Lemma land_mask z : 0 <= z -> Z.land z (2 ^ 32 - 1) = z mod 2 ^ 32.
Proof. intros H. change (2 ^ 32 - 1) with (Z.ones 32). apply Z.land_ones. lia. Qed.

(** *** The high word of a product *)
Lemma mullhi_128_ok x y : 0 <= x < 2 ^ 64 -> 0 <= y < 2 ^ 64 -> mullhi_128 x y = Ok (x * y / 2 ^ 64).
Proof.
  intros Hx Hy. unfold mullhi_128. rewrite shr_div by lia.
  assert (x * y <= (2 ^ 64 - 1) * (2 ^ 64 - 1)) by (apply Z.mul_le_mono_nonneg; lia).
  assert ((2 ^ 64 - 1) * (2 ^ 64 - 1) < 2 ^ 128) by reflexivity. rewrite uw_small by (split; [apply Z.mul_nonneg_nonneg|]; lia). reflexivity.
Qed.
Lemma mullhi_32_ok x y : 0 <= x < 2 ^ 64 -> 0 <= y < 2 ^ 64 -> mullhi_32 x y = Ok (x * y / 2 ^ 64).
Proof.
  intros Hx Hy. unfold mullhi_32, mullhi_u32. cbv zeta. rewrite !land_mask by (try lia; apply uw_range; lia). rewrite !shr_div by lia.
  assert (B32 : 2 ^ 64 = 2 ^ 32 * 2 ^ 32) by reflexivity. assert (P32 : 0 < 2 ^ 32) by reflexivity.
  pose proof (Z.mod_pos_bound x (2 ^ 32) P32) as Hx0. pose proof (Z.mod_pos_bound y (2 ^ 32) P32) as Hy0.
  assert (Hx1 : 0 <= x / 2 ^ 32 < 2 ^ 32) by (split; [apply Z.div_pos; lia|apply Z.div_lt_upper_bound; lia]).
  assert (Hy1 : 0 <= y / 2 ^ 32 < 2 ^ 32) by (split; [apply Z.div_pos; lia|apply Z.div_lt_upper_bound; lia]).
  pose proof (Z.div_mod x (2 ^ 32) ltac:(lia)) as Ex. pose proof (Z.div_mod y (2 ^ 32) ltac:(lia)) as Ey.
  rewrite (uw_small 32 (x / 2 ^ 32)), (uw_small 32 (y / 2 ^ 32)) by lia.
  set (x0 := x mod 2 ^ 32) in *. set (x1 := x / 2 ^ 32) in *. set (y0 := y mod 2 ^ 32) in *. set (y1 := y / 2 ^ 32) in *.
  assert (M : forall a b, 0 <= a < 2 ^ 32 -> 0 <= b < 2 ^ 32 -> 0 <= a * b <= 2 ^ 64 - 2 * 2 ^ 32 + 1).
  { intros a b Ha Hb. split; [apply Z.mul_nonneg_nonneg; lia|]. change (2 ^ 64 - 2 * 2 ^ 32 + 1) with ((2 ^ 32 - 1) * (2 ^ 32 - 1)). apply Z.mul_le_mono_nonneg; lia. }
  pose proof (M x0 y0 Hx0 Hy0). pose proof (M x0 y1 Hx0 Hy1). pose proof (M x1 y0 Hx1 Hy0). pose proof (M x1 y1 Hx1 Hy1).
  rewrite !(uw_small 64 (x0 * y0)), !(uw_small 64 (x0 * y1)), !(uw_small 64 (x1 * y0)), !(uw_small 64 (x1 * y1)) by lia.
  assert (D : forall a, 0 <= a <= 2 ^ 64 - 2 * 2 ^ 32 + 1 -> 0 <= a / 2 ^ 32 <= 2 ^ 32 - 2).
  { intros a Ha. split; [apply Z.div_pos; lia|]. assert (a / 2 ^ 32 < 2 ^ 32 - 1); [|lia]. apply Z.div_lt_upper_bound; lia. }
  pose proof (D _ H) as D00. rewrite (uw_small 32 (x0 * y0 / 2 ^ 32)) by lia.
  set (h := x0 * y0 / 2 ^ 32) in *. set (temp := x1 * y0 + h).
  rewrite (uw_small 64 temp) by (unfold temp; lia).
  pose proof (Z.mod_pos_bound temp (2 ^ 32) P32) as T0.
  rewrite (uw_small 64 (temp mod 2 ^ 32 + x0 * y1)) by lia.
  assert (T1 : 0 <= temp / 2 ^ 32 < 2 ^ 32) by (split; [apply Z.div_pos; unfold temp; lia|apply Z.div_lt_upper_bound; unfold temp; lia]).
  rewrite (uw_small 64 (x1 * y1 + temp / 2 ^ 32)) by lia.
  assert (T2 : 0 <= (temp mod 2 ^ 32 + x0 * y1) / 2 ^ 32 < 2 ^ 32) by (split; [apply Z.div_pos; lia|apply Z.div_lt_upper_bound; lia]).
  assert (E : x * y / 2 ^ 64 = x1 * y1 + temp / 2 ^ 32 + (temp mod 2 ^ 32 + x0 * y1) / 2 ^ 32).
  { symmetry. apply (Z.div_unique_pos _ _ _ (((temp mod 2 ^ 32 + x0 * y1) mod 2 ^ 32) * 2 ^ 32 + (x0 * y0) mod 2 ^ 32)).
    - pose proof (Z.mod_pos_bound (temp mod 2 ^ 32 + x0 * y1) (2 ^ 32) P32). pose proof (Z.mod_pos_bound (x0 * y0) (2 ^ 32) P32). lia.
    - pose proof (Z.div_mod (temp mod 2 ^ 32 + x0 * y1) (2 ^ 32) ltac:(lia)) as E1.
      pose proof (Z.div_mod temp (2 ^ 32) ltac:(lia)) as E2. pose proof (Z.div_mod (x0 * y0) (2 ^ 32) ltac:(lia)) as E3. fold h in E3.
      rewrite Ex, Ey, B32. unfold temp in E2 at 1. nia. }
  rewrite uw_small.
  - now rewrite E.
  - rewrite <- E. split; [apply Z.div_pos; [apply Z.mul_nonneg_nonneg|]; lia|]. apply Z.div_lt_upper_bound; [lia|]. apply Z.mul_lt_mono_nonneg; lia.
Qed.

(** *** Knuth's division *)
Lemma knuth_digit_ok U un1 vn1 vn0 : let b := 2 ^ 32 in let v := vn1 * b + vn0 in
  2 ^ 31 <= vn1 < b -> 0 <= vn0 < b -> 0 <= un1 < b -> 0 <= U < v ->
  knuth_digit U un1 vn1 vn0 = Ok ((U * b + un1) / v).
Proof.
  intros b v H1 H0 Hu HU. unfold knuth_digit. cbv zeta. fold b. destruct (Z.eqb_spec vn1 0); [lia|]. cbn [negb]. unfold assert_. rewrite bOk.
  assert (B32 : 2 ^ 64 = b * b) by reflexivity. assert (P32 : b = 2 * 2 ^ 31) by reflexivity. assert (Pv : 0 < v) by (unfold v; lia).
  assert (v <= 2 ^ 64 - 1) by (unfold v; nia).
  set (Q := (U * b + un1) / v).
  assert (HQ : 0 <= Q < b).
  { unfold Q. split; [apply Z.div_pos; nia|]. apply Z.div_lt_upper_bound; [lia|]. assert (U + 1 <= v) by lia. nia. }
  assert (LQ : Q * v <= U * b + un1 < (Q + 1) * v).
  { unfold Q. pose proof (Z.mul_div_le (U * b + un1) v Pv). pose proof (Z.mul_succ_div_gt (U * b + un1) v Pv). lia. }
  pose proof (Z.div_mod U vn1 ltac:(lia)) as EU. pose proof (Z.mod_pos_bound U vn1 ltac:(lia)) as EM.
  set (q := U / vn1) in *. assert (Hq0 : 0 <= q) by (apply Z.div_pos; lia).
  assert (Hqb : q <= b + 1).
  { unfold q. assert (U / vn1 < b + 2); [|lia]. apply Z.div_lt_upper_bound; [lia|]. unfold v in HU. nia. }
  rewrite (uw_small 64 (q * vn1)) by nia. rewrite uw_small by nia.
  replace (U - q * vn1) with (U mod vn1) by lia.
  apply wp_eq.
  apply (loop_rule _ (fun '(q, rhat) => q * vn1 + rhat = U /\ 0 <= rhat < b /\ Q <= q <= b + 1) (fun '(q, _) => q)).
  - clear q Hq0 Hqb EU. intros [q r] (I1 & I2 & I3).
    assert (0 <= q * vn0 < b * b) by (split; [apply Z.mul_nonneg_nonneg; lia|]; assert (q * vn0 <= (b + 1) * (b - 1)) by (apply Z.mul_le_mono_nonneg; lia); lia).
    rewrite (uw_small 64 (q * vn0)) by lia. rewrite (uw_small 64 (b * r)) by nia. rewrite (uw_small 64 (b * r + un1)) by nia.
    assert (C : (q >=? b) || (q * vn0 >? b * r + un1) = (Q <? q)).
    { assert (K : q * v = (U - r) * b + q * vn0) by (unfold v; rewrite <- I1; ring).
      destruct (Z.geb_spec q b), (Z.gtb_spec (q * vn0) (b * r + un1)), (Z.ltb_spec Q q); cbn [orb]; auto; exfalso; try lia.
      - assert (q = Q) by lia. subst q. lia.
      - assert ((Q + 1) * v <= q * v) by (apply Z.mul_le_mono_nonneg_r; lia). lia. }
    rewrite C. destruct (Z.ltb_spec Q q).
    + rewrite (uw_small 64 (q - 1)) by nia. rewrite (uw_small 64 (r + vn1)) by nia.
      destruct (Z.geb_spec (r + vn1) b).
      * cbn [wp]. (* q - 1 <= Q *)
        assert (K : (q - 1) * v = (U - (r + vn1)) * b + (q - 1) * vn0) by (unfold v; rewrite <- I1; ring).
        assert ((q - 1) * vn0 <= b * (b - 1)) by (apply Z.mul_le_mono_nonneg; lia).
        assert ((q - 1) * v <= U * b + un1) by nia.
        assert (q - 1 < Q + 1); [|lia]. apply (Z.mul_lt_mono_pos_r v); lia.
      * cbn [wp]. split; [split; [lia|lia]|lia].
    + cbn [wp]. lia.
  - split; [lia|]. split; [lia|]. split; [|lia].
    assert (Q < q + 1); [|lia]. apply (Z.mul_lt_mono_pos_r v); auto. 
    assert (U + 1 <= (q + 1) * vn1) by lia. assert ((U + 1) * b <= (q + 1) * vn1 * b) by (apply Z.mul_le_mono_nonneg_r; lia).
    assert (0 <= (q + 1) * vn0) by (apply Z.mul_nonneg_nonneg; lia). unfold v. lia.
  - assert (2 ^ 33 < 2 ^ 400) by reflexivity. change b with (2 ^ 32) in *. lia.
Qed.

Lemma clz64_ok v : 0 < v < 2 ^ 64 -> exists s, clz64 v = Ok s /\ 0 <= s < 64 /\ 2 ^ 63 <= v * 2 ^ s < 2 ^ 64 /\ s = 63 - Z.log2 v.
Proof.
  intros Hv. unfold clz64. destruct (Z.ltb_spec 0 v); [|lia]. unfold assert_. rewrite bOk. eexists. split; [reflexivity|].
  pose proof (Z.log2_spec v ltac:(lia)) as L. pose proof (Z.log2_nonneg v).
  assert (Z.log2 v < 64) by (apply Z.log2_lt_pow2; lia). split; [lia|]. split; [|reflexivity].
  assert (E : 2 ^ 63 = 2 ^ Z.log2 v * 2 ^ (63 - Z.log2 v)) by (rewrite <- Z.pow_add_r by lia; f_equal; ring).
  assert (E' : 2 ^ 64 = 2 ^ Z.succ (Z.log2 v) * 2 ^ (63 - Z.log2 v)) by (rewrite <- Z.pow_add_r by lia; f_equal; ring).
  assert (0 < 2 ^ (63 - Z.log2 v)) by (apply Z.pow_pos_nonneg; lia). nia.
Qed.
Lemma uw_eq n z w : 0 <= n -> (exists k, z = w + k * 2 ^ n) -> 0 <= w < 2 ^ n -> uwrap n z = w.
Proof. intros Hn (k & ->) Hw. unfold uwrap. rewrite Z.mod_add by (apply Z.pow_nonzero; lia). now apply Z.mod_small. Qed.
Lemma uw_sub a b w : (exists k, a - b = w + k * 2 ^ 64) -> 0 <= w < 2 ^ 64 -> uwrap 64 (uwrap 64 a - uwrap 64 b) = w.
Proof.
  intros (k & E) Hw. apply uw_eq; [lia| |lia]. unfold uwrap.
  pose proof (Z.div_mod a (2 ^ 64) ltac:(discriminate)). pose proof (Z.div_mod b (2 ^ 64) ltac:(discriminate)).
  exists (k - a / 2 ^ 64 + b / 2 ^ 64). lia.
Qed.
(** the subtraction of a digit step *)
Lemma knuth_sub U un b v q : 2 ^ 64 = b * b -> 0 < b -> 0 < v <= 2 ^ 64 -> q = (U * b + un) / v ->
  uwrap 64 (uwrap 64 (uwrap 64 (U * b) + un) - uwrap 64 (q * v)) = (U * b + un) mod v.
Proof.
  intros B Hb Hv ->. pose proof (Z.div_mod (U * b + un) v ltac:(lia)) as E. pose proof (Z.mod_pos_bound (U * b + un) v ltac:(lia)).
  apply uw_sub; [|lia]. pose proof (Z.div_mod (U * b) (2 ^ 64) ltac:(discriminate)) as E2. unfold uwrap.
  exists (- (U * b / 2 ^ 64)). lia.
Qed.

Lemma div128_knuth_ok u1 u0 v : 0 <= u1 < v -> 0 <= u0 < 2 ^ 64 -> v < 2 ^ 64 ->
  div128_knuth u1 u0 v = div128_exact u1 u0 v.
Proof.
  intros Hu1 Hu0 Hv. unfold div128_knuth, div128_exact. destruct (Z.geb_spec u1 v); [lia|]. destruct (Z.ltb_spec u1 v); [|lia].
  unfold assert_. rewrite bOk. cbv zeta. set (b := 2 ^ 32).
  destruct (clz64_ok v ltac:(lia)) as (s & Es & Hs & Hn & _). rewrite Es, bOk.
  assert (B32 : 2 ^ 64 = b * b) by reflexivity. assert (Pb : 0 < b) by reflexivity. assert (P31 : b = 2 * 2 ^ 31) by reflexivity. assert (P63 : 2 ^ 63 = 2 ^ 31 * b) by reflexivity.
  set (N := u1 * 2 ^ 64 + u0). set (w := v * 2 ^ s) in *. assert (Ps : 0 < 2 ^ s) by (apply Z.pow_pos_nonneg; lia).
  (* normalized dividend *)
  assert (F : exists h l, (if s >? 0 then v' <- ushl 64 v s;; a <- ushl 64 u1 s;; c <- ushr 64 u0 (64 - s);; un10 <- ushl 64 u0 s;; Ok (v', Z.lor a c, un10) else Ok (v, u1, u0))
              = Ok (w, h, l) /\ h * 2 ^ 64 + l = N * 2 ^ s /\ 0 <= l < 2 ^ 64 /\ 0 <= h < w).
  { destruct (Z.gtb_spec s 0) as [G|G].
    - assert (P64 : 2 ^ 64 = 2 ^ s * 2 ^ (64 - s)) by (rewrite <- Z.pow_add_r by lia; f_equal; ring).
      assert (Pc : 0 < 2 ^ (64 - s)) by (apply Z.pow_pos_nonneg; lia).
      rewrite (ushl_ok v s) by (fold w; lia). rewrite bOk. fold w.
      assert (Hu1s : 0 <= u1 * 2 ^ s < w) by (unfold w; nia).
      rewrite (ushl_ok u1 s) by lia. rewrite bOk. rewrite ushr_ok by lia. rewrite bOk.
      unfold ushl. destruct (Z.leb_spec 0 s), (Z.ltb_spec s 64); try lia. cbn [andb]. rewrite bOk.
      rewrite Z.shiftl_mul_pow2 by lia.
      assert (Hc : 0 <= u0 / 2 ^ (64 - s) < 2 ^ s) by (split; [apply Z.div_pos; lia|apply Z.div_lt_upper_bound; lia]).
      assert (EL : Z.lor (u1 * 2 ^ s) (u0 / 2 ^ (64 - s)) = u1 * 2 ^ s + u0 / 2 ^ (64 - s)).
      { assert (EA : Z.land (u1 * 2 ^ s) (u0 / 2 ^ (64 - s)) = 0).
        { rewrite <- Z.shiftl_mul_pow2 by lia. apply Z.bits_inj'. intros i Hi. rewrite Z.land_spec, Z.bits_0, Z.shiftl_spec by lia.
          destruct (Z.lt_ge_cases i s); [rewrite (Z.testbit_neg_r u1) by lia; reflexivity|].
          rewrite <- (Z.mod_small _ _ Hc). rewrite Z.mod_pow2_bits_high by lia. apply andb_false_r. }
        rewrite <- Z.lxor_lor by exact EA. symmetry. now apply Z.add_nocarry_lxor. }
      rewrite EL. eexists _, _. split; [reflexivity|].
      assert (El : uwrap 64 (u0 * 2 ^ s) = (u0 mod 2 ^ (64 - s)) * 2 ^ s).
      { apply uw_eq; [lia| |].
        - exists (u0 / 2 ^ (64 - s)). rewrite P64. pose proof (Z.div_mod u0 (2 ^ (64 - s)) ltac:(lia)). nia.
        - pose proof (Z.mod_pos_bound u0 (2 ^ (64 - s)) Pc). nia. }
      rewrite El. pose proof (Z.mod_pos_bound u0 (2 ^ (64 - s)) Pc). pose proof (Z.div_mod u0 (2 ^ (64 - s)) ltac:(lia)) as E0.
      split; [|split].
      + unfold N. rewrite P64. rewrite E0 at 3. ring.
      + rewrite P64. nia.
      + unfold w. assert ((u1 + 1) * 2 ^ s <= v * 2 ^ s) by (apply Z.mul_le_mono_nonneg_r; lia). lia.
    - assert (s = 0) by lia. unfold w, N. replace s with 0 by lia. change (2 ^ 0) with 1. rewrite !Z.mul_1_r.
      exists u1, u0. split; [reflexivity|]. lia. }
  destruct F as (h & l & EF & EN & Hl & Hh). rewrite EF. clear EF. rewrite bOk.
  rewrite !land_mask by lia. rewrite !shr_div by lia. fold b.
  pose proof (Z.div_mod w b ltac:(lia)) as Ew. pose proof (Z.mod_pos_bound w b Pb) as Hw0.
  assert (Hw1 : 2 ^ 31 <= w / b < b) by (split; [apply Z.div_le_lower_bound; lia|apply Z.div_lt_upper_bound; lia]).
  pose proof (Z.div_mod l b ltac:(lia)) as El. pose proof (Z.mod_pos_bound l b Pb) as Hl0.
  assert (Hl1 : 0 <= l / b < b) by (split; [apply Z.div_pos; lia|apply Z.div_lt_upper_bound; lia]).
  set (l1 := l / b) in *. set (l0 := l mod b) in *.
  pose proof (knuth_digit_ok h l1 (w / b) (w mod b)) as K1. cbv zeta in K1. fold b in K1.
  replace (w / b * b + w mod b) with w in K1 by lia. rewrite K1 by lia. rewrite bOk. clear K1.
  rewrite (knuth_sub h l1 b w ((h * b + l1) / w)) by (auto; lia).
  set (q1 := (h * b + l1) / w). set (h1 := (h * b + l1) mod w).
  assert (Hh1 : 0 <= h1 < w) by (apply Z.mod_pos_bound; lia).
  pose proof (knuth_digit_ok h1 l0 (w / b) (w mod b)) as K2. cbv zeta in K2. fold b in K2.
  replace (w / b * b + w mod b) with w in K2 by lia. rewrite K2 by lia. rewrite bOk. clear K2.
  rewrite (knuth_sub h1 l0 b w ((h1 * b + l0) / w)) by (auto; lia).
  set (q0 := (h1 * b + l0) / w). set (r := (h1 * b + l0) mod w).
  assert (Hr : 0 <= r < w) by (apply Z.mod_pos_bound; lia).
  assert (D1 : h * b + l1 = w * q1 + h1) by (apply Z.div_mod; lia). assert (D0 : h1 * b + l0 = w * q0 + r) by (apply Z.div_mod; lia).
  rewrite ushr_ok by lia. rewrite bOk.
  assert (Hq1 : 0 <= q1 < b) by (unfold q1; split; [apply Z.div_pos; nia|apply Z.div_lt_upper_bound; nia]).
  assert (Hq0 : 0 <= q0 < b) by (unfold q0; split; [apply Z.div_pos; nia|apply Z.div_lt_upper_bound; nia]).
  rewrite (uw_small 64 (q1 * b)) by nia. rewrite (uw_small 64 (q1 * b + q0)) by nia.
  assert (E : N * 2 ^ s = w * (q1 * b + q0) + r).
  { rewrite <- EN, B32. replace (w * (q1 * b + q0) + r) with (b * (w * q1) + (w * q0 + r)) by ring. rewrite <- D0.
    replace (w * q1) with (h * b + l1 - h1) by lia. rewrite El. ring. }
  assert (Er : r = (r / 2 ^ s) * 2 ^ s).
  { assert (Z.divide (2 ^ s) r). { exists (N - v * (q1 * b + q0)). unfold w in E. lia. }
    destruct H1 as [k ->]. rewrite Z.div_mul by lia. reflexivity. }
  assert (E2 : N = v * (q1 * b + q0) + r / 2 ^ s).
  { apply (Z.mul_reg_r _ _ (2 ^ s)); [lia|]. rewrite E. unfold w. rewrite Er at 1. ring. }
  assert (Hr2 : 0 <= r / 2 ^ s < v). { split; [apply Z.div_pos; lia|]. apply Z.div_lt_upper_bound; [lia|]. unfold w in Hr. lia. }
  f_equal. f_equal.
  - apply (Z.div_unique_pos _ _ _ (r / 2 ^ s)); [exact Hr2|exact E2].
  - apply (Z.mod_unique_pos _ _ (q1 * b + q0)); [exact Hr2|exact E2].
Qed.

(** *** Division by multiplication *)
Lemma magic_core n d K M e : 0 <= n -> 0 < d -> 0 < K -> M * d = K + e -> 0 <= e -> n * e < K -> n * M / K = n / d.
Proof.
  intros Hn Hd HK HM He Hne. symmetry. pose proof (Z.div_mod n d ltac:(lia)) as E. pose proof (Z.mod_pos_bound n d Hd) as Hr.
  set (q := n / d) in *. set (r := n mod d) in *. apply (Z.div_unique_pos _ _ _ (n * M - q * K)); [|ring].
  assert (E1 : d * (n * M - q * K) = r * K + n * e).
  { replace (d * (n * M - q * K)) with (n * (M * d) - q * d * K) by ring. rewrite HM. rewrite E at 1. rewrite (Z.mul_comm q d).
    replace (d * q) with (n - r) by lia. rewrite E. ring_simplify. replace (d * q) with (n - r) by lia. ring. }
  assert (r * K + n * e < d * K) by nia. assert (0 <= r * K + n * e) by nia. split; nia.
Qed.

(** t = ((n - q) >> 1) + q for q <= n is the average, rounded down *)
Lemma avg_ok n q : 0 <= q <= n -> n < 2 ^ 64 -> uwrap 64 (Z.shiftr (uwrap 64 (n - q)) 1 + q) = (n + q) / 2.
Proof.
  intros Hq Hn. rewrite (uw_small 64 (n - q)) by lia. rewrite shr_div by lia. change (2 ^ 1) with 2.
  assert (E : (n + q) / 2 = (n - q) / 2 + q) by (replace (n + q) with (n - q + q * 2) by ring; rewrite Z.div_add by lia; reflexivity).
  rewrite E. apply uw_small. split; [assert (0 <= (n - q) / 2) by (apply Z.div_pos; lia); lia|].
  assert ((n + q) / 2 < 2 ^ 64) by (apply Z.div_lt_upper_bound; lia). lia.
Qed.

Section Divider.
  Context (div128 : Z -> Z -> Z -> res (Z * Z)) (mullhi : Z -> Z -> res Z).
  Hypothesis Hdiv : forall u1 u0 v, 0 <= u1 < v -> 0 <= u0 < 2 ^ 64 -> v < 2 ^ 64 -> div128 u1 u0 v = div128_exact u1 u0 v.
  Hypothesis Hmul : forall x y, 0 <= x < 2 ^ 64 -> 0 <= y < 2 ^ 64 -> mullhi x y = Ok (x * y / 2 ^ 64).

  Lemma pow2_land d : 0 < d < 2 ^ 64 -> (Z.land d (uwrap 64 (d - 1)) =? 0) = (d =? 2 ^ Z.log2 d).
  Proof.
    intros Hd. rewrite uw_small by lia. pose proof (Z.log2_spec d ltac:(lia)) as L. pose proof (Z.log2_nonneg d) as L0.
    set (f := Z.log2 d) in *. assert (Pf : 0 < 2 ^ f) by (apply Z.pow_pos_nonneg; lia).
    destruct (Z.eqb_spec d (2 ^ f)) as [E|N].
    - apply Z.eqb_eq. rewrite E. replace (2 ^ f - 1) with (Z.ones f) by (rewrite Z.ones_equiv; lia).
      rewrite Z.land_ones by lia. apply Z.mod_same. lia.
    - apply Z.eqb_neq. intros E. assert (B : Z.testbit (Z.land d (d - 1)) f = true); [|rewrite E, Z.bits_0 in B; discriminate].
      rewrite Z.land_spec. 
      assert (T : forall a, 2 ^ f <= a < 2 ^ Z.succ f -> Z.testbit a f = true).
      { intros a Ha. rewrite Z.testbit_true by lia. rewrite <- (Z.div_unique_pos a (2 ^ f) 1 (a - 2 ^ f)); [reflexivity| |lia].
        rewrite Z.pow_succ_r in Ha by lia. lia. }
      rewrite !T by lia. reflexivity.
  Qed.

  (** branch-free *)
  Lemma branchfree_ok d n : 2 <= d < 2 ^ 64 -> 0 <= n < 2 ^ 64 ->
    (denom <- u64_branchfree_gen div128 d ;; u64_branchfree_do mullhi n denom) = Ok (n / d).
  Proof.
    intros Hd Hn. unfold u64_branchfree_gen, internal_u64_gen.
    destruct (Z.eqb_spec d 1); [lia|]. destruct (Z.eqb_spec d 0); [lia|]. cbn [negb]. unfold assert_. rewrite !bOk.
    destruct (clz64_ok d ltac:(lia)) as (s & Es & Hs & Hsn & ->). rewrite Es, bOk. cbv zeta.
    rewrite pow2_land by lia. replace (63 - (63 - Z.log2 d)) with (Z.log2 d) by ring.
    pose proof (Z.log2_spec d ltac:(lia)) as L. pose proof (Z.log2_nonneg d) as L0.
    assert (L1 : Z.log2 d < 64) by (apply Z.log2_lt_pow2; lia). set (f := Z.log2 d) in *.
    assert (Pf : 0 < 2 ^ f) by (apply Z.pow_pos_nonneg; lia). rewrite Z.pow_succ_r in L by lia.
    destruct (Z.eqb_spec d (2 ^ f)) as [E|N].
    - rewrite !bOk. assert (Hf1 : 1 <= f). { destruct (Z.eq_dec f 0) as [F0|]; [rewrite F0 in E; change (2 ^ 0) with 1 in E; lia|lia]. }
      rewrite (uw_small 8 (f - 1)) by (change (2 ^ 8) with 256; lia).
      change SHIFT_MASK_64 with (Z.ones 6). rewrite Z.land_ones by lia. rewrite (Z.mod_small (f - 1)) by (change (2 ^ 6) with 64; lia).
      unfold u64_branchfree_do. rewrite Hmul by lia. rewrite bOk. rewrite Z.mul_0_l. change (0 / 2 ^ 64) with 0.
      rewrite avg_ok by lia. rewrite Z.add_0_r. rewrite ushr_ok by lia. rewrite Z.div_div by (try lia; apply Z.pow_pos_nonneg; lia).
      rewrite <- Z.pow_succ_r by lia. replace (Z.succ (f - 1)) with f by lia. now rewrite E.
    - assert (Hf : 2 ^ f <= 2 ^ 63) by (apply Z.pow_le_mono_r; lia). assert (C63 : 2 ^ 63 < 2 ^ 64) by reflexivity.
      rewrite (ushl_ok 1 f) by lia. rewrite bOk. rewrite Z.mul_1_l. rewrite Hdiv by lia. unfold div128_exact.
      destruct (Z.ltb_spec (2 ^ f) d); [|lia]. unfold assert_. rewrite bOk. cbv zeta. rewrite Z.add_0_r. rewrite !bOk.
      cbn [negb andb]. set (K := 2 ^ f * 2 ^ 64).
      pose proof (Z.div_mod K d ltac:(lia)) as EK. pose proof (Z.mod_pos_bound K d ltac:(lia)) as Hrem.
      set (m := K / d) in *. set (rem := K mod d) in *.
      (* the doubled quotient *)
      assert (C : (uwrap 64 (rem + rem) >=? d) || (uwrap 64 (rem + rem) <? rem) = (d <=? 2 * rem)).
      { destruct (Z.lt_ge_cases (rem + rem) (2 ^ 64)) as [A|A].
        - rewrite uw_small by lia. destruct (Z.geb_spec (rem + rem) d), (Z.ltb_spec (rem + rem) rem), (Z.leb_spec d (2 * rem)); cbn [orb]; auto; lia.
        - rewrite (uw_eq 64 (rem + rem) (rem + rem - 2 ^ 64)) by (try lia; exists 1; lia).
          destruct (Z.ltb_spec (rem + rem - 2 ^ 64) rem); [|lia]. rewrite orb_true_r. symmetry. apply Z.leb_le. lia. }
      rewrite C. set (c := if d <=? 2 * rem then 1 else 0).
      assert (HM : 2 * K = d * (2 * m + c) + (2 * rem - d * c) /\ 0 <= 2 * rem - d * c < d).
      { unfold c. destruct (Z.leb_spec d (2 * rem)); split; lia. }
      set (M := 2 * m + c) in *. destruct HM as [HM1 HM2]. set (r := 2 * rem - d * c) in *.
      assert (HMlo : 2 ^ 64 <= M).
      { assert (2 ^ 64 < M + 1); [|lia]. apply (Z.mul_lt_mono_pos_l d); [lia|]. unfold K in HM1. nia. }
      assert (HMhi : M + 1 < 2 * 2 ^ 64).
      { assert (d * M < d * (2 * 2 ^ 64 - 1)); [|nia]. unfold K in HM1. 
        assert ((2 ^ f + 1) * (2 * 2 ^ 64 - 1) <= d * (2 * 2 ^ 64 - 1)) by (apply Z.mul_le_mono_nonneg_r; lia). lia. }
      assert (Em : uwrap 64 (m + m) = m + m - 2 ^ 64).
      { assert (Hc : c = 0 \/ c = 1) by (unfold c; destruct (d <=? 2 * rem); auto).
        apply uw_eq; [lia|exists 1; lia|]. split; [|lia].
        (* 2 m >= 2^64: m >= 2^63 since d < 2^(f+1) *)
        assert (2 ^ 63 <= m); [|change (2 ^ 64) with (2 * 2 ^ 63); lia].
        assert (2 ^ 63 < m + 1); [|lia]. apply (Z.mul_lt_mono_pos_l d); [lia|]. unfold K in EK.
        change (2 ^ 64) with (2 * 2 ^ 63) in EK. nia. }
      assert (Em2 : (if d <=? 2 * rem then uwrap 64 (uwrap 64 (m + m) + 1) else uwrap 64 (m + m)) = M - 2 ^ 64).
      { rewrite Em. unfold M, c in *. destruct (d <=? 2 * rem); [|lia]. rewrite uw_small; lia. }
      rewrite Em2. rewrite (uw_small 64 (1 + (M - 2 ^ 64))) by lia.
      assert (EL : Z.land (Z.lor f ADD_MARKER) SHIFT_MASK_64 = f).
      { rewrite Z.land_lor_distr_l. change (Z.land ADD_MARKER SHIFT_MASK_64) with 0. rewrite Z.lor_0_r.
        change SHIFT_MASK_64 with (Z.ones 6). rewrite Z.land_ones by lia. apply Z.mod_small. change (2 ^ 6) with 64. lia. }
      rewrite bOk. cbv beta iota. rewrite EL. rewrite bOk. unfold u64_branchfree_do. rewrite Hmul by lia. rewrite bOk.
      set (g := 1 + (M - 2 ^ 64)). assert (Hg : 1 <= g < 2 ^ 64) by (unfold g; lia).
      assert (Hq : 0 <= g * n / 2 ^ 64 <= n).
      { split; [apply Z.div_pos; [apply Z.mul_nonneg_nonneg|]; lia|]. apply Z.div_le_upper_bound; [lia|]. apply Z.mul_le_mono_nonneg_r; lia. }
      rewrite avg_ok by lia. rewrite ushr_ok by lia. f_equal.
      replace (n + g * n / 2 ^ 64) with ((n * (M + 1)) / 2 ^ 64) by (replace (n * (M + 1)) with (g * n + n * 2 ^ 64) by (unfold g; ring); rewrite Z.div_add by lia; ring).
      rewrite !Z.div_div by lia.
      apply (magic_core n d _ (M + 1) (d - r)); try lia.
      assert (n * (d - r) <= n * (2 * 2 ^ f)) by (apply Z.mul_le_mono_nonneg_l; lia).
        assert (n * (2 * 2 ^ f) < 2 ^ 64 * (2 * 2 ^ f)) by (apply Z.mul_lt_mono_pos_r; lia). lia.
  Qed.

  (** with branches *)
  Lemma branchfull_ok d n : 1 <= d < 2 ^ 64 -> 0 <= n < 2 ^ 64 ->
    (denom <- u64_gen div128 d ;; u64_do mullhi n denom) = Ok (n / d).
  Proof.
    intros Hd Hn. unfold u64_gen, internal_u64_gen.
    destruct (Z.eqb_spec d 0); [lia|]. cbn [negb]. unfold assert_. rewrite !bOk.
    destruct (clz64_ok d ltac:(lia)) as (s & Es & Hs & Hsn & ->). rewrite Es, bOk. cbv zeta.
    rewrite pow2_land by lia. replace (63 - (63 - Z.log2 d)) with (Z.log2 d) by ring.
    pose proof (Z.log2_spec d ltac:(lia)) as L. pose proof (Z.log2_nonneg d) as L0.
    assert (L1 : Z.log2 d < 64) by (apply Z.log2_lt_pow2; lia). set (f := Z.log2 d) in *.
    assert (Pf : 0 < 2 ^ f) by (apply Z.pow_pos_nonneg; lia). rewrite Z.pow_succ_r in L by lia.
    destruct (Z.eqb_spec d (2 ^ f)) as [E|N].
    - rewrite !bOk. rewrite Z.sub_0_r. rewrite (uw_small 8 f) by (change (2 ^ 8) with 256; lia).
      unfold u64_do. rewrite Z.eqb_refl. rewrite ushr_ok by lia. now rewrite E.
    - assert (Hf : 2 ^ f <= 2 ^ 63) by (apply Z.pow_le_mono_r; lia). assert (C63 : 2 ^ 63 < 2 ^ 64) by reflexivity.
      rewrite (ushl_ok 1 f) by lia. rewrite bOk. rewrite Z.mul_1_l. rewrite Hdiv by lia. unfold div128_exact.
      destruct (Z.ltb_spec (2 ^ f) d); [|lia]. unfold assert_. rewrite bOk. cbv zeta. rewrite Z.add_0_r. rewrite !bOk.
      cbn [negb andb]. set (K := 2 ^ f * 2 ^ 64).
      pose proof (Z.div_mod K d ltac:(lia)) as EK. pose proof (Z.mod_pos_bound K d ltac:(lia)) as Hrem.
      set (m := K / d) in *. set (rem := K mod d) in *. rewrite (uw_small 64 (d - rem)) by lia.
      destruct (Z.ltb_spec (d - rem) (2 ^ f)) as [He|He].
      + assert (Hm : 0 <= m) by (unfold m; apply Z.div_pos; [unfold K; lia|lia]).
        assert (Hm1 : m + 1 < 2 ^ 64).
        { apply (Z.mul_lt_mono_pos_l d); [lia|]. replace (d * (m + 1)) with (K + (d - rem)) by lia. unfold K.
          assert ((2 ^ f + 1) * 2 ^ 64 <= d * 2 ^ 64) by (apply Z.mul_le_mono_nonneg_r; lia). lia. }
        rewrite (uw_small 64 (1 + m)) by lia. rewrite bOk. unfold u64_do. destruct (Z.eqb_spec (1 + m) 0); [lia|].
        rewrite Hmul by lia. rewrite bOk.
        assert (EA : Z.land f ADD_MARKER = 0).
        { change ADD_MARKER with (2 ^ 6). apply Z.bits_inj'. intros k Hk. rewrite Z.land_spec, Z.bits_0, Z.pow2_bits_eqb by lia.
          destruct (Z.eqb_spec 6 k) as [<-|]; [|apply andb_false_r]. rewrite andb_true_r. destruct (Z.eq_dec f 0) as [->|]; [reflexivity|].
          apply Z.bits_above_log2; [lia|]. apply Z.log2_lt_pow2; [lia|]. change (2 ^ 6) with 64. lia. }
        rewrite EA. cbn [negb Z.eqb]. rewrite ushr_ok by lia.
        f_equal. rewrite Z.div_div by lia. replace ((1 + m) * n) with (n * (m + 1)) by ring.
        apply (magic_core n d _ (m + 1) (d - rem)); try lia.
        assert (n * (d - rem) <= n * 2 ^ f) by (apply Z.mul_le_mono_nonneg_l; lia).
        assert (n * 2 ^ f < 2 ^ 64 * 2 ^ f) by (apply Z.mul_lt_mono_pos_r; lia). lia.
      + assert (C : (uwrap 64 (rem + rem) >=? d) || (uwrap 64 (rem + rem) <? rem) = (d <=? 2 * rem)).
        { destruct (Z.lt_ge_cases (rem + rem) (2 ^ 64)) as [A|A].
          - rewrite uw_small by lia. destruct (Z.geb_spec (rem + rem) d), (Z.ltb_spec (rem + rem) rem), (Z.leb_spec d (2 * rem)); cbn [orb]; auto; lia.
          - rewrite (uw_eq 64 (rem + rem) (rem + rem - 2 ^ 64)) by (try lia; exists 1; lia).
            destruct (Z.ltb_spec (rem + rem - 2 ^ 64) rem); [|lia]. rewrite orb_true_r. symmetry. apply Z.leb_le. lia. }
        rewrite C. set (c := if d <=? 2 * rem then 1 else 0).
        assert (HM : 2 * K = d * (2 * m + c) + (2 * rem - d * c) /\ 0 <= 2 * rem - d * c < d).
        { unfold c. destruct (Z.leb_spec d (2 * rem)); split; lia. }
        set (M := 2 * m + c) in *. destruct HM as [HM1 HM2]. set (r := 2 * rem - d * c) in *.
        assert (HMlo : 2 ^ 64 <= M).
        { assert (2 ^ 64 < M + 1); [|lia]. apply (Z.mul_lt_mono_pos_l d); [lia|]. unfold K in HM1. nia. }
        assert (HMhi : M + 1 < 2 * 2 ^ 64).
        { assert (d * M < d * (2 * 2 ^ 64 - 1)); [|nia]. unfold K in HM1. 
          assert ((2 ^ f + 1) * (2 * 2 ^ 64 - 1) <= d * (2 * 2 ^ 64 - 1)) by (apply Z.mul_le_mono_nonneg_r; lia). lia. }
        assert (Em : uwrap 64 (m + m) = m + m - 2 ^ 64).
        { assert (Hc : c = 0 \/ c = 1) by (unfold c; destruct (d <=? 2 * rem); auto).
          apply uw_eq; [lia|exists 1; lia|]. split; [|lia].
          assert (2 ^ 63 <= m); [|change (2 ^ 64) with (2 * 2 ^ 63); lia].
          assert (2 ^ 63 < m + 1); [|lia]. apply (Z.mul_lt_mono_pos_l d); [lia|]. unfold K in EK.
          change (2 ^ 64) with (2 * 2 ^ 63) in EK. nia. }
        assert (Em2 : (if d <=? 2 * rem then uwrap 64 (uwrap 64 (m + m) + 1) else uwrap 64 (m + m)) = M - 2 ^ 64).
        { rewrite Em. unfold M, c in *. destruct (d <=? 2 * rem); [|lia]. rewrite uw_small; lia. }
        rewrite Em2. rewrite (uw_small 64 (1 + (M - 2 ^ 64))) by lia.
        assert (EL : Z.land (Z.lor f ADD_MARKER) SHIFT_MASK_64 = f).
        { rewrite Z.land_lor_distr_l. change (Z.land ADD_MARKER SHIFT_MASK_64) with 0. rewrite Z.lor_0_r.
          change SHIFT_MASK_64 with (Z.ones 6). rewrite Z.land_ones by lia. apply Z.mod_small. change (2 ^ 6) with 64. lia. }
        assert (EA : (Z.land (Z.lor f ADD_MARKER) ADD_MARKER =? 0) = false).
        { apply Z.eqb_neq. intros E0. assert (B : Z.testbit (Z.land (Z.lor f ADD_MARKER) ADD_MARKER) 6 = true).
          { rewrite Z.land_spec, Z.lor_spec. change (Z.testbit ADD_MARKER 6) with true. rewrite orb_true_r. reflexivity. }
          rewrite E0, Z.bits_0 in B. discriminate. }
        rewrite bOk. unfold u64_do. set (g := 1 + (M - 2 ^ 64)). assert (Hg : 1 <= g < 2 ^ 64) by (unfold g; lia).
        destruct (Z.eqb_spec g 0); [lia|]. rewrite Hmul by lia. rewrite bOk. rewrite EA. cbn [negb]. rewrite EL.
        assert (Hq : 0 <= g * n / 2 ^ 64 <= n).
        { split; [apply Z.div_pos; [apply Z.mul_nonneg_nonneg|]; lia|]. apply Z.div_le_upper_bound; [lia|]. apply Z.mul_le_mono_nonneg_r; lia. }
        rewrite avg_ok by lia. rewrite ushr_ok by lia. f_equal.
        replace (n + g * n / 2 ^ 64) with ((n * (M + 1)) / 2 ^ 64) by (replace (n * (M + 1)) with (g * n + n * 2 ^ 64) by (unfold g; ring); rewrite Z.div_add by lia; ring).
        rewrite !Z.div_div by lia.
        apply (magic_core n d _ (M + 1) (d - r)); try lia.
        assert (n * (d - r) <= n * (2 * 2 ^ f)) by (apply Z.mul_le_mono_nonneg_l; lia).
          assert (n * (2 * 2 ^ f) < 2 ^ 64 * (2 * 2 ^ f)) by (apply Z.mul_lt_mono_pos_r; lia). lia.
  Qed.
End Divider.

(** every platform variant: divq or __uint128_t division, or the portable division;
    __uint128_t or 32-bit multiplication *)
Definition div128_impl (div128 : Z -> Z -> Z -> res (Z * Z)) : Prop := div128 = div128_exact \/ div128 = div128_knuth.
Definition mullhi_impl (mullhi : Z -> Z -> res Z) : Prop := mullhi = mullhi_128 \/ mullhi = mullhi_32.
Lemma div128_impl_ok div128 : div128_impl div128 ->
  forall u1 u0 v, 0 <= u1 < v -> 0 <= u0 < 2 ^ 64 -> v < 2 ^ 64 -> div128 u1 u0 v = div128_exact u1 u0 v.
Proof. intros [->| ->] u1 u0 v H1 H2 H3; [reflexivity|now apply div128_knuth_ok]. Qed.
Lemma mullhi_impl_ok mullhi : mullhi_impl mullhi ->
  forall x y, 0 <= x < 2 ^ 64 -> 0 <= y < 2 ^ 64 -> mullhi x y = Ok (x * y / 2 ^ 64).
Proof. intros [->| ->] x y H1 H2; [now apply mullhi_128_ok|now apply mullhi_32_ok]. Qed.

Lemma libdivide_branchfree div128 mullhi d n : div128_impl div128 -> mullhi_impl mullhi ->
  2 <= d < 2 ^ 64 -> 0 <= n < 2 ^ 64 ->
  (denom <- u64_branchfree_gen div128 d ;; u64_branchfree_do mullhi n denom) = Ok (n / d).
Proof. intros H1 H2. apply branchfree_ok; [now apply div128_impl_ok|now apply mullhi_impl_ok]. Qed.
Lemma libdivide_branchfull div128 mullhi d n : div128_impl div128 -> mullhi_impl mullhi ->
  1 <= d < 2 ^ 64 -> 0 <= n < 2 ^ 64 ->
  (denom <- u64_gen div128 d ;; u64_do mullhi n denom) = Ok (n / d).
Proof. intros H1 H2. apply branchfull_ok; [now apply div128_impl_ok|now apply mullhi_impl_ok]. Qed.
Lemma libdivide_rejects div128 d : d = 0 \/ d = 1 -> u64_branchfree_gen div128 d = Fail Abort.
Proof. intros [->| ->]; reflexivity. Qed.
