(** pi(const string&) and main(). *)
From Coq Require Import ZArith List Bool Ascii String Lia Znumtheory.
From Verif.Base Require Import Res Word Zl IType Par.
From Verif.Spec Require Import Primes IntSpec LMOSpec PhiSumSpec S2Spec ExprSpec OptionSpec MainSpec.
From Verif.Model Require Import Int256 Imath Calculator Options PhiTiny P2 S1 S2 S2LoadBalancer S2Hard Oracles LMO1 LMO LMOParallel DelegliseRivat Main.
From Verif.Proofs Require Import Int256c Primes NT Accum Bounds EasyBound HardBound Imath PhiSum PhiTiny Phi P2 S1 Leaf S2Leaf S2 S2Hard LMO1 DelegliseRivat LMO25 LMOPar Options CalcCorrect.
Import ListNotations.
Open Scope Z_scope.
Local Ltac Zify.zify_post_hook ::= idtac.

(** *** Printing *)
Lemma print_value v : Z.abs v <= 2 ^ 255 - 1 -> exists t, print256 (of_Z256 v) = Ok t /\ decimal_of v t.
Proof.
  intros Hv. assert (E : sval (of_Z256 v) = v). { rewrite of_Z256_sval. apply swrap_id; [lia|]. unfold in_s. change (smin 256) with (- 2 ^ 255). change (smax 256) with (2 ^ 255 - 1). lia. }
  destruct (print256_ok (of_Z256 v) (of_Z256_wf v)) as (t & P & T); [rewrite E; lia|]. exists t. rewrite E in T. auto.
Qed.

Lemma prime_sum_256 x : x < 2 ^ 127 -> Z.abs (prime_sum x) <= 2 ^ 255 - 1.
Proof.
  intros Hx. destruct (Z.lt_ge_cases x 0). { rewrite prime_sum_small by lia. cbn. discriminate. }
  pose proof (prime_sum_le x ltac:(lia)). pose proof (prime_sum_nonneg x).
  assert (x * x <= 2 ^ 127 * 2 ^ 127) by (apply Z.mul_le_mono_nonneg; lia). assert (2 ^ 127 * 2 ^ 127 <= 2 ^ 255 - 1) by discriminate. rewrite Z.abs_eq; lia.
Qed.

Lemma window_below x : x < 52175271301331128848 -> forall n c, 1 <= n -> window_free (x / n) c.
Proof.
  intros Hx n c Hn. apply window_free_small. unfold first_bad. destruct (Z.le_gt_cases 0 x).
  - assert (x / n <= x) by (apply Z.div_le_upper_bound; nia). lia.
  - assert (x / n < 0) by (apply Z.div_lt_upper_bound; lia). lia.
Qed.
Lemma bad_lt : 52175271301331128848 < 2 ^ 85. Proof. reflexivity. Qed.

Lemma DR_below_bad o x threads : valid_dr o x -> 1 <= threads < 2 ^ 31 -> x <= dr_limit o -> x < 52175271301331128848 -> pi_deleglise_rivat_parallel1 o x threads = Ok (prime_sum x).
Proof.
  intros HV Ht Hl Hx. apply DR_ok; auto; [left; eapply Z.lt_trans; [exact Hx|reflexivity]|]. intros. now apply window_below.
Qed.

Lemma pi_string_ok o expr x threads : evaluates expr x -> valid_dr o x -> 1 <= threads < 2 ^ 31 -> x <= dr_limit o -> x < 52175271301331128848 ->
  exists t, pi_string o expr threads = Ok t /\ decimal_of (prime_sum x) t.
Proof.
  intros HE HV Ht Hl Hx. apply to_int128_iff in HE. unfold pi_string. rewrite HE, bind_Ok. unfold pi_, pi_deleglise_rivat. rewrite DR_below_bad, bind_Ok by auto.
  apply print_value, prime_sum_256. eapply Z.lt_trans; [exact Hx|reflexivity].
Qed.

Lemma pi_string_window o expr x threads : evaluates expr x -> valid_dr o x -> 1 <= threads < 2 ^ 31 -> x <= dr_limit o -> dr_range o x ->
  (forall n c, 1 <= n -> 0 <= c <= 6 -> window_free (x / n) c) ->
  exists t, pi_string o expr threads = Ok t /\ decimal_of (prime_sum x) t.
Proof.
  intros HE HV Ht Hl HR HW. apply to_int128_iff in HE. unfold pi_string. rewrite HE, bind_Ok. unfold pi_, pi_deleglise_rivat. rewrite DR_ok, bind_Ok by auto.
  apply print_value, prime_sum_256. eapply Z.lt_trans; [exact (dr_range_x _ _ HV HR)|reflexivity].
Qed.

Lemma pi_string_wrong o expr threads : evaluates expr first_bad -> valid_dr o first_bad -> 1 <= threads < 2 ^ 31 -> first_bad <= dr_limit o ->
  exists t, pi_string o expr threads = Ok t /\ decimal_of (prime_sum first_bad + 2 ^ 128) t.
Proof.
  intros HE HV Ht Hl. apply to_int128_iff in HE. unfold pi_string. rewrite HE, bind_Ok. unfold pi_, pi_deleglise_rivat. rewrite DR_wrong, bind_Ok by auto.
  apply print_value. assert (B : first_bad < 2 ^ 85) by reflexivity. pose proof (prime_sum_le first_bad ltac:(discriminate)) as L. pose proof (prime_sum_nonneg first_bad) as N.
  assert (M : first_bad * first_bad + 2 ^ 128 <= 2 ^ 255 - 1) by discriminate. generalize dependent (prime_sum first_bad). intros p L N. rewrite Z.abs_eq by lia. lia.
Qed.

(** a malformed expression never gives a value *)
Lemma pi_string_malformed o expr threads : ~ well_formed expr -> pi_string o expr threads = Fail Throw \/ pi_string o expr threads = Fail UB.
Proof.
  intros H. unfold pi_string, to_int128. destruct (eval_malformed expr H) as [-> | ->]; cbn [bind]; auto.
Qed.

(** *** The functions of one argument *)
Lemma y_range1 x r3 r6 y : 1 <= x < 2 ^ 85 -> is_root 3 r3 x -> is_root 6 r6 x -> r3 <= y <= r3 * r6 -> 1 <= y /\ y * y <= x < (y + 1) ^ 3 /\ 0 <= x / y <= 2 ^ 57.
Proof.
  intros Hx R3 R6 Hy. destruct (Z.eq_dec x 1) as [->|].
  - rewrite (root_unique 3 r3 1 1), (root_unique 6 r6 1 1) in Hy; try lia; try assumption; try (unfold is_root; repeat split; discriminate).
    assert (y = 1) by lia. subst y. repeat split; discriminate.
  - destruct (y_range x r3 r6 y ltac:(lia) R3 R6 Hy) as (A & B). split; [exact A|]. split; [exact B|]. apply (z_bound x r3); [lia|exact R3|lia].
Qed.

Lemma with_y_ok o x f : 0 <= dr_root6 o <= 2 ^ 22 -> 0 <= o_root (dr_base o) <= 2 ^ 43 -> 1 <= x <= tmax i128 -> x <= dr_limit o ->
  exists r3 r6, is_root 3 r3 x /\ is_root 6 r6 x /\ with_y o x f = f (dr_y o r3 r6).
Proof.
  intros HR6 HR3 Hx Hl. unfold with_y. destruct (Z.ltb_spec x 1); [lia|].
  destruct (iroot_widths i128 6) as (W1 & W2 & W3); [cbn; tauto|cbn; tauto|].
  destruct (iroot_all i128 6 (dr_root6 o) x W1 W2 W3) as (r6 & E6 & Hr6); [lia|change ((tdigits i128 + 6 - 1) / 6) with 22; lia|].
  rewrite E6, bind_Ok. rewrite Z.gtb_ltb. destruct (Z.ltb_spec (dr_limit o) x); [lia|].
  destruct (iroot3_bounds x (o_root (dr_base o))) as (r3 & E3 & Hr3); [lia|lia|]. exists r3, r6. split; [exact Hr3|]. split; [exact Hr6|]. now rewrite E3, bind_Ok.
Qed.
Lemma with_y_throw o x f : 0 <= dr_root6 o <= 2 ^ 22 -> 1 <= x <= tmax i128 -> dr_limit o < x -> with_y o x f = Fail Throw.
Proof.
  intros HR6 Hx Hl. unfold with_y. destruct (Z.ltb_spec x 1); [lia|].
  destruct (iroot_widths i128 6) as (W1 & W2 & W3); [cbn; tauto|cbn; tauto|].
  destruct (iroot_all i128 6 (dr_root6 o) x W1 W2 W3) as (r6 & E6 & Hr6); [lia|change ((tdigits i128 + 6 - 1) / 6) with 22; lia|].
  rewrite E6, bind_Ok. rewrite Z.gtb_ltb. destruct (Z.ltb_spec (dr_limit o) x); [reflexivity|lia].
Qed.

(** the sums fit 256 bits *)
Lemma psum_abs lo hi f : Z.abs (psum lo hi f) <= psum lo hi (fun p => Z.abs (f p)).
Proof. unfold psum. eapply Z.le_trans; [apply sumr_abs|]. apply sumr_le. intros i _. destruct (primeb i); reflexivity. Qed.

Lemma S2_part_abs P x y c : 1 <= y -> Z.abs (S2_part P x y c) <= S2_abs x y c.
Proof.
  intros Hy. unfold S2_part, S2_abs. eapply Z.le_trans; [apply psum_abs|]. apply psum_le. intros p Pp Hp. pose proof (prime_ge_2 p Pp).
  destruct (c <? pi p); [|reflexivity]. eapply Z.le_trans; [apply sumr_abs|]. apply sumr_le. intros m Hm.
  assert (0 <= m). { assert (0 <= y / p) by (apply Z.div_pos; lia). lia. }
  destruct (P p m); [apply leaf_abs; lia|]. eapply Z.le_trans; [|apply (leaf_abs x p m); lia]. rewrite Z.abs_0. apply Z.abs_nonneg.
Qed.

Lemma S2_part_256 P x y c : 1 <= y -> y * y <= x -> x < 2 ^ 85 -> c = Z.min 6 (pi y) -> Z.abs (S2_part P x y c) <= 2 ^ 255 - 1.
Proof.
  intros Hy Hyx Hx Hc. destruct (Z.le_gt_cases 6 (pi y)) as [G|L].
  - eapply Z.le_trans; [now apply S2_part_abs|]. change (2 ^ 255 - 1) with (smax 256). apply S2_abs_256; [lia| |lia|eapply Z.lt_trans; [exact Hx|reflexivity]].
    split; [lia|]. destruct (Z.le_gt_cases y (2 ^ 48)); auto. assert (2 ^ 48 * 2 ^ 48 <= y * y) by (apply Z.mul_le_mono_nonneg; lia). assert (2 ^ 85 < 2 ^ 48 * 2 ^ 48) by reflexivity. lia.
  - unfold S2_part. rewrite psum_zero; [discriminate|]. intros p Pp Hp. destruct (Z.ltb_spec c (pi p)) as [C|]; [|reflexivity].
    pose proof (pi_mono p y ltac:(lia)). lia.
Qed.

Lemma P2_term_le x p : 0 <= x -> 2 <= p -> 0 <= p * (prime_sum (x / p)) <= x * x.
Proof.
  intros Hx Hp. assert (Q : 0 <= x / p) by (apply Z.div_pos; lia). pose proof (Z.mul_div_le x p ltac:(lia)) as M. pose proof (prime_sum_le (x / p) Q). pose proof (prime_sum_nonneg (x / p)).
  set (q := x / p) in *. clearbody q. assert (p * prime_sum q <= p * (q * q)) by nia. assert (p * (q * q) <= x * q) by nia. assert (x * q <= x * x) by nia. split; [nia|lia].
Qed.
Lemma P2_sum_256 x y : 0 <= x < 2 ^ 84 -> 0 <= y -> Z.abs (P2_sum x y) <= 2 ^ 255 - 1.
Proof.
  intros Hx Hy. rewrite P2_sum_eq by lia. eapply Z.le_trans; [apply psum_abs|].
  apply Z.le_trans with (sumr 2 (Z.sqrt x + 1) (fun _ => x * x)).
  - unfold psum. apply sumr_le. intros p Hp. assert (0 <= x * x) by nia. destruct (primeb p) eqn:E; [|lia]. destruct (y <? p); [|rewrite Z.abs_0; lia].
    pose proof (P2_term_le x p ltac:(lia) ltac:(lia)) as T. assert (p - 1 <= x / p). { apply Z.le_trans with p; [lia|]. apply Z.div_le_lower_bound; [lia|]. assert (p <= Z.sqrt x) by lia. pose proof (Z.sqrt_spec x ltac:(lia)) as SQ. cbv zeta in SQ. assert (p * p <= Z.sqrt x * Z.sqrt x) by (apply Z.mul_le_mono_nonneg; lia). lia. }
    pose proof (prime_sum_mono (p - 1) (x / p) ltac:(lia)). pose proof (prime_sum_nonneg (p - 1)). rewrite Z.abs_eq by nia. nia.
  - pose proof (Z.sqrt_nonneg x). destruct (Z.le_gt_cases 2 (Z.sqrt x + 1)).
    + rewrite sumr_const by lia. pose proof (Z.sqrt_le_lin x ltac:(lia)). assert (x * x <= 2 ^ 84 * 2 ^ 84) by (apply Z.mul_le_mono_nonneg; lia).
      assert (x * x * (Z.sqrt x + 1 - 2) <= 2 ^ 84 * 2 ^ 84 * 2 ^ 84) by (apply Z.mul_le_mono_nonneg; nia). assert (2 ^ 84 * 2 ^ 84 * 2 ^ 84 <= 2 ^ 255 - 1) by discriminate. lia.
    + rewrite sumr_empty by lia. discriminate.
Qed.

Lemma S1_sum_256 x y c : 0 <= x < 2 ^ 124 -> y < 2 ^ 63 -> Z.abs (S1_sum x y c) <= 2 ^ 255 - 1.
Proof. intros Hx Hy. eapply Z.le_trans; [apply S1_sum_abs; lia|now apply S1_abs_256]. Qed.

(** the five functions *)
Definition partial_call (dr : dr_oracles) (o : opt) (x threads : Z) : res Z :=
  match o with
  | OPTION_P2 => main_P2 dr x threads
  | OPTION_S1 => main_S1 dr x
  | OPTION_S2_TRIVIAL => main_S2_trivial dr x threads
  | OPTION_S2_EASY => main_S2_easy dr x
  | OPTION_S2_HARD => main_S2_hard dr x threads
  | _ => Ok 0
  end.

Lemma partial_below_1 dr o x threads : x < 1 -> partial_call dr o x threads = Ok 0.
Proof. intros Hx. destruct o; try reflexivity; cbn [partial_call]; unfold main_P2, main_S1, main_S2_trivial, main_S2_easy, main_S2_hard, with_y; destruct (Z.ltb_spec x 1); try lia; reflexivity. Qed.

Lemma partial_throw dr o x threads : In o partial_options -> 0 <= dr_root6 dr <= 2 ^ 22 -> 1 <= x < 2 ^ 127 -> dr_limit dr < x ->
  partial_call dr o x threads = Fail Throw.
Proof.
  intros Ho HR Hx Hl. assert (T : tmax i128 = 2 ^ 127 - 1) by reflexivity.
  cbn in Ho. destruct Ho as [<-|[<-|[<-|[<-|[<-|[]]]]]]; cbn [partial_call]; unfold main_P2, main_S1, main_S2_trivial, main_S2_easy, main_S2_hard; apply with_y_throw; auto; lia.
Qed.

Lemma partial_ok dr o x threads : valid_dr dr x -> 1 <= threads < 2 ^ 31 -> 1 <= x -> x <= dr_limit dr -> x < 2 ^ 84 ->
  (o = OPTION_S1 -> forall n c, 1 <= n -> 0 <= c <= 6 -> window_free (x / n) c) ->
  exists r3 r6, is_root 3 r3 x /\ is_root 6 r6 x /\ let v := partial_sum o x (dr_y dr r3 r6) in partial_call dr o x threads = Ok v /\ Z.abs v <= 2 ^ 255 - 1.
Proof.
  intros HV Hth Hx1 Hlim X84 HW. pose proof HV as (HO & HR6 & HT & HE & HER & HVar & HY). pose proof HO as (HO1 & HO2 & HO3 & HO4 & HO5).
  assert (X85 : x < 2 ^ 85) by (eapply Z.lt_trans; [exact X84|reflexivity]).
  assert (C1 : 2 ^ 84 < 2 ^ 122) by reflexivity. assert (C2 : 2 ^ 122 < 2 ^ 124) by reflexivity. assert (C3 : 2 ^ 124 < 2 ^ 127 - 1) by reflexivity. assert (T : tmax i128 = 2 ^ 127 - 1) by reflexivity.
  assert (P : forall f, exists r3 r6, is_root 3 r3 x /\ is_root 6 r6 x /\ with_y dr x f = f (dr_y dr r3 r6)) by (intros f; apply with_y_ok; lia).
  assert (K : exists r3 r6, is_root 3 r3 x /\ is_root 6 r6 x /\ forall f, with_y dr x f = f (dr_y dr r3 r6)).
  { destruct (P (fun _ => Ok 0)) as (r3 & r6 & R3 & R6 & _). exists r3, r6. split; [exact R3|]. split; [exact R6|]. intros f. destruct (P f) as (a3 & a6 & A3 & A6 & E). rewrite E.
    now rewrite (root_unique 3 a3 r3 x), (root_unique 6 a6 r6 x) by (auto; lia). }
  destruct K as (r3 & r6 & R3 & R6 & W). exists r3, r6. split; [exact R3|]. split; [exact R6|].
  destruct (HY r3 r6 R3 R6) as [HY1 HY2]. set (y := dr_y dr r3 r6) in *. destruct (y_range1 x r3 r6 y ltac:(lia) R3 R6 HY1) as (Hy & Hyx & Hz).
  assert (Hy48 : y <= 2 ^ 48). { destruct (Z.le_gt_cases y (2 ^ 48)); auto. assert (2 ^ 48 * 2 ^ 48 <= y * y) by (apply Z.mul_le_mono_nonneg; lia). assert (2 ^ 84 < 2 ^ 48 * 2 ^ 48) by reflexivity. lia. }
  pose proof (pi_nonneg y) as Hpi. pose proof (c_small y) as Hc.
  assert (T32 : in_s 32 threads) by (unfold in_s; change (smin 32) with (- 2 ^ 31); change (smax 32) with (2 ^ 31 - 1); lia).
  assert (C0 : Z.min 6 (pi y) = 0 -> y < 2). { intros Z0. destruct (Z.lt_ge_cases y 2); auto. pose proof (pi_mono 2 y ltac:(lia)) as M. change (pi 2) with 1 in M. lia. }
  cbv zeta. destruct o; try (split; [reflexivity|discriminate]); cbn [partial_call partial_sum]; unfold main_P2, main_S1, main_S2_trivial, main_S2_easy, main_S2_hard; rewrite W.
  - split; [|apply P2_sum_256; lia]. apply P2_ok; auto; [lia|lia|]. rewrite Z.max_l by lia. lia.
  - split; [|apply S1_sum_256; lia]. rewrite get_c_ok, bind_Ok by lia. apply S1_ok; auto; try lia; [apply c_two; lia|]. intros n Hn. apply HW; [reflexivity|lia|clear - Hpi; lia].
  - split; [|apply S2_part_256; auto; lia]. rewrite zdiv_ok, bind_Ok by lia. rewrite swrap64 by lia. rewrite get_c_ok, bind_Ok by lia. apply S2_easy_of_ok; auto; lia.
  - split; [|apply S2_part_256; auto; lia]. rewrite zdiv_ok, bind_Ok by lia. rewrite swrap64 by lia. rewrite get_c_ok, bind_Ok by lia. apply S2_hard_ok; [exact HY2|exact T32|exact Hy|apply Hyx|reflexivity|clear - Hz; lia|left; apply Hz|exact Hy48|clear - Hpi; lia|clear - Hpi; lia].
  - split; [|apply S2_part_256; auto; lia]. rewrite zdiv_ok, bind_Ok by lia. rewrite swrap64 by lia. rewrite get_c_ok, bind_Ok by lia. apply S2_trivial_ok; [exact HT|exact T32|lia|apply Hyx|reflexivity|lia|clear - Hpi; lia|exact C0].
Qed.

(** *** main() *)
Section Main.
Context {D : Type} (e : main_env D).
Notation asks := (asks (e_double e)).

Lemma threads_range ws : 1 <= e_hw e -> 1 <= get_num_threads (e_hw e) (s_threads (fold_left (eff (e_hw e)) ws (@settings0 D))) <= e_hw e.
Proof.
  intros Hh. assert (A : forall s : @settings D, s_threads s = 0 \/ 1 <= s_threads s <= e_hw e -> s_threads (fold_left (eff (e_hw e)) ws s) = 0 \/ 1 <= s_threads (fold_left (eff (e_hw e)) ws s) <= e_hw e).
  { induction ws as [|w ws IH]; intros s Hs; [exact Hs|]. cbn [fold_left]. apply IH.
    destruct w as [d|n|n|[n|]| |a]; cbn [eff s_threads]; try exact Hs. right. unfold set_num_threads. rewrite clamp_in_between by lia. unfold clamp. lia. }
  destruct (A settings0 ltac:(now left)) as [E|E]; unfold get_num_threads.
  - rewrite E. cbn. lia.
  - destruct (Z.eqb_spec (s_threads (fold_left (eff (e_hw e)) ws (@settings0 D))) 0); cbn [negb]; lia.
Qed.

(** the settings of a command line *)
Lemma main_settings args ws x : 1 <= e_hw e -> Forall2 asks args ws -> numbers ws = [x] ->
  exists s, parseOptions (e_double e) (e_hw e) args = Ok (Run x s) /\ s_option s = asked_algorithm ws /\ s_alpha s = asked_alpha ws /\
    s_time s = asked_time ws /\ s_print s = asked_print ws /\ 1 <= get_num_threads (e_hw e) (s_threads s) <= e_hw e.
Proof.
  intros Hh HA HN. exists (fold_left (eff (e_hw e)) ws settings0). split; [apply parse_run; exists ws; auto|].
  split; [apply eff_field; intros s [| | |[|]| |]; reflexivity|].
  split; [apply (eff_field (e_hw e) s_alpha); intros s [| | |[|]| |]; reflexivity|].
  split; [rewrite (eff_flag (e_hw e) s_time (fun w => match w with Status _ | Time => true | _ => false end)); [apply orb_false_r|]; intros s [| | |[|]| |]; reflexivity|].
  split; [rewrite (eff_flag (e_hw e) s_print (fun w => match w with Status _ => true | _ => false end)); [apply orb_false_r|]; intros s [| | |[|]| |]; reflexivity|].
  now apply threads_range.
Qed.

Lemma status_time (ws : list (word D)) : asked_print ws = true -> asked_time ws = true.
Proof.
  unfold asked_print, asked_time. intros H. apply existsb_exists in H. destruct H as (w & H1 & H2). apply existsb_exists. exists w. split; auto. destruct w; auto.
Qed.

Definition label (o : opt) (x : Z) : option string := if 1 <=? x then (if existsb (fun p => match p, o with OPTION_P2, OPTION_P2 | OPTION_S1, OPTION_S1 | OPTION_S2_TRIVIAL, OPTION_S2_TRIVIAL | OPTION_S2_EASY, OPTION_S2_EASY | OPTION_S2_HARD, OPTION_S2_HARD => true | _, _ => false end) partial_options then Some (name_of o) else None) else None.

Lemma main_value args ws x v : 1 <= e_hw e < 2 ^ 31 -> Forall2 asks args ws -> numbers ws = [x] -> Z.abs v <= 2 ^ 255 - 1 ->
  (forall s threads, s_option s = asked_algorithm ws -> s_alpha s = asked_alpha ws -> 1 <= threads < 2 ^ 31 -> compute e s x threads = Ok v) ->
  exists t, decimal_of v t /\ main e args = Ok (EndRun 0 (output (e_log e) (e_seconds e) (asked_print ws) (asked_time ws) (label (asked_algorithm ws) x) t)).
Proof.
  intros Hh HA HN Hv HC. destruct (main_settings args ws x ltac:(lia) HA HN) as (s & P & S1 & S2 & S3 & S4 & T).
  destruct (print_value v Hv) as (t & PT & DT). exists t. split; [exact DT|]. unfold main. rewrite P, bind_Ok. cbv zeta. rewrite (HC s _ S1 S2) by lia. rewrite PT, bind_Ok.
  rewrite S1, S3, S4. unfold output, label. rewrite Z.geb_leb. pose proof (status_time ws) as ST. destruct (asked_print ws).
  - rewrite ST by reflexivity. cbn [andb]. destruct (1 <=? x); [destruct (asked_algorithm ws)|]; reflexivity.
  - cbn [andb]. unfold plain_output. destruct (asked_time ws); reflexivity.
Qed.

Lemma main_error args ws x : 1 <= e_hw e < 2 ^ 31 -> Forall2 asks args ws -> numbers ws = [x] ->
  (forall s threads, s_option s = asked_algorithm ws -> s_alpha s = asked_alpha ws -> compute e s x threads = Fail Throw) ->
  main e args = Ok (EndRun 1 (if asked_print ws then e_log e else [])).
Proof.
  intros Hh HA HN HC. destruct (main_settings args ws x ltac:(lia) HA HN) as (s & P & S1 & S2 & S3 & S4 & T).
  unfold main. rewrite P, bind_Ok. cbv zeta. rewrite (HC s _ S1 S2). now rewrite S4.
Qed.

Lemma label_none o x : ~ In o partial_options -> label o x = None.
Proof. intros H. unfold label. destruct (1 <=? x); [|reflexivity]. destruct o; try reflexivity; exfalso; apply H; cbn; auto 10. Qed.

(** --pi, -d, --deleglise_rivat_parallel1 or nothing *)
Lemma main_dr_gen args ws x v : 1 <= e_hw e < 2 ^ 31 -> Forall2 asks args ws -> numbers ws = [x] -> In (asked_algorithm ws) dr_options -> Z.abs v <= 2 ^ 255 - 1 ->
  (forall threads, 1 <= threads < 2 ^ 31 -> pi_deleglise_rivat_parallel1 (e_dr e (asked_alpha ws)) x threads = Ok v) ->
  exists t, decimal_of v t /\ main e args = Ok (EndRun 0 (output (e_log e) (e_seconds e) (asked_print ws) (asked_time ws) None t)).
Proof.
  intros Hh HA HN HO Hv HC. rewrite <- (label_none (asked_algorithm ws) x).
  2:{ cbn in HO. destruct HO as [<-|[<-|[<-|[]]]]; cbn; intuition discriminate. }
  apply main_value; auto.
  intros s threads S1 S2 T. unfold compute. rewrite S1, S2. cbn in HO. destruct HO as [<-|[<-|[<-|[]]]]; unfold pi_, pi_deleglise_rivat; now apply HC.
Qed.
Theorem main_dr args ws x : 1 <= e_hw e < 2 ^ 31 -> Forall2 asks args ws -> numbers ws = [x] -> In (asked_algorithm ws) dr_options ->
  valid_dr (e_dr e (asked_alpha ws)) x -> x <= dr_limit (e_dr e (asked_alpha ws)) -> x < 52175271301331128848 ->
  exists t, decimal_of (prime_sum x) t /\ main e args = Ok (EndRun 0 (output (e_log e) (e_seconds e) (asked_print ws) (asked_time ws) None t)).
Proof.
  intros Hh HA HN HO HV HL Hx. apply (main_dr_gen args ws x); auto; [apply prime_sum_256; eapply Z.lt_trans; [exact Hx|reflexivity]|].
  intros threads T. now apply DR_below_bad.
Qed.
Theorem main_dr_window args ws x : 1 <= e_hw e < 2 ^ 31 -> Forall2 asks args ws -> numbers ws = [x] -> In (asked_algorithm ws) dr_options ->
  valid_dr (e_dr e (asked_alpha ws)) x -> x <= dr_limit (e_dr e (asked_alpha ws)) -> dr_range (e_dr e (asked_alpha ws)) x ->
  (forall n c, 1 <= n -> 0 <= c <= 6 -> window_free (x / n) c) ->
  exists t, decimal_of (prime_sum x) t /\ main e args = Ok (EndRun 0 (output (e_log e) (e_seconds e) (asked_print ws) (asked_time ws) None t)).
Proof.
  intros Hh HA HN HO HV HL HR HW. apply (main_dr_gen args ws x); auto; [apply prime_sum_256; eapply Z.lt_trans; [exact (dr_range_x _ _ HV HR)|reflexivity]|].
  intros threads T. now apply DR_ok.
Qed.

(** the result at the first failing argument *)
Lemma bad_sum_256 : Z.abs (prime_sum first_bad + 2 ^ 128) <= 2 ^ 255 - 1.
Proof.
  pose proof (prime_sum_le first_bad ltac:(discriminate)) as L. pose proof (prime_sum_nonneg first_bad) as N.
  assert (M : first_bad * first_bad + 2 ^ 128 <= 2 ^ 255 - 1) by discriminate. generalize dependent (prime_sum first_bad). intros p L N. rewrite Z.abs_eq by lia. lia.
Qed.
Theorem main_dr_wrong args ws : 1 <= e_hw e < 2 ^ 31 -> Forall2 asks args ws -> numbers ws = [first_bad] -> In (asked_algorithm ws) dr_options ->
  valid_dr (e_dr e (asked_alpha ws)) first_bad -> first_bad <= dr_limit (e_dr e (asked_alpha ws)) ->
  exists t, decimal_of (prime_sum first_bad + 2 ^ 128) t /\ main e args = Ok (EndRun 0 (output (e_log e) (e_seconds e) (asked_print ws) (asked_time ws) None t)).
Proof.
  intros Hh HA HN HO HV HL.
  exact (main_dr_gen args ws first_bad _ Hh HA HN HO bad_sum_256 (fun threads T => DR_wrong _ threads HV T HL)).
Qed.

(** -l, --lmo_parallel1, --lmo1 *)
Theorem main_lmo args ws x : 1 <= e_hw e < 2 ^ 31 -> Forall2 asks args ws -> numbers ws = [x] -> In (asked_algorithm ws) lmo_options ->
  valid_par (e_lmo e (asked_alpha ws)) x -> - 2 ^ 63 <= x < 2 ^ 63 ->
  exists t, decimal_of (prime_sum x) t /\ main e args = Ok (EndRun 0 (output (e_log e) (e_seconds e) (asked_print ws) (asked_time ws) None t)).
Proof.
  intros Hh HA HN HO HV Hx. rewrite <- (label_none (asked_algorithm ws) x).
  2:{ cbn in HO. destruct HO as [<-|[<-|[<-|[]]]]; cbn; intuition discriminate. }
  assert (IC : int64_cast x = Ok x). { rewrite int64_cast_ok by lia. destruct (Z.ltb_spec x (2 ^ 63)); [reflexivity|lia]. }
  apply main_value; auto; [apply prime_sum_256; eapply Z.lt_trans; [apply Hx|reflexivity]|].
  intros s threads S1 S2 T. unfold compute. rewrite S1, S2. cbn in HO. destruct HO as [<-|[<-|[<-|[]]]]; rewrite IC, bind_Ok.
  - unfold pi_lmo. apply pi_lmo_parallel1_ok; auto; lia.
  - apply pi_lmo_parallel1_ok; auto; lia.
  - apply pi_lmo1_ok; [apply HV|eapply Z.lt_trans; [apply Hx|reflexivity]|]. intros n c Hn. apply window_below; [eapply Z.lt_trans; [apply Hx|reflexivity]|exact Hn].
Qed.

(** --lmo2 to --lmo5 *)
Theorem main_lmo64 args ws x : 1 <= e_hw e < 2 ^ 31 -> Forall2 asks args ws -> numbers ws = [x] -> In (asked_algorithm ws) lmo64_options ->
  valid_par (e_lmo e (asked_alpha ws)) x -> - 2 ^ 63 <= x < 2 ^ 63 -> prime_sum x < 2 ^ 63 ->
  exists t, decimal_of (prime_sum x) t /\ main e args = Ok (EndRun 0 (output (e_log e) (e_seconds e) (asked_print ws) (asked_time ws) None t)).
Proof.
  intros Hh HA HN HO HV Hx Hp. rewrite <- (label_none (asked_algorithm ws) x).
  2:{ cbn in HO. destruct HO as [<-|[<-|[<-|[<-|[]]]]]; cbn; intuition discriminate. }
  assert (IC : int64_cast x = Ok x). { rewrite int64_cast_ok by lia. destruct (Z.ltb_spec x (2 ^ 63)); [reflexivity|lia]. }
  apply main_value; auto; [apply prime_sum_256; eapply Z.lt_trans; [apply Hx|reflexivity]|].
  intros s threads S1 S2 T. unfold compute. rewrite S1, S2. destruct HV as [HV _].
  destruct (pi_lmo_fits (po_lmo (e_lmo e (asked_alpha ws))) x HV ltac:(lia) Hp) as (E2 & E3 & E4 & E5).
  cbn in HO. destruct HO as [<-|[<-|[<-|[<-|[]]]]]; rewrite IC, bind_Ok; assumption.
Qed.

(** --P2, --S1, --S2_trivial, --S2_easy, --S2_hard *)
Lemma compute_partial s x threads : In (s_option s) partial_options -> compute e s x threads = partial_call (e_dr e (s_alpha s)) (s_option s) x threads.
Proof. intros H. unfold compute. cbn in H. destruct H as [E|[E|[E|[E|[E|[]]]]]]; rewrite <- E; reflexivity. Qed.

Theorem main_partial_window args ws x : 1 <= e_hw e < 2 ^ 31 -> Forall2 asks args ws -> numbers ws = [x] -> In (asked_algorithm ws) partial_options ->
  valid_dr (e_dr e (asked_alpha ws)) x -> 1 <= x -> x <= dr_limit (e_dr e (asked_alpha ws)) -> x < 2 ^ 84 ->
  (asked_algorithm ws = OPTION_S1 -> forall n c, 1 <= n -> 0 <= c <= 6 -> window_free (x / n) c) ->
  exists r3 r6 t, is_root 3 r3 x /\ is_root 6 r6 x /\
    decimal_of (partial_sum (asked_algorithm ws) x (dr_y (e_dr e (asked_alpha ws)) r3 r6)) t /\
    main e args = Ok (EndRun 0 (output (e_log e) (e_seconds e) (asked_print ws) (asked_time ws) (Some (name_of (asked_algorithm ws))) t)).
Proof.
  intros Hh HA HN HO HV Hx1 HL Hx HW. replace (Some (name_of (asked_algorithm ws))) with (label (asked_algorithm ws) x).
  2:{ unfold label. destruct (Z.leb_spec 1 x); [|lia]. cbn in HO. destruct HO as [<-|[<-|[<-|[<-|[<-|[]]]]]]; reflexivity. }
  destruct (partial_ok (e_dr e (asked_alpha ws)) (asked_algorithm ws) x 1 HV ltac:(lia) Hx1 HL Hx HW) as (r3 & r6 & R3 & R6 & E & B).
  destruct (main_value args ws x _ Hh HA HN B) as (t & DT & M).
  - intros s threads S1 S2 T. rewrite compute_partial by (rewrite S1; exact HO). rewrite S1, S2.
    destruct (partial_ok (e_dr e (asked_alpha ws)) (asked_algorithm ws) x threads HV T Hx1 HL Hx HW) as (a3 & a6 & A3 & A6 & EA & _).
    rewrite EA. now rewrite (root_unique 3 a3 r3 x), (root_unique 6 a6 r6 x) by (auto; lia).
  - exists r3, r6, t. auto.
Qed.
Theorem main_partial args ws x : 1 <= e_hw e < 2 ^ 31 -> Forall2 asks args ws -> numbers ws = [x] -> In (asked_algorithm ws) partial_options ->
  valid_dr (e_dr e (asked_alpha ws)) x -> 1 <= x -> x <= dr_limit (e_dr e (asked_alpha ws)) -> x < 52175271301331128848 ->
  exists r3 r6 t, is_root 3 r3 x /\ is_root 6 r6 x /\
    decimal_of (partial_sum (asked_algorithm ws) x (dr_y (e_dr e (asked_alpha ws)) r3 r6)) t /\
    main e args = Ok (EndRun 0 (output (e_log e) (e_seconds e) (asked_print ws) (asked_time ws) (Some (name_of (asked_algorithm ws))) t)).
Proof.
  intros Hh HA HN HO HV Hx1 HL Hx. apply main_partial_window; auto; [eapply Z.lt_trans; [exact Hx|reflexivity]|]. intros _ n c Hn _. now apply window_below.
Qed.
Theorem main_partial_0 args ws x : 1 <= e_hw e < 2 ^ 31 -> Forall2 asks args ws -> numbers ws = [x] -> In (asked_algorithm ws) partial_options -> x < 1 ->
  exists t, decimal_of 0 t /\ main e args = Ok (EndRun 0 (output (e_log e) (e_seconds e) (asked_print ws) (asked_time ws) None t)).
Proof.
  intros Hh HA HN HO Hx. replace (@None string) with (label (asked_algorithm ws) x) by (unfold label; destruct (Z.leb_spec 1 x); [lia|reflexivity]).
  apply main_value; auto; [discriminate|]. intros s threads S1 S2 T. rewrite compute_partial by (rewrite S1; exact HO). now apply partial_below_1.
Qed.

(** errors: exit code 1 and no result *)
Theorem main_limit args ws x : 1 <= e_hw e < 2 ^ 31 -> Forall2 asks args ws -> numbers ws = [x] -> In (asked_algorithm ws) (dr_options ++ partial_options) ->
  0 <= dr_root6 (e_dr e (asked_alpha ws)) <= 2 ^ 22 -> 2 <= x -> dr_limit (e_dr e (asked_alpha ws)) < x ->
  main e args = Ok (EndRun 1 (if asked_print ws then e_log e else [])).
Proof.
  intros Hh HA HN HO HR Hx HL.
  assert (X127 : x < 2 ^ 127).
  { assert (I : In x (numbers ws)) by (rewrite HN; now left). unfold numbers in I. apply in_flat_map in I. destruct I as (w & W1 & W2). destruct w as [d|n|n|p| |a]; cbn in W2; try tauto. destruct W2 as [->|[]].
    clear - HA W1. induction HA as [|a w args ws A _ IH]; [destruct W1|]. destruct W1 as [->|W1]; [|auto]. inversion A as [|? v n R E| | | | |]; subst. destruct E as (t & T1 & T2).
    destruct (eval_exact v x t) as (_ & B); [apply eval_value_iff; eauto|exact T1|exact (proj2 B)]. }
  apply (main_error args ws x Hh HA HN). intros s threads S1 S2. assert (T : tmax i128 = 2 ^ 127 - 1) by reflexivity. apply in_app_or in HO. destruct HO as [HO|HO].
  - unfold compute. rewrite S1, S2. cbn in HO. destruct HO as [<-|[<-|[<-|[]]]]; unfold pi_, pi_deleglise_rivat; apply DR_throw; auto; lia.
  - rewrite compute_partial by (rewrite S1; exact HO). rewrite S1, S2. apply partial_throw; auto; lia.
Qed.
Theorem main_large args ws x : 1 <= e_hw e < 2 ^ 31 -> Forall2 asks args ws -> numbers ws = [x] -> In (asked_algorithm ws) (lmo_options ++ lmo64_options) ->
  2 ^ 63 <= x -> main e args = Ok (EndRun 1 (if asked_print ws then e_log e else [])).
Proof.
  intros Hh HA HN HO Hx. apply (main_error args ws x Hh HA HN). intros s threads S1 S2. unfold compute. rewrite S1, S2. rewrite (int64_cast_large x Hx).
  cbn in HO. destruct HO as [<-|[<-|[<-|[<-|[<-|[<-|[<-|[]]]]]]]]; reflexivity.
Qed.
End Main.
