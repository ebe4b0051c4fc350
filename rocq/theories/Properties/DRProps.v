(** Properties C01, C03, C04, C05, C44 and C47: the complete computation with the
    algorithm of Deleglise and Rivat, which is what pi(x) runs. *)
From Coq Require Import ZArith List Bool Lia Permutation.
From Verif.Base Require Import Res Word Zl IType Par.
From Verif.Spec Require Import Primes LMOSpec PhiSumSpec.
From Verif.Model Require Import Imath Libdivide S2 S2LoadBalancer S2Hard Oracles DelegliseRivat.
From Verif.Proofs Require Import Primes PhiSum LMO1 S2 S2LoadBalancer S2Hard DelegliseRivat.
From Verif.Properties Require Import PhiProps LMOProps.
Import ListNotations.
Open Scope Z_scope.

(** *** C01, pi(x): every x below the first failing argument of the 256-bit
    multiplication; every y a clamped tuning factor can give, every number of threads,
    schedule, measured time and floating point estimate, plain or libdivide easy leaves.
    Missing for the full claim: larger x, for which it is false (C01_refuted). *)
Theorem C01_partial : forall o x threads, valid_dr o x -> 1 <= threads < 2 ^ 31 -> x <= dr_limit o ->
  x < 52175271301331128848 -> pi_ o x threads = Ok (prime_sum x).
Proof.
  intros o x threads HO Ht Hl Hx. apply DR_ok; [exact HO|exact Ht|exact Hl|left; eapply Z.lt_trans; [exact Hx|reflexivity]|].
  intros n c Hn _. apply window_free_small. unfold first_bad.
  destruct (Z.le_gt_cases 0 x).
  - assert (x / n <= x) by (apply Z.div_le_upper_bound; nia). lia.
  - assert (x / n < 0) by (apply Z.div_lt_upper_bound; lia). lia.
Qed.
(** above it, whenever none of the intermediate sums hits the failing window and the sums of
    the words of the sieve fit: x < 2^88, or y <= 2^48 and z <= 2^59 - 2^34 (dr_range) *)
Theorem C01_window_partial : forall o x threads, valid_dr o x -> 1 <= threads < 2 ^ 31 -> x <= dr_limit o -> dr_range o x ->
  (forall n c, 1 <= n -> 0 <= c <= 6 -> window_free (x / n) c) ->
  pi_ o x threads = Ok (prime_sum x).
Proof. exact DR_ok. Qed.
(** the failing arguments are the first one and its successor, then it is right again up to
    twice that number *)
Theorem C01_next_partial : forall o x threads, valid_dr o x -> 1 <= threads < 2 ^ 31 -> x <= dr_limit o ->
  52175271301331128850 <= x < 104350542602662257696 -> pi_ o x threads = Ok (prime_sum x).
Proof. exact DR_next. Qed.
Theorem C01_exactly_partial : forall o x threads, valid_dr o x -> 1 <= threads < 2 ^ 31 -> x <= dr_limit o -> x < 104350542602662257696 ->
  (pi_ o x threads = Ok (prime_sum x) <-> x <> 52175271301331128848 /\ x <> 52175271301331128849).
Proof. exact DR_exactly. Qed.
Theorem C01_below_2 : forall o x threads, x < 2 -> pi_ o x threads = Ok 0.
Proof. exact DR_below_2. Qed.
(** The unrestricted claim is false: at this x the result is too large by 2^128. *)
Theorem C01_refuted : exists x, 2 <= x < 2 ^ 66 /\ forall o threads, valid_dr o x -> 1 <= threads < 2 ^ 31 -> x <= dr_limit o ->
  pi_ o x threads = Ok (prime_sum x + 2 ^ 128).
Proof. exists 52175271301331128848. split; [split; [discriminate|reflexivity]|]. exact DR_wrong. Qed.
Print Assumptions C01_partial. Print Assumptions C01_window_partial. Print Assumptions C01_next_partial. Print Assumptions C01_exactly_partial. Print Assumptions C01_below_2. Print Assumptions C01_refuted.

(** Environments for every x: smallest or largest y, plain or libdivide easy leaves, two
    families of schedules and of measurements. *)
Definition DR_o (big lib : bool) : dr_oracles :=
  let sched := fun lo hi => if big then [zrange lo hi] else [rev (zrange lo hi)] in
  {| dr_base := C02_oracles; dr_root6 := 2; dr_y := fun r3 r6 => if big then r3 * r6 else r3; dr_limit := 2 ^ 91;
     dr_triv := sched; dr_easy := if lib then EasyLibdivide div128_knuth mullhi_32 else EasyPlain;
     dr_easy_root := 9; dr_easy_sched := sched;
     dr_hard := {| ho_order := fun n => zrange 0 n; ho_few := fun _ _ => lib; ho_size := 0; ho_leaf := 40;
       ho_obs := fun r => {| ob_increase := Z.odd r; ob_decrease := big; ob_fast := r <? 7; ob_segments := fun s => if lib then s else 2 * s; ob_size := 0 |};
       ho_sched := fun _ => sched |} |}.
Example C01_witness_oracles : forall big lib x, valid_dr (DR_o big lib) x.
Proof.
  intros big lib x. unfold valid_dr. cbn [dr_base dr_root6 dr_y dr_triv dr_easy dr_easy_root dr_easy_sched dr_hard DR_o].
  assert (S : valid_sched (fun lo hi => if big then [zrange lo hi] else [rev (zrange lo hi)])).
  { unfold valid_sched, schedule_of. intros. destruct big; cbn [concat]; rewrite app_nil_r; auto using Permutation_sym, Permutation_rev. }
  split; [exact C02_witness_oracles|]. split; [split; discriminate|]. split; [exact S|]. split; [exact S|].
  split; [split; discriminate|]. split; [destruct lib; cbn; auto|]. intros r3 r6 (A0 & A1 & A2) (B0 & B1 & B2). split.
  - assert (r3 <= r3 * r6); [|destruct big; lia]. destruct (Z.eq_dec r6 0) as [->|]; [|nia]. destruct (Z.eq_dec r3 0) as [->|]; [lia|].
    exfalso. change ((0 + 1) ^ 6) with 1 in B2. assert (0 < r3 ^ 3) by (apply Z.pow_pos_nonneg; lia). lia.
  - pose proof (Z.sqrt_nonneg (x / (if big then r3 * r6 else r3))). split; [intros; apply Permutation_refl|]. split; [cbn [ho_size]; lia|].
    split; [|intros r; exact S].
    intros r. split; [cbn [ob_size ho_obs]; lia|]. intros s Hs. cbn [ob_segments ho_obs]. destruct lib; lia.
Qed.
Example C01_witness : pi_ (DR_o true true) 1000 3 = Ok 76127 /\ prime_sum 1000 = 76127.
Proof.
  pose proof C02_sum_1000 as P. split; [|exact P].
  rewrite C01_partial; [apply (f_equal Ok), P|apply C01_witness_oracles|lia|discriminate|reflexivity].
Qed.
Example C01_witness_window : (forall n c, 1 <= n -> 0 <= c <= 6 -> window_free (10 ^ 20 / n) c) /\ dr_range (DR_o true true) (10 ^ 20) /\
  pi_ (DR_o true true) (10 ^ 20) 8 = Ok (prime_sum (10 ^ 20)).
Proof.
  assert (R : 52175271301331128850 <= 10 ^ 20 < 104350542602662257696) by lia.
  split; [intros n c Hn _; now apply window_next|]. split; [left; reflexivity|]. apply C01_next_partial; [apply C01_witness_oracles|lia|vm_compute; discriminate|exact R].
Qed.
Example C01_witness_refuted : exists o, valid_dr o 52175271301331128848 /\ 52175271301331128848 <= dr_limit o.
Proof. exists (DR_o false false). split; [apply C01_witness_oracles|discriminate]. Qed.
(** the same environment at the second failing argument and behind it *)
Example C01_witness_exactly : pi_ (DR_o true false) 52175271301331128849 3 <> Ok (prime_sum 52175271301331128849) /\
  pi_ (DR_o true false) 52175271301331128850 3 = Ok (prime_sum 52175271301331128850).
Proof.
  split.
  - intros E. apply C01_exactly_partial in E; [destruct E as [_ E]; now apply E|apply C01_witness_oracles|lia|vm_compute; discriminate|reflexivity].
  - apply C01_exactly_partial; [apply C01_witness_oracles|lia|vm_compute; discriminate|reflexivity|split; discriminate].
Qed.

(** *** C03, C04: number of threads, schedules, order of the reductions, measured times and
    the resulting segment sizes, and the floating point estimates of the roots do not
    influence the outcome; whatever they are the computation terminates (the outcome is
    never Fuel).  Partial: x < 2^88, or a tuning factor with y <= 2^48 and
    z <= 2^59 - 2^34. *)
Theorem C03_partial : forall o1 o2 x t1 t2, valid_dr o1 x -> valid_dr o2 x -> 1 <= t1 < 2 ^ 31 -> 1 <= t2 < 2 ^ 31 -> dr_range o1 x ->
  (forall r3 r6, dr_y o1 r3 r6 = dr_y o2 r3 r6) -> dr_limit o1 = dr_limit o2 ->
  pi_ o1 x t1 = pi_ o2 x t2.
Proof. exact DR_indep. Qed.
Example C03_witness : valid_dr (DR_o true true) 1000 /\ valid_dr (DR_o true false) 1000 /\
  pi_ (DR_o true true) 1000 1 = pi_ (DR_o true false) 1000 64.
Proof.
  split; [apply C01_witness_oracles|]. split; [apply C01_witness_oracles|].
  apply C03_partial; try apply C01_witness_oracles; try lia; try reflexivity. left. reflexivity.
Qed.
(** changing the measurements only *)
Theorem C04_partial : forall o sp ob x threads, valid_dr o x -> valid_dr (with_measurements o sp ob) x -> 1 <= threads < 2 ^ 31 -> dr_range o x ->
  pi_ (with_measurements o sp ob) x threads = pi_ o x threads /\ pi_ o x threads <> Fail Fuel.
Proof. exact DR_measurements. Qed.
Example C04_witness : valid_dr (DR_o true true) 1000 /\
  valid_dr (with_measurements (DR_o true true) (fun r => if Z.odd r then Gt else Eq) (fun r => {| ob_increase := true; ob_decrease := true; ob_fast := false; ob_segments := fun s => 1; ob_size := 0 |})) 1000.
Proof.
  split; [apply C01_witness_oracles|]. destruct (C01_witness_oracles true true 1000) as (H1 & H2 & H3 & H4 & H5 & H6 & H7).
  repeat (split; [assumption|]). intros r3 r6 R3 R6. destruct (H7 r3 r6 R3 R6) as (A & B1 & B2 & B3 & B4). split; [exact A|]. split; [exact B1|]. split; [exact B2|]. split; [|exact B4].
  intros r. split; [apply (B3 r)|]. intros s Hs. cbn [ob_segments ho_obs with_measurements dr_hard]. lia.
Qed.
Print Assumptions C03_partial. Print Assumptions C04_partial.

(** *** C05: two tuning factors, that is two values of y, give the same sum.  Partial: x below
    the first failing argument, or no intermediate sum in the failing window. *)
Theorem C05_partial : forall o1 o2 x t1 t2, valid_dr o1 x -> valid_dr o2 x -> 1 <= t1 < 2 ^ 31 -> 1 <= t2 < 2 ^ 31 ->
  x <= dr_limit o1 -> x <= dr_limit o2 -> x < 52175271301331128848 -> pi_ o1 x t1 = pi_ o2 x t2.
Proof. intros. rewrite !C01_partial; auto. Qed.
Theorem C05_window_partial : forall o1 o2 x t1 t2, valid_dr o1 x -> valid_dr o2 x -> 1 <= t1 < 2 ^ 31 -> 1 <= t2 < 2 ^ 31 ->
  x <= dr_limit o1 -> x <= dr_limit o2 -> dr_range o1 x -> dr_range o2 x -> (forall n c, 1 <= n -> 0 <= c <= 6 -> window_free (x / n) c) ->
  pi_ o1 x t1 = pi_ o2 x t2.
Proof. intros. rewrite !C01_window_partial; auto. Qed.
(** behind the two failing arguments, up to twice the first *)
Theorem C05_next_partial : forall o1 o2 x t1 t2, valid_dr o1 x -> valid_dr o2 x -> 1 <= t1 < 2 ^ 31 -> 1 <= t2 < 2 ^ 31 ->
  x <= dr_limit o1 -> x <= dr_limit o2 -> 52175271301331128850 <= x < 104350542602662257696 -> pi_ o1 x t1 = pi_ o2 x t2.
Proof. intros. rewrite !C01_next_partial; auto. Qed.
(** every real tuning factor in [1, iroot<6>(x)] (here any fraction p/q) gives a y in the
    range of valid_dr, and so does every other y in that range *)
Theorem C05_range : forall x r3 r6 p q, 0 <= r3 -> 0 < q -> q <= p <= r6 * q -> is_root 3 r3 x -> is_root 6 r6 x ->
  r3 <= r3 * p / q <= r3 * r6.
Proof. exact alpha_range. Qed.
Example C05_witness : dr_y (DR_o true true) 10 3 <> dr_y (DR_o false true) 10 3 /\
  pi_ (DR_o true true) 1000 1 = pi_ (DR_o false true) 1000 1 /\ is_root 3 10 1000 /\ is_root 6 3 1000 /\ 10 <= 10 * 25 / 10 <= 10 * 3.
Proof.
  split; [discriminate|]. split; [apply C05_partial; try apply C01_witness_oracles; try lia; try discriminate; reflexivity|].
  unfold is_root. repeat split; discriminate.
Qed.
Print Assumptions C05_partial. Print Assumptions C05_window_partial. Print Assumptions C05_next_partial. Print Assumptions C05_range.

(** *** C44: above the limit an error is raised *)
Theorem C44_rejects : forall o x threads, 0 <= dr_root6 o <= 2 ^ 22 -> 2 <= x < 2 ^ 127 -> dr_limit o < x ->
  pi_ o x threads = Fail Throw.
Proof. intros o x threads H1 H2 H3. apply DR_throw; [exact H1| |exact H3]. change (tmax i128) with (2 ^ 127 - 1). lia. Qed.
(** below it z = x / y fits: alpha = p/q is the tuning factor; the limit is at most
    pow(2^61 * alpha, 3/2) and y + 1 at least iroot<3>(x) * alpha, both up to a relative
    error of 1/1000 of the floating point computation *)
Theorem C44_z_fits : forall x p q r3 y limit, 2 <= x <= limit -> 0 < q <= p -> is_root 3 r3 x ->
  1000 * limit ^ 2 * q ^ 3 <= 1001 * 2 ^ 183 * p ^ 3 -> 1000 * (r3 * p) <= 1001 * ((y + 1) * q) -> r3 <= y ->
  0 <= x / y < 2 ^ 62.
Proof. exact limit_z. Qed.
Example C44_witness : pi_ (DR_o true true) (2 ^ 92) 4 = Fail Throw.
Proof. apply C44_rejects; [split; discriminate|split; [discriminate|reflexivity]|reflexivity]. Qed.
(** alpha = 3/2, x just below the limit *)
Example C44_witness_z : let x := 6431881881784842714146144256 in let limit := 6432525134298271939687350272 in let r3 := 1859713398 in let y := r3 * 3 / 2 in
  2 <= x <= limit /\ 0 < 2 <= 3 /\ is_root 3 r3 x /\ 1000 * limit ^ 2 * 2 ^ 3 <= 1001 * 2 ^ 183 * 3 ^ 3 /\ 1000 * (r3 * 3) <= 1001 * ((y + 1) * 2) /\ r3 <= y.
Proof. vm_compute. intuition discriminate. Qed.
Print Assumptions C44_rejects. Print Assumptions C44_z_fits.

(** *** C47: every access of a table in the model is checked and an access out of bounds is
    the outcome Fail UB, as are division by zero and signed overflow.  The computation never
    has this outcome.  Partial: x < 2^88, or a tuning factor with y <= 2^48 and
    z <= 2^59 - 2^34. *)
Theorem C47_partial : forall o x threads, valid_dr o x -> 1 <= threads < 2 ^ 31 -> dr_range o x ->
  pi_ o x threads <> Fail UB.
Proof. exact DR_no_UB. Qed.
(** with x accepted there is no failure of any kind *)
Theorem C47_total_partial : forall o x threads, valid_dr o x -> 1 <= threads < 2 ^ 31 -> dr_range o x -> x <= dr_limit o ->
  exists v, pi_ o x threads = Ok v.
Proof. exact DR_succeeds. Qed.
Example C47_witness : exists v, pi_ (DR_o false true) (10 ^ 25) 8 = Ok v.
Proof.
  assert (B : dr_range (DR_o false true) (10 ^ 25)) by (left; reflexivity). assert (L : 10 ^ 25 <= dr_limit (DR_o false true)) by (change (dr_limit (DR_o false true)) with (2 ^ 91); now apply Z.leb_le). assert (T : 1 <= 8 < 2 ^ 31) by lia.
  exact (C47_total_partial (DR_o false true) (10 ^ 25) 8 (C01_witness_oracles false true (10 ^ 25)) T B L).
Qed.
(** x = 10^30 with a tuning factor of 1000, about four times the default one *)
Definition DR_o30 : dr_oracles :=
  {| dr_base := C02_oracles; dr_root6 := 2; dr_y := fun r3 r6 => r3 * Z.max 1 (Z.min r6 1000); dr_limit := 2 ^ 106;
     dr_triv := dr_triv (DR_o true true); dr_easy := EasyPlain; dr_easy_root := 9; dr_easy_sched := dr_easy_sched (DR_o true true); dr_hard := dr_hard (DR_o true true) |}.
Example C47_witness_30 : exists v, pi_ DR_o30 (10 ^ 30) 8 = Ok v.
Proof.
  assert (R : forall r3 r6, is_root 3 r3 (10 ^ 30) -> is_root 6 r6 (10 ^ 30) -> r3 = 10 ^ 10 /\ r6 = 10 ^ 5).
  { intros r3 r6 R3 R6. split; [apply (root_unique 3 r3 (10 ^ 10) (10 ^ 30))|apply (root_unique 6 r6 (10 ^ 5) (10 ^ 30))]; try lia; try assumption; vm_compute; repeat split; discriminate. }
  apply C47_total_partial; [|lia| |vm_compute; discriminate].
  - destruct (C01_witness_oracles true true (10 ^ 30)) as (H1 & H2 & H3 & H4 & H5 & H6 & H7). unfold valid_dr, DR_o30.
    cbn [dr_base dr_root6 dr_y dr_triv dr_easy dr_easy_root dr_easy_sched dr_hard]. repeat (split; [assumption|]). split; [exact I|].
    intros r3 r6 R3 R6. destruct (H7 r3 r6 R3 R6) as (_ & B1 & _ & _ & B4). destruct (R r3 r6 R3 R6) as [-> ->]. split; [vm_compute; split; discriminate|].
    pose proof (Z.sqrt_nonneg (10 ^ 30 / (10 ^ 10 * Z.max 1 (Z.min (10 ^ 5) 1000)))). split; [exact B1|]. split; [cbn [ho_size dr_hard DR_o]; lia|]. split; [|exact B4].
    intros r. split; [cbn [ob_size ho_obs dr_hard DR_o]; lia|]. intros s Hs. cbn [ob_segments ho_obs dr_hard DR_o]. lia.
  - right. intros r3 r6 R3 R6. destruct (R r3 r6 R3 R6) as [-> ->]. vm_compute. split; discriminate.
Qed.
Print Assumptions C47_partial. Print Assumptions C47_total_partial.
