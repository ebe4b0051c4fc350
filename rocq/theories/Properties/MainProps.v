(** Properties C50 (text interface), C51 and C52 (runs of the program) and C53 (self test). *)
From Coq Require Import ZArith List Bool Ascii String Lia Permutation.
From Verif.Base Require Import Res Word Zl Par.
From Verif.Spec Require Import Primes PhiSumSpec IntSpec ExprSpec OptionSpec LMOSpec S2Spec MainSpec.
From Verif.Model Require Import Options Oracles LMO1 LMO LMOParallel DelegliseRivat Main SelfTest.
From Verif.Proofs Require Import LMO1 DelegliseRivat LMOPar Options Main SelfTest.
From Verif.Properties Require Import LMOProps DRProps OptionProps.
Import ListNotations.
Open Scope Z_scope.

(** *** C50: pi(string) gives the decimal notation of the sum of the primes up to the value
    of the expression.  Missing for the full claim: larger x, for which it is false. *)
Theorem C50_partial : forall o expr x threads, evaluates expr x -> valid_dr o x -> 1 <= threads < 2 ^ 31 -> x <= dr_limit o ->
  x < 52175271301331128848 -> exists t, pi_string o expr threads = Ok t /\ decimal_of (prime_sum x) t.
Proof. exact pi_string_ok. Qed.
(** above it, whenever none of the intermediate sums hits the failing window *)
Theorem C50_window_partial : forall o expr x threads, evaluates expr x -> valid_dr o x -> 1 <= threads < 2 ^ 31 -> x <= dr_limit o -> dr_range o x ->
  (forall n c, 1 <= n -> 0 <= c <= 6 -> window_free (x / n) c) ->
  exists t, pi_string o expr threads = Ok t /\ decimal_of (prime_sum x) t.
Proof. exact pi_string_window. Qed.
Theorem C50_refuted : exists x, forall o expr threads, evaluates expr x -> valid_dr o x -> 1 <= threads < 2 ^ 31 -> x <= dr_limit o ->
  exists t, pi_string o expr threads = Ok t /\ decimal_of (prime_sum x + 2 ^ 128) t.
Proof. exists 52175271301331128848. exact pi_string_wrong. Qed.
(** No text that is not an expression gives a result. *)
Theorem C50_malformed : forall o expr threads, ~ well_formed expr -> pi_string o expr threads = Fail Throw \/ pi_string o expr threads = Fail UB.
Proof. exact pi_string_malformed. Qed.
Example C50_witness_window : exists t, pi_string (DR_o true true) (C43_txt "10^20") 8 = Ok t /\ decimal_of (prime_sum (10 ^ 20)) t.
Proof.
  destruct C01_witness_window as (W1 & W2 & _).
  apply C50_window_partial; [apply to_int128_iff; vm_compute; reflexivity|apply C01_witness_oracles|lia|vm_compute; discriminate|exact W2|exact W1].
Qed.
Print Assumptions C50_window_partial. Print Assumptions C50_partial. Print Assumptions C50_refuted. Print Assumptions C50_malformed.

(** The environment of a run: any tuning factor is accepted, its value decides between the
    smallest and the largest y. *)
Definition C51_env (lib : bool) : main_env bool := {|
  e_double := fun v => if Nat.eqb (List.length v) 0 then None else Some true;
  e_hw := 8;
  e_dr := fun a => DR_o (match a with Some b => b | None => false end) lib;
  e_lmo := fun a => C02_par_oracles (match a with Some b => b | None => false end);
  e_log := []; e_seconds := text "0.001" |}.
Lemma C51_asks : forall lib args x s, parseOptions (e_double (C51_env lib)) 8 args = Ok (Run x s) ->
  exists ws, Forall2 (asks (e_double (C51_env lib))) args ws /\ numbers ws = [x] /\ asked_algorithm ws = s_option s /\
    asked_print ws = s_print s /\ asked_time ws = s_time s /\ asked_alpha ws = s_alpha s.
Proof. intros lib args x s H. destruct (C43_run _ _ _ _ _ _ H) as (ws & H1 & H2 & H3 & H4 & H5 & H6). exists ws. repeat split; auto; congruence. Qed.

(** *** C51: what the program writes.  An argument list that asks for the number x and an
    algorithm makes it write the decimal notation of the value of that algorithm at x,
    alone on a line or with the additional lines asked for, and end with exit code 0. *)
Theorem C51_dr_partial : forall D (e : main_env D) args ws x, 1 <= e_hw e < 2 ^ 31 ->
  Forall2 (asks (e_double e)) args ws -> numbers ws = [x] -> In (asked_algorithm ws) dr_options ->
  valid_dr (e_dr e (asked_alpha ws)) x -> x <= dr_limit (e_dr e (asked_alpha ws)) -> x < 52175271301331128848 ->
  exists t, decimal_of (prime_sum x) t /\
    main e args = Ok (EndRun 0 (output (e_log e) (e_seconds e) (asked_print ws) (asked_time ws) None t)).
Proof. intros D e. exact (main_dr e). Qed.
Theorem C51_dr_window_partial : forall D (e : main_env D) args ws x, 1 <= e_hw e < 2 ^ 31 ->
  Forall2 (asks (e_double e)) args ws -> numbers ws = [x] -> In (asked_algorithm ws) dr_options ->
  valid_dr (e_dr e (asked_alpha ws)) x -> x <= dr_limit (e_dr e (asked_alpha ws)) -> dr_range (e_dr e (asked_alpha ws)) x ->
  (forall n c, 1 <= n -> 0 <= c <= 6 -> window_free (x / n) c) ->
  exists t, decimal_of (prime_sum x) t /\
    main e args = Ok (EndRun 0 (output (e_log e) (e_seconds e) (asked_print ws) (asked_time ws) None t)).
Proof. intros D e. exact (main_dr_window e). Qed.
Theorem C51_lmo_partial : forall D (e : main_env D) args ws x, 1 <= e_hw e < 2 ^ 31 ->
  Forall2 (asks (e_double e)) args ws -> numbers ws = [x] -> In (asked_algorithm ws) lmo_options ->
  valid_par (e_lmo e (asked_alpha ws)) x -> - 2 ^ 63 <= x < 2 ^ 63 ->
  exists t, decimal_of (prime_sum x) t /\
    main e args = Ok (EndRun 0 (output (e_log e) (e_seconds e) (asked_print ws) (asked_time ws) None t)).
Proof. intros D e. exact (main_lmo e). Qed.
Theorem C51_lmo64_partial : forall D (e : main_env D) args ws x, 1 <= e_hw e < 2 ^ 31 ->
  Forall2 (asks (e_double e)) args ws -> numbers ws = [x] -> In (asked_algorithm ws) lmo64_options ->
  valid_par (e_lmo e (asked_alpha ws)) x -> - 2 ^ 63 <= x < 2 ^ 63 -> prime_sum x < 2 ^ 63 ->
  exists t, decimal_of (prime_sum x) t /\
    main e args = Ok (EndRun 0 (output (e_log e) (e_seconds e) (asked_print ws) (asked_time ws) None t)).
Proof. intros D e. exact (main_lmo64 e). Qed.
(** the five partial results *)
Theorem C51_terms_partial : forall D (e : main_env D) args ws x, 1 <= e_hw e < 2 ^ 31 ->
  Forall2 (asks (e_double e)) args ws -> numbers ws = [x] -> In (asked_algorithm ws) partial_options ->
  valid_dr (e_dr e (asked_alpha ws)) x -> 1 <= x -> x <= dr_limit (e_dr e (asked_alpha ws)) -> x < 52175271301331128848 ->
  exists r3 r6 t, is_root 3 r3 x /\ is_root 6 r6 x /\
    decimal_of (partial_sum (asked_algorithm ws) x (dr_y (e_dr e (asked_alpha ws)) r3 r6)) t /\
    main e args = Ok (EndRun 0 (output (e_log e) (e_seconds e) (asked_print ws) (asked_time ws) (Some (name_of (asked_algorithm ws))) t)).
Proof. intros D e. exact (main_partial e). Qed.
(** only S1 uses the failing multiplication *)
Theorem C51_terms_window_partial : forall D (e : main_env D) args ws x, 1 <= e_hw e < 2 ^ 31 ->
  Forall2 (asks (e_double e)) args ws -> numbers ws = [x] -> In (asked_algorithm ws) partial_options ->
  valid_dr (e_dr e (asked_alpha ws)) x -> 1 <= x -> x <= dr_limit (e_dr e (asked_alpha ws)) -> x < 2 ^ 84 ->
  (asked_algorithm ws = OPTION_S1 -> forall n c, 1 <= n -> 0 <= c <= 6 -> window_free (x / n) c) ->
  exists r3 r6 t, is_root 3 r3 x /\ is_root 6 r6 x /\
    decimal_of (partial_sum (asked_algorithm ws) x (dr_y (e_dr e (asked_alpha ws)) r3 r6)) t /\
    main e args = Ok (EndRun 0 (output (e_log e) (e_seconds e) (asked_print ws) (asked_time ws) (Some (name_of (asked_algorithm ws))) t)).
Proof. intros D e. exact (main_partial_window e). Qed.
Theorem C51_terms_0 : forall D (e : main_env D) args ws x, 1 <= e_hw e < 2 ^ 31 ->
  Forall2 (asks (e_double e)) args ws -> numbers ws = [x] -> In (asked_algorithm ws) partial_options -> x < 1 ->
  exists t, decimal_of 0 t /\
    main e args = Ok (EndRun 0 (output (e_log e) (e_seconds e) (asked_print ws) (asked_time ws) None t)).
Proof. intros D e. exact (main_partial_0 e). Qed.
(** At this x the number written is too large by 2^128, with exit code 0. *)
Theorem C51_refuted : exists x, forall D (e : main_env D) args ws, 1 <= e_hw e < 2 ^ 31 ->
  Forall2 (asks (e_double e)) args ws -> numbers ws = [x] -> In (asked_algorithm ws) dr_options ->
  valid_dr (e_dr e (asked_alpha ws)) x -> x <= dr_limit (e_dr e (asked_alpha ws)) ->
  exists t, decimal_of (prime_sum x + 2 ^ 128) t /\
    main e args = Ok (EndRun 0 (output (e_log e) (e_seconds e) (asked_print ws) (asked_time ws) None t)).
Proof. exists 52175271301331128848. intros D e. exact (main_dr_wrong e). Qed.
Print Assumptions C51_dr_window_partial. Print Assumptions C51_terms_window_partial.
Print Assumptions C51_dr_partial. Print Assumptions C51_lmo_partial. Print Assumptions C51_lmo64_partial. Print Assumptions C51_terms_partial.
Print Assumptions C51_terms_0. Print Assumptions C51_refuted.

Example C51_witness : exists t, decimal_of 76127 t /\ main (C51_env true) [C43_txt "1e3"; C43_txt "--time"] =
  Ok (EndRun 0 (t ++ lf ++ text "Seconds: 0.001" ++ lf)).
Proof.
  assert (P : exists s, parseOptions (e_double (C51_env true)) 8 [C43_txt "1e3"; C43_txt "--time"] = Ok (Run 1000 s) /\
    s_option s = OPTION_PI /\ s_print s = false /\ s_time s = true) by (eexists; split; [vm_compute; reflexivity|repeat split]).
  destruct P as (s & P & E1 & E2 & E3). destruct (C51_asks _ _ _ _ P) as (ws & A & N & O & Q & T & _). rewrite E1 in O. rewrite E2 in Q. rewrite E3 in T.
  destruct (C51_dr_partial _ (C51_env true) _ ws 1000 ltac:(cbn; lia) A N) as (t & D & M); [rewrite O; cbn; auto|apply C01_witness_oracles|discriminate|reflexivity|].
  rewrite C02_sum_1000 in D. exists t. split; [exact D|]. rewrite M, Q, T. reflexivity.
Qed.
Example C51_witness_window : exists t, decimal_of (prime_sum (10 ^ 20)) t /\ main (C51_env true) [C43_txt "1e20"] = Ok (EndRun 0 (t ++ lf)).
Proof.
  assert (P : exists s, parseOptions (e_double (C51_env true)) 8 [C43_txt "1e20"] = Ok (Run (10 ^ 20) s) /\
    s_option s = OPTION_PI /\ s_print s = false /\ s_time s = false) by (eexists; split; [vm_compute; reflexivity|repeat split]).
  destruct P as (s & P & E1 & E2 & E3). destruct (C51_asks _ _ _ _ P) as (ws & A & N & O & Q & T & _). rewrite E1 in O. rewrite E2 in Q. rewrite E3 in T.
  destruct C01_witness_window as (W1 & _).
  destruct (C51_dr_window_partial _ (C51_env true) _ ws (10 ^ 20) ltac:(cbn; lia) A N) as (t & D & M); [rewrite O; cbn; auto|apply C01_witness_oracles|vm_compute; discriminate|left; reflexivity|exact W1|].
  exists t. split; [exact D|]. rewrite M, Q, T. reflexivity.
Qed.
(** the terms other than S1, here at the first argument with a wrong result *)
Example C51_witness_terms : exists r3 r6 t, is_root 3 r3 52175271301331128848 /\ is_root 6 r6 52175271301331128848 /\
  decimal_of (S2_hard_sum 52175271301331128848 r3 (Z.min 6 (pi r3))) t /\
  main (C51_env true) [C43_txt "52175271301331128848"; C43_txt "--S2_hard"] = Ok (EndRun 0 (t ++ lf)).
Proof.
  assert (P : exists s, parseOptions (e_double (C51_env true)) 8 [C43_txt "52175271301331128848"; C43_txt "--S2_hard"] = Ok (Run 52175271301331128848 s) /\
    s_option s = OPTION_S2_HARD /\ s_print s = false /\ s_time s = false /\ s_alpha s = None) by (eexists; split; [vm_compute; reflexivity|repeat split]).
  destruct P as (s & P & E1 & E2 & E3 & E4). destruct (C51_asks _ _ _ _ P) as (ws & A & N & O & Q & T & AL). rewrite E1 in O. rewrite E2 in Q. rewrite E3 in T. rewrite E4 in AL.
  destruct (C51_terms_window_partial _ (C51_env true) _ ws 52175271301331128848 ltac:(cbn; lia) A N) as (r3 & r6 & t & R3 & R6 & D & M);
    [rewrite O; cbn; auto 10|apply C01_witness_oracles|lia|vm_compute; discriminate|reflexivity|rewrite O; discriminate|].
  exists r3, r6, t. split; [exact R3|]. split; [exact R6|]. rewrite O, AL in D. split; [exact D|]. rewrite M, O, Q, T. reflexivity.
Qed.
Example C51_witness_lmo : exists t, decimal_of 76127 t /\ main (C51_env true) [C43_txt "-a1.5"; C43_txt "--lmo5"; C43_txt "--number=10^3"] = Ok (EndRun 0 (t ++ lf)).
Proof.
  assert (P : exists s, parseOptions (e_double (C51_env true)) 8 [C43_txt "-a1.5"; C43_txt "--lmo5"; C43_txt "--number=10^3"] = Ok (Run 1000 s) /\
    s_option s = OPTION_LMO5 /\ s_print s = false /\ s_time s = false) by (eexists; split; [vm_compute; reflexivity|repeat split]).
  destruct P as (s & P & E1 & E2 & E3). destruct (C51_asks _ _ _ _ P) as (ws & A & N & O & Q & T & _). rewrite E1 in O. rewrite E2 in Q. rewrite E3 in T.
  destruct (C51_lmo64_partial _ (C51_env true) _ ws 1000 ltac:(cbn; lia) A N) as (t & D & M); [rewrite O; cbn; auto|apply C02_witness_par; reflexivity|lia|rewrite C02_sum_1000; reflexivity|].
  rewrite C02_sum_1000 in D. exists t. split; [exact D|]. rewrite M, Q, T. reflexivity.
Qed.
Example C51_witness_wrong : exists t, decimal_of (prime_sum 52175271301331128848 + 2 ^ 128) t /\
  main (C51_env true) [C43_txt "52175271301331128848"] = Ok (EndRun 0 (t ++ lf)).
Proof.
  assert (P : exists s, parseOptions (e_double (C51_env true)) 8 [C43_txt "52175271301331128848"] = Ok (Run 52175271301331128848 s) /\
    s_option s = OPTION_PI /\ s_print s = false /\ s_time s = false) by (eexists; split; [vm_compute; reflexivity|repeat split]).
  destruct P as (s & P & E1 & E2 & E3). destruct (C51_asks _ _ _ _ P) as (ws & A & N & O & Q & T & _). rewrite E1 in O. rewrite E2 in Q. rewrite E3 in T.
  destruct (main_dr_wrong (C51_env true) _ ws ltac:(cbn; lia) A N) as (t & D & M); [rewrite O; cbn; auto|apply C01_witness_oracles|discriminate|].
  exists t. split; [exact D|]. rewrite M, Q, T. reflexivity.
Qed.

(** *** C52: a number beyond the limit of the algorithm is an error: exit code 1, no result *)
Theorem C52_limit : forall D (e : main_env D) args ws x, 1 <= e_hw e < 2 ^ 31 ->
  Forall2 (asks (e_double e)) args ws -> numbers ws = [x] -> In (asked_algorithm ws) (dr_options ++ partial_options) ->
  0 <= dr_root6 (e_dr e (asked_alpha ws)) <= 2 ^ 22 -> 2 <= x -> dr_limit (e_dr e (asked_alpha ws)) < x ->
  main e args = Ok (EndRun 1 (if asked_print ws then e_log e else [])).
Proof. intros D e. exact (main_limit e). Qed.
Theorem C52_large : forall D (e : main_env D) args ws x, 1 <= e_hw e < 2 ^ 31 ->
  Forall2 (asks (e_double e)) args ws -> numbers ws = [x] -> In (asked_algorithm ws) (lmo_options ++ lmo64_options) ->
  2 ^ 63 <= x -> main e args = Ok (EndRun 1 (if asked_print ws then e_log e else [])).
Proof. intros D e. exact (main_large e). Qed.
Print Assumptions C52_limit. Print Assumptions C52_large.

Example C52_witness : main (C51_env true) [C43_txt "1e30"] = Ok (EndRun 1 []) /\ main (C51_env true) [C43_txt "1e19"; C43_txt "-l"] = Ok (EndRun 1 []).
Proof.
  assert (P : exists s, parseOptions (e_double (C51_env true)) 8 [C43_txt "1e30"] = Ok (Run (10 ^ 30) s) /\
    s_option s = OPTION_PI /\ s_print s = false) by (eexists; split; [vm_compute; reflexivity|repeat split]).
  assert (R : exists s, parseOptions (e_double (C51_env true)) 8 [C43_txt "1e19"; C43_txt "-l"] = Ok (Run (10 ^ 19) s) /\
    s_option s = OPTION_LMO /\ s_print s = false) by (eexists; split; [vm_compute; reflexivity|repeat split]).
  split.
  - destruct P as (s & P & E1 & E2). destruct (C51_asks _ _ _ _ P) as (ws & A & N & O & Q & _). rewrite E1 in O. rewrite E2 in Q.
    rewrite (C52_limit _ (C51_env true) _ ws (10 ^ 30) ltac:(cbn; lia) A N); [now rewrite Q|rewrite O; cbn; auto|cbn; lia|discriminate|reflexivity].
  - destruct R as (s & R & E1 & E2). destruct (C51_asks _ _ _ _ R) as (ws & A & N & O & Q & _). rewrite E1 in O. rewrite E2 in Q.
    rewrite (C52_large _ (C51_env true) _ ws (10 ^ 19) ltac:(cbn; lia) A N); [now rewrite Q|rewrite O; cbn; auto|vm_compute; discriminate].
Qed.

(** *** C53: the self test never reports an error and never overflows, for every sequence of
    random numbers, number of threads, tuning factor, schedule and measured time *)
Theorem C53 : forall e, valid_test e -> test e = Ok true.
Proof. exact test_ok. Qed.
(** every comparison of the test holds: success is not only a caught exception *)
Theorem C53_checks : forall e, valid_test e -> test_body e = Ok tt.
Proof. exact test_body_ok. Qed.
(** the test can fail: two functions that differ at some x below 10000 are reported *)
Theorem C53_detects : forall f1 f2 g1 g2 iters rand x, (forall n x, 0 <= x < 10000 -> f1 n x = Ok (g1 x) /\ f2 n x = Ok (g2 x)) ->
  0 <= x < 10000 -> g1 x <> g2 x -> caught (check_all f1 f2 iters rand) = Ok false.
Proof. exact check_all_differ. Qed.
Print Assumptions C53. Print Assumptions C53_checks. Print Assumptions C53_detects.
Example C53_witness_detects : caught (check_all (fun _ x => Ok (prime_sum x)) (fun _ x => Ok (prime_sum x + (if x =? 9973 then 1 else 0))) 50 (fun _ => 3)) = Ok false.
Proof.
  apply (C53_detects _ _ prime_sum (fun x => prime_sum x + (if x =? 9973 then 1 else 0)) _ _ 9973); [auto|lia|]. cbn beta. rewrite Z.eqb_refl. generalize (prime_sum 9973). lia.
Qed.
Definition C53_env : test_env := {|
  te_lmo := fun k n => C02_par_oracles (Z.odd n); te_dr := fun n => DR_o (Z.even n) (Z.odd n);
  te_rand := fun k i => (1103515245 * (1000 * k + i) + 12345) mod 2 ^ 31;
  te_leg := fun b i n lo hi => [zrange lo hi]; te_sched := fun lo hi => [rev (zrange lo hi)]; te_threads := 4 |}.
Example C53_witness : valid_test C53_env.
Proof.
  unfold valid_test. cbn [te_lmo te_dr te_rand te_leg te_sched te_threads C53_env].
  split; [|split; [|split; [|split; [|split]]]].
  - intros k n x Hx. apply C02_witness_par. eapply Z.lt_trans; [apply Hx|reflexivity].
  - intros n x Hx. split; [apply C01_witness_oracles|]. cbn [dr_limit DR_o]. apply Z.lt_le_incl. eapply Z.lt_trans; [apply Hx|reflexivity].
  - intros k i. apply Z.mod_pos_bound. reflexivity.
  - intros b i n lo hi. unfold schedule_of. replace (List.concat [zrange lo hi]) with (zrange lo hi) by (symmetry; apply app_nil_r). apply Permutation_refl.
  - intros lo hi. unfold schedule_of. replace (List.concat [rev (zrange lo hi)]) with (rev (zrange lo hi)) by (symmetry; apply app_nil_r). apply Permutation_sym, Permutation_rev.
  - split; [discriminate|reflexivity].
Qed.
