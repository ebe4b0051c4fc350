(** Properties C43 (command line) and C45 (narrowing to 64 bits). *)
From Coq Require Import ZArith List Bool Ascii String Lia.
From Verif.Base Require Import Res Word.
From Verif.Spec Require Import Primes ExprSpec OptionSpec.
From Verif.Model Require Import Calculator Options Oracles LMO1.
From Verif.Proofs Require Import Options.
From Verif.Properties Require Import LMOProps.
Import ListNotations.
Open Scope Z_scope.

(** *** C43: an argument is read as option and value exactly as specified; everything else
    is the help option *)
Theorem C43_argument : forall a o v, reads a o v -> lookup (fst (makeOption a)) = Some o /\ snd (makeOption a) = v.
Proof. intros a o v H. apply made_reads in H. now inversion H. Qed.
Theorem C43_unknown : forall a, (forall o v, ~ reads a o v) -> lookup (fst (makeOption a)) = Some OPTION_HELP.
Proof. intros a H. destruct (reads_dec a) as [(o & v & R & _)|[_ M]]; [destruct (H _ _ R)|exact M]. Qed.
(** A computation is started exactly if every argument asks for something and there is
    exactly one number; x is the value of its expression, and the last of several
    algorithms, thread numbers, precisions and tuning factors is taken.  Partial: the values
    of --threads and --status fit an int. *)
Theorem C43_run_partial : forall D (to_double : list ascii -> option D) hw args x s, 1 <= hw ->
  (forall ws, Forall2 (asks to_double) args ws -> int_values ws) ->
  parseOptions to_double hw args = Ok (Run x s) <->
  exists ws, Forall2 (asks to_double) args ws /\ numbers ws = [x] /\
    s = mkSettings (asked_algorithm ws) (asked_time ws) [x] (asked_threads hw ws) (asked_precision ws) (asked_alpha ws) (asked_print ws).
Proof. exact @parse_run_int. Qed.
(** without the condition: the same x, algorithm and tuning factor *)
Theorem C43_run : forall D (to_double : list ascii -> option D) hw args x s,
  parseOptions to_double hw args = Ok (Run x s) ->
  exists ws, Forall2 (asks to_double) args ws /\ numbers ws = [x] /\
    s_option s = asked_algorithm ws /\ s_alpha s = asked_alpha ws /\ s_time s = asked_time ws /\ s_print s = asked_print ws.
Proof. exact @parse_run_any. Qed.
(** no number or more than one: the help text *)
Theorem C43_count : forall D (to_double : list ascii -> option D) hw args ws,
  Forall2 (asks to_double) args ws -> List.length (numbers ws) <> 1%nat -> parseOptions to_double hw args = Ok Help.
Proof. exact @parse_count. Qed.
(** an unknown option or a missing or malformed value: the help text, whatever follows *)
Theorem C43_bad : forall D (to_double : list ascii -> option D) hw args ws a rest,
  Forall2 (asks to_double) args ws -> bad to_double a -> parseOptions to_double hw (args ++ a :: rest) = Ok Help.
Proof. exact @parse_bad. Qed.
(** Reading the command line always ends; the only other outcome is the overflow of an
    expression (C27). *)
Theorem C43_ends : forall D (to_double : list ascii -> option D) hw args,
  (exists p, parseOptions to_double hw args = Ok p) \/ parseOptions to_double hw args = Fail UB.
Proof. exact @parse_cases. Qed.
(** The number of threads is not the clamped value of its expression if that exceeds an int. *)
Theorem C43_threads_refuted : exists args x s, parseOptions (fun _ => @None Z) 8 args = Ok (Run x s) /\
  asks (fun _ => @None Z) (nth 1 args []) (Threads (2 ^ 32 + 1)) /\ clamp 1 (2 ^ 32 + 1) 8 = 8 /\ s_threads s = 1.
Proof. exact threads_truncated. Qed.
(** An expression that does not start with a digit is not accepted as a bare argument. *)
Theorem C43_expression_refuted : exists a n, evaluates a n /\ parseOptions (fun _ => @None Z) 8 [a] = Ok Help.
Proof. exact expression_rejected. Qed.
Print Assumptions C43_argument. Print Assumptions C43_unknown. Print Assumptions C43_run_partial. Print Assumptions C43_run.
Print Assumptions C43_count. Print Assumptions C43_bad. Print Assumptions C43_ends.
Print Assumptions C43_threads_refuted. Print Assumptions C43_expression_refuted.

Definition C43_txt := list_ascii_of_string.
Example C43_witness_reads : reads (C43_txt "--threads=4") OPTION_THREADS (C43_txt "4") /\ reads (C43_txt "-t4") OPTION_THREADS (C43_txt "4") /\
  reads (C43_txt "--lmo1") OPTION_LMO1 [] /\ reads (C43_txt "1e3") OPTION_NUMBER (C43_txt "1e3").
Proof.
  assert (P : plain (C43_txt "--threads")) by (apply plain_compute; reflexivity).
  assert (P2 : plain (C43_txt "-t")) by (apply plain_compute; reflexivity).
  split; [|split; [|split]].
  - apply (R_equal (C43_txt "--threads") (C43_txt "4") OPTION_THREADS); [exact P|cbn; auto].
  - apply (R_digit (C43_txt "-t") "4"%char [] OPTION_THREADS); [exact P2|cbn; auto|exists 4; split; [reflexivity|lia]|].
    intros o H. apply lookup_spelled in H. vm_compute in H. discriminate H.
  - apply R_name. cbn. auto.
  - apply R_number. exists 1. split; [reflexivity|lia].
Qed.
Example C43_witness : parseOptions (fun _ => @None Z) 8 [C43_txt "1e3"; C43_txt "--threads=20"; C43_txt "-s2"; C43_txt "--lmo4"] =
  Ok (Run 1000 (mkSettings OPTION_LMO4 true [1000] 8 2 None true)).
Proof. vm_compute. reflexivity. Qed.
Example C43_witness_asks : exists ws, Forall2 (asks (fun _ => @None Z)) [C43_txt "1e3"; C43_txt "--threads=20"; C43_txt "-s2"; C43_txt "--lmo4"] ws /\
  numbers ws = [1000] /\ asked_algorithm ws = OPTION_LMO4.
Proof. destruct (C43_run _ _ _ _ _ _ C43_witness) as (ws & H1 & H2 & H3 & _). exists ws. auto. Qed.
Example C43_witness_bad : bad (fun _ => @None Z) (C43_txt "--foo") /\ bad (fun _ => @None Z) (C43_txt "-7") /\ bad (fun _ => @None Z) (C43_txt "--alpha=x").
Proof.
  assert (U : forall a, readable a = false -> bad (fun _ => @None Z) a).
  { intros a H. apply B_unknown. intros o v R. apply reads_readable in R. congruence. }
  split; [apply U; reflexivity|]. split; [apply U; reflexivity|].
  apply (B_alpha _ _ (C43_txt "x")); [|reflexivity]. apply (R_equal (C43_txt "--alpha") (C43_txt "x")); [|cbn; auto].
  apply plain_compute. reflexivity.
Qed.

(** *** C45: the conversion to 64 bits raises an error for numbers that are too large *)
Theorem C45_large : forall x, 2 ^ 63 <= x -> int64_cast x = Fail Throw.
Proof. exact int64_cast_large. Qed.
(** and is exact for the numbers that fit.  Missing: numbers below -2^63. *)
Theorem C45_partial : forall x, - 2 ^ 63 <= x -> int64_cast x = (if x <? 2 ^ 63 then Ok x else Fail Throw).
Proof. exact int64_cast_ok. Qed.
(** Those are truncated: the command "--number=-18446744073709551516 --lmo1" computes with
    100 and gives 1060 instead of 0. *)
Theorem C45_refuted : exists x s, parseOptions (fun _ => @None Z) 8 [C43_txt "--number=-18446744073709551516"; C43_txt "--lmo1"] = Ok (Run x s) /\
  x < - 2 ^ 63 /\ s_option s = OPTION_LMO1 /\ prime_sum x = 0 /\
  forall o, valid_oracles o -> (n <- int64_cast x ;; pi_lmo1 o n) = Ok 1060.
Proof. exact int64_cast_truncates. Qed.
Example C45_witness : int64_cast (2 ^ 63) = Fail Throw /\ int64_cast (2 ^ 63 - 1) = Ok (2 ^ 63 - 1).
Proof. split; reflexivity. Qed.
Print Assumptions C45_large. Print Assumptions C45_partial. Print Assumptions C45_refuted.
