(** Property C61: the primes delivered by lib/primesieve. *)
From Coq Require Import ZArith List Bool Lia Znumtheory.
From Verif.Base Require Import Res Word Zl.
From Verif.Spec Require Import Primes PsSpec PsRunSpec PsGenSpec.
From Verif.Model Require Import PsErat PsGen Primesieve.
From Verif.Proofs Require Import PsMathP PsIter PsStore.
Import ListNotations.
Open Scope Z_scope.

(** *** SievingPrimes::next delivers the primes above the pre-sieved ones up to sqrt(stop), then 2^64 - 1. *)
Theorem C61_sieving_primes : forall g start stop size e ps n, genv_ok g -> 7 <= start <= stop -> 720 <= stop < 2 ^ 64 -> 0 <= size < 2 ^ 64 ->
  erat_init (g_cpu g) start stop size (erat0 start stop) presieve0 = Ok (e, ps) ->
  exists v, svp_init g e ps svp0 = Ok (v, ps) /\ svp_calls g ps n v = Ok (firstn n (primes_in (ps_max ps + 1) (Z.sqrt stop) ++ repeat (2 ^ 64 - 1) n)).
Proof. exact sieving_primes_correct. Qed.

(** *** PrimeGenerator::fill delivers the primes of [start, stop]: at once, or in buffers of at most 256. *)
Theorem C61_fill_prev : forall g start stop l, genv_ok g -> 0 <= start <= stop -> stop < 2 ^ 64 ->
  pgen_fill_prev g (pgen0 start stop) l = Ok (l ++ primes_in start stop).
Proof. exact fill_prev_correct. Qed.
Theorem C61_fill_next : forall g start stop, genv_ok g -> 0 <= start <= stop -> stop < 2 ^ 64 ->
  exists ls, pgen_chunks g (pgen0 start stop) ls /\ concat ls = primes_in start stop.
Proof. exact fill_next_correct. Qed.

(** *** An iterator gives the neighbouring prime at each call, in any order of calls. *)
Theorem C61_iterator : forall g start hint l, genv_ok g -> 0 <= start < 2 ^ 64 -> 0 <= hint < 2 ^ 64 ->
  exists rs, iter_calls g l (iter_new start hint) = Ok rs /\ moves start l rs.
Proof. exact iter_correct. Qed.
Theorem C61_iterator_model : forall g start hint l, genv_ok g -> 0 <= start < 2 ^ 64 -> 0 <= hint < 2 ^ 64 ->
  (forall r, In r (calls_model l start) -> r < 2 ^ 64) -> iter_calls g l (iter_new start hint) = Ok (calls_model l start).
Proof. exact iter_model. Qed.

(** *** store_primes, store_n_primes and the tables built with them *)
Theorem C61_store_primes : forall g cast start stop l, genv_ok g -> 0 <= start < 2 ^ 64 -> 0 <= stop < 2 ^ 64 ->
  store_primes g cast start stop l = Ok (l ++ map cast (primes_in start stop)).
Proof. exact store_primes_correct. Qed.
Theorem C61_store_n_primes : forall g cast n start l, genv_ok g -> 0 <= n < 2 ^ 64 -> 0 <= start < 2 ^ 64 ->
  store_n_primes g cast n start l =
    (if (n =? 0) || (n <? zlen (primes_in start (2 ^ 64 - 1))) then Ok (l ++ map cast (firstn (Z.to_nat n) (primes_in start (2 ^ 64 - 1)))) else Fail Throw).
Proof. exact store_n_primes_correct. Qed.
Theorem C61_generate_primes : forall g cast max, genv_ok g -> 0 <= max < 2 ^ 64 -> (forall p, 0 <= p <= max -> cast p = p) ->
  store_primes g cast 0 max [0] = Ok (generate_primes max).
Proof. exact generate_primes_model. Qed.
Theorem C61_generate_n_primes : forall g n, genv_ok g -> 0 <= n < zlen (primes_in 0 (2 ^ 64 - 1)) ->
  store_n_primes g (swrap 32) n 0 [0] = Ok (generate_n_primes n).
Proof. exact generate_n_primes_model. Qed.

(** A machine that meets the assumptions: de Bruijn multiplication for nextPrime *)
Definition C61_env : genv :=
  GE {| cpu_small := fun l1 => l1 / 5; cpu_l1 := Some 32768 |} next_prime_bruijn 8 (fun _ => 100) (fun _ => 1000) (fun _ => 10) (fun _ => 2000) (fun _ => 10).
Example C61_env_ok : genv_ok C61_env.
Proof. split; [exact next_prime_bruijn_eq|]. cbn. split; [lia|]. intros n. lia. Qed.
(** Calls in both directions: at the lower end, and across the end of the cached primes *)
Example C61_calls : iter_calls C61_env [true; true; false; false; false; true] (iter_new 1 100) = Ok [2; 3; 2; 0; 0; 2] /\
  iter_calls C61_env [true; true; false] (iter_new 710 0) = Ok [719; 727; 719] /\
  moves 1 [true; true; false; false; false; true] [2; 3; 2; 0; 0; 2].
Proof.
  assert (E : iter_calls C61_env [true; true; false; false; false; true] (iter_new 1 100) = Ok [2; 3; 2; 0; 0; 2]) by (vm_compute; reflexivity).
  split; [exact E|]. split; [vm_compute; reflexivity|].
  destruct (C61_iterator C61_env 1 100 [true; true; false; false; false; true] C61_env_ok ltac:(lia) ltac:(lia)) as (rs & E' & M). rewrite E in E'. injection E' as <-. exact M.
Qed.
Example C61_tables : store_primes C61_env (swrap 32) 0 30 [0] = Ok [0; 2; 3; 5; 7; 11; 13; 17; 19; 23; 29] /\ store_n_primes C61_env (swrap 32) 5 14 [0] = Ok [0; 17; 19; 23; 29; 31] /\
  pgen_fill_prev C61_env (pgen0 715 745) [] = Ok [719; 727; 733; 739; 743].
Proof. split; [vm_compute; reflexivity|]. split; vm_compute; reflexivity. Qed.
(** stop = 720: the pre-sieved primes go up to 7, the sieving primes are 11, 13, 17, 19, 23 *)
Example C61_sieving : exists e ps v, erat_init (g_cpu C61_env) 7 720 8 (erat0 7 720) presieve0 = Ok (e, ps) /\ svp_init C61_env e ps svp0 = Ok (v, ps) /\
  svp_calls C61_env ps 7 v = Ok [11; 13; 17; 19; 23; 2 ^ 64 - 1; 2 ^ 64 - 1].
Proof.
  destruct (erat_init (g_cpu C61_env) 7 720 8 (erat0 7 720) presieve0) as [[e ps]|] eqn:E; [|vm_compute in E; discriminate].
  assert (M : ps_max ps = 7). { assert (X : match erat_init (g_cpu C61_env) 7 720 8 (erat0 7 720) presieve0 with Ok (_, ps) => ps_max ps =? 7 | _ => false end = true) by (vm_compute; reflexivity). rewrite E in X. now apply Z.eqb_eq. }
  destruct (C61_sieving_primes C61_env 7 720 8 e ps 7 C61_env_ok ltac:(lia) ltac:(lia) ltac:(lia) E) as (v & E1 & E2). exists e, ps, v. split; auto. split; auto. rewrite E2, M. vm_compute. reflexivity.
Qed.
Print Assumptions C61_sieving_primes. Print Assumptions C61_fill_prev. Print Assumptions C61_fill_next. Print Assumptions C61_iterator. Print Assumptions C61_iterator_model.
Print Assumptions C61_store_primes. Print Assumptions C61_store_n_primes. Print Assumptions C61_generate_primes. Print Assumptions C61_generate_n_primes.
