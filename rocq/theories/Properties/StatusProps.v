(** Property C46: status output. *)
From Coq Require Import ZArith List Bool Lia.
From Verif.Base Require Import Res.
From Verif.Model Require Import Imath Status.
From Verif.Proofs Require Import Status.
From Verif Require Proofs.Imath.
Import ListNotations.
Open Scope Z_scope.

(** *** C46: the precision is clamped to 0..5 *)
Theorem C46_precision : forall p, 0 <= set_status_precision p <= 5 /\ (0 <= p <= 5 -> set_status_precision p = p).
Proof. exact precision_clamped. Qed.
(** and the precision used lies in 0..5 for every setting (none, or any value) and every x *)
Theorem C46_precision_used : forall setting x, setting = -1 \/ (exists p, setting = set_status_precision p) -> 0 <= get_status_precision setting x <= 5.
Proof. exact precision_range. Qed.
(** a precision that was set is used for every x; without one large x get more decimals.  The
    code converts x to double before it compares, the model compares exactly: nothing is
    claimed for the x just below 10^21 and 10^23 that may be rounded up to these numbers. *)
Theorem C46_precision_set : forall p x, get_status_precision (set_status_precision p) x = set_status_precision p.
Proof. exact precision_value. Qed.
Theorem C46_precision_default : forall x, (x <= 10 ^ 21 - 2 ^ 17 -> get_status_precision (-1) x = 0) /\
  (10 ^ 21 <= x <= 10 ^ 23 - 2 ^ 25 -> get_status_precision (-1) x = 1) /\ (10 ^ 23 <= x -> get_status_precision (-1) x = 2).
Proof. exact precision_default. Qed.
(** calls that do not overlap: the printed percentages (latest first) increase by at least
    epsilon, for every sequence of times and percentages *)
Theorem C46_sequential_partial : forall eps interval, 0 < eps -> forall calls i j,
  let out := sh_out (fold_left (print eps interval) calls shared0) in
  (i < j < length out)%nat -> nth j out 0 + eps <= nth i out 0.
Proof. exact print_increasing. Qed.
(** any number of threads, any interleaving of their steps: at most one thread is inside the
    critical section of is_print, and only percentages of actual calls are printed *)
Theorem C46_lock : forall eps interval sched ts sh' ts', (forall t, In t ts -> fst t = Try) ->
  run eps interval shared0 ts sched = (sh', ts') -> (length (filter holds ts') <= 1)%nat.
Proof. exact run_lock_0. Qed.
Theorem C46_printed : forall eps interval sched ts sh' ts' p, run eps interval shared0 ts sched = (sh', ts') ->
  In p (sh_out sh') -> exists t c, In t ts /\ In c (snd t) /\ c_percent c = p.
Proof. exact run_out_0. Qed.
(** The claim about concurrent updates is false: the lock is released before time_ is
    written.  Two threads can print the same percentage, or the larger one first. *)
Theorem C46_duplicate_refuted : exists eps interval ts sched sh ts', 0 < eps /\ 0 < interval /\
  run eps interval shared0 ts sched = (sh, ts') /\ (forall t, In t ts -> fst t = Try) /\ sh_out sh = [7; 7].
Proof. exact status_duplicate. Qed.
Theorem C46_order_refuted : exists eps interval ts sched sh ts', 0 < eps /\ 0 < interval /\
  run eps interval shared0 ts sched = (sh, ts') /\ (forall t, In t ts -> fst t = Try) /\ sh_out sh = [7; 9].
Proof. exact status_decreasing. Qed.
Example C46_witness : sh_out (fold_left (print 1 50) [{| c_time := 100; c_percent := 3 |}; {| c_time := 120; c_percent := 5 |}; {| c_time := 170; c_percent := 8 |}] shared0) = [8; 3]
  /\ set_status_precision 9 = 5 /\ get_status_precision (set_status_precision 3) (10 ^ 25) = 3 /\ get_status_precision (-1) (10 ^ 22) = 1.
Proof. repeat split; reflexivity. Qed.
Example C46_witness_run : exists ts', run 1 50 shared0 [(Try, [{| c_time := 100; c_percent := 3 |}]); (Try, [{| c_time := 160; c_percent := 5 |}])] [0; 1; 0; 0; 0; 0; 0]%nat =
  ({| sh_percent := 3; sh_time := 100; sh_lock := false; sh_out := [3] |}, ts').
Proof. eexists. vm_compute. reflexivity. Qed.
Print Assumptions C46_precision. Print Assumptions C46_precision_used. Print Assumptions C46_precision_set. Print Assumptions C46_precision_default. Print Assumptions C46_sequential_partial. Print Assumptions C46_lock.
Print Assumptions C46_printed. Print Assumptions C46_duplicate_refuted. Print Assumptions C46_order_refuted.

(** *** C42: at least one thread for every history of calls, with or without a setting, even
    where the number of hardware threads is reported as 0 *)
Theorem C42_num_threads_positive : forall calls hw, (forall h n, In (h, n) calls -> 0 <= h) ->
  1 <= get_num_threads hw (Proofs.Imath.threads_after calls).
Proof. exact num_threads_positive. Qed.
Example C42_witness_positive : (forall h n, In (h, n) [(0, 4); (8, -1); (0, 7)] -> 0 <= h) /\
  get_num_threads 0 (Proofs.Imath.threads_after []) = 1 /\ get_num_threads 0 (Proofs.Imath.threads_after [(0, 4); (8, -1); (0, 7)]) = 1.
Proof. split; [|split; reflexivity]. intros h n [E|[E|[E|[]]]]; injection E; lia. Qed.
Print Assumptions C42_num_threads_positive.
