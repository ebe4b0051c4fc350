(** Model of src/test.cpp (--test), compiled with OpenMP.  The progress text is left out; the
    outcome is the value of test().  Every call may see another environment. *)
From Coq Require Import ZArith List Bool.
From Verif.Base Require Import Res Word Zl Par.
From Verif.Model Require Import P2 Phi Oracles LMO1 LMO LMOParallel DelegliseRivat.
Import ListNotations.
Open Scope Z_scope.

(** The environments of the calls of src/test.cpp:75-132 by number of the test and of the call,
    the values of rand(), and the schedule of the loop of test_phi_thread_safety *)
Record test_env := {
  te_lmo : Z -> Z -> par_oracles;
  te_dr : Z -> dr_oracles;
  te_rand : Z -> Z -> Z;
  te_leg : bool -> Z -> nat -> Z -> Z -> list (list Z);
  te_sched : Z -> Z -> list (list Z);
  te_threads : Z
}.

(** src/test.cpp:58-62 — get_rand; the value of rand() is not negative *)
Definition get_rand (r : Z) : Z := (Z.rem r 10000) * 1000 + 1.

(** src/test.cpp:64-73 — check_equal *)
Definition check_equal (res1 res2 : Z) : res unit := if res1 =? res2 then Ok tt else Fail Throw.

(** src/test.cpp:32-52 — CHECK_EQUAL with one of CHECK_11, CHECK_21, CHECK_22; f1 and f2 get
    the number of the call: x for the first loop and 10000 + i for the second *)
Definition check_all (f1 f2 : Z -> Z -> res Z) (iters : Z) (rand : Z -> Z) : res unit :=
  _ <- for_ 0 10000 (fun x _ => a <- f1 x x ;; b <- f2 x x ;; check_equal a b) tt ;;
  _ <- for_ 0 iters (fun i x =>
    a <- f1 (10000 + i) x ;; b <- f2 (10000 + i) x ;;
    _ <- check_equal a b ;;
    schk 64 (x + get_rand (rand i))) 0 ;;
  Ok tt.

(** src/test.cpp:77-95 — test_phi_thread_safety *)
Definition test_phi_thread_safety (leg : bool -> Z -> nat -> Z -> Z -> list (list Z)) (sched : Z -> Z -> list (list Z)) (iters : Z) : res unit :=
  sum1 <- for_ 0 iters (fun i sum1 =>
    v <- pi_legendre (leg false i) (10000000 + i) ;; schk 64 (sum1 + v)) 0 ;;
  sum2 <- par_acc (fun a b => schk 64 (a + b)) (fun i sum2 (_ : unit) =>
    v <- pi_legendre (leg true i) (10000000 + i) ;; sum2 <- schk 64 (sum2 + v) ;; Ok (sum2, tt)) (sched 0 iters) tt 0 ;;
  check_equal sum1 sum2.

(** src/test.cpp:110-118 *)
Definition test_body (e : test_env) : res unit :=
  let lmo k := te_lmo e k in
  let t := te_threads e in
  let lmo1 k n x := pi_lmo1 (lo_base (po_lmo (lmo k n))) x in
  let lmo2 k n x := pi_lmo2 (po_lmo (lmo k n)) x in
  let lmo3 k n x := pi_lmo3 (po_lmo (lmo k n)) x in
  let lmo4 k n x := pi_lmo4 (po_lmo (lmo k n)) x in
  let lmo5 k n x := pi_lmo5 (po_lmo (lmo k n)) x in
  let par k n x := pi_lmo_parallel1 (lmo k n) x t in
  let dr n x := pi_deleglise_rivat_parallel1 (te_dr e n) x t in
  _ <- test_phi_thread_safety (te_leg e) (te_sched e) 100 ;;
  _ <- check_all (lmo1 1) (fun _ x => prime_sum_tiny x) 50 (te_rand e 1) ;;
  _ <- check_all (lmo2 2) (lmo1 3) 100 (te_rand e 2) ;;
  _ <- check_all (lmo3 4) (lmo2 5) 300 (te_rand e 3) ;;
  _ <- check_all (lmo4 6) (lmo3 7) 400 (te_rand e 4) ;;
  _ <- check_all (lmo5 8) (lmo4 9) 600 (te_rand e 5) ;;
  _ <- check_all (par 10) (lmo5 11) 600 (te_rand e 6) ;;
  check_all dr (par 12) 900 (te_rand e 7).

(** src/test.cpp:103-128 — test(): an exception is reported as false *)
Definition caught (r : res unit) : res bool :=
  match r with
  | Ok _ => Ok true
  | Fail Throw => Ok false
  | Fail f => Fail f
  end.
(** src/test.cpp:103-132 — test *)
Definition test (e : test_env) : res bool := caught (test_body e).
