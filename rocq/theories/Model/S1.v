(** Model of src/S1.cpp: the ordinary leaves.

    [w] is the width of the template type X (64 or 128).  The sums (type res_t =
    next_larger_type<X>: int128_t for a 64-bit x, int256_t above) follow Model/Accum.v
    and the values of phi_sum are computed by the machine-level model of Model/PhiSum.v.
    generate_primes follows Model/Primesieve.v; the number of threads
    (ideal_num_threads) only influences the schedule, which is arbitrary. *)
From Coq Require Import ZArith List Bool.
From Verif.Base Require Import Res Word Zl Par.
From Verif.Spec Require Import IntSpec.
From Verif.Model Require Import Int256 Accum Primesieve PhiSum.
Import ListNotations.
Open Scope Z_scope.

(** src/phi_sum.cpp:85-105 — the overload of phi_sum for a w-bit argument *)
Definition phi_sum_X (w x c : Z) : res Z :=
  if w =? 64 then phi_sum_64 x c else r <- phi_sum_128 x c ;; Ok (sval r).

(** src/S1.cpp:31-53 — S1_OpenMP_thread<MU>; [n] bounds the recursion depth *)
Fixpoint S1_thread (n : nat) (w MU x y b c square_free : Z) (primes : list Z) : res Z :=
  match n with
  | O => Fail Fuel
  | S n =>
      loop (fun '(b, s1_sum) =>
        if b <? zlen primes then
          p <- aget primes b ;;
          next <- schk w (square_free * p) ;;
          if next >? y then Ok (inr s1_sum)
          else
            v <- phi_sum_X w (Z.quot x next) c ;;
            m <- t_mul (next_larger w) v (MU * next) ;;
            s1_sum <- t_add (next_larger w) s1_sum m ;;
            t <- S1_thread n w (- MU) x y b c next primes ;;
            s1_sum <- t_add (next_larger w) s1_sum t ;;
            Ok (inl (b + 1, s1_sum))
        else Ok (inr s1_sum)) (b + 1, 0)
  end.

(** src/S1.cpp:59-79 — S1_OpenMP_master *)
Definition S1_master (sched : Z -> Z -> list (list Z)) (w x y c : Z) : res Z :=
  let primes := generate_primes y in
  s1_sum <- phi_sum_X w x c ;;
  par_acc (t_add (next_larger w)) (fun b s1_sum (_ : unit) =>
      p <- aget primes b ;;
      v <- phi_sum_X w (Z.quot x p) c ;;
      m <- t_mul (next_larger w) v p ;;
      s1_sum <- t_sub (next_larger w) s1_sum m ;;
      t <- S1_thread (length primes) w 1 x y b c p primes ;;
      s1_sum <- t_add (next_larger w) s1_sum t ;;
      Ok (s1_sum, tt))
    (sched (c + 1) (zlen primes)) tt s1_sum.

(** src/S1.cpp:85-111 — S1: 64-bit arithmetic when both x and y allow it *)
Definition S1 (sched : Z -> Z -> list (list Z)) (x y c : Z) : res Z :=
  if y <=? 2 ^ 32 - 1 then
    if x <=? smax 64 then S1_master sched 64 (swrap 64 x) y c else S1_master sched 128 x y c
  else S1_master sched 128 x y c.
