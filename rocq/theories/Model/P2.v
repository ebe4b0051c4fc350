(** Model of src/P2.cpp: the 2nd partial sieve function, multi-threaded.

    [w] is the width of the accumulators (template type T: int128_t for a 64-bit x,
    int256_t above); their arithmetic is that of Model/Accum.v.

    Simplifications.  isqrt(x) is Z.sqrt (C28) and both
    primesieve iterators follow Model/Primesieve.v; the second argument of their constructors is only
    a hint.  Narrowing to int64_t is modelled.  The elapsed time of a round is an
    arbitrary comparison with 60 seconds; the iterations of the parallel loop are
    distributed to the threads in an arbitrary way, every thread sums its own in order
    and the sums of the threads are added in an arbitrary order. *)
From Coq Require Import ZArith List Bool.
From Verif.Base Require Import Res Word Zl IType Par.
From Verif.Spec Require Import Primes.
From Verif.Model Require Import Imath Primesieve Phi Accum.
Import ListNotations.
Open Scope Z_scope.

(** src/primesum.cpp:113-123 — prime_sum_tiny: prime = iter.next_prime() while
    prime <= x, state (prime, sum) *)
Definition prime_sum_tiny (x : Z) : res Z :=
  loop (fun '(prime, sum) =>
    if prime <=? x then sum <- schk 128 (sum + prime) ;; Ok (inl (next_prime prime, sum))
    else Ok (inr sum)) (next_prime 0, 0).

(** src/P2.cpp:36-53 — balanceLoad; [speed] is the comparison of the elapsed
    seconds with 60 (Eq also stands for an unordered comparison) *)
Definition balanceLoad (speed : comparison) (thread_distance low z threads : Z) : res Z :=
  let min_distance := 2 ^ 23 in
  max_distance <- ceil_div i64 (z - low) threads ;;
  d <- match speed with
       | Lt => schk 64 (thread_distance * 2)
       | Gt => Ok (Z.quot thread_distance 2)
       | Eq => Ok thread_distance
       end ;;
  Ok (in_between min_distance d max_distance).

(** src/P2.cpp:85-96 and 104-115 — the loop over the primes next < bound (line 85
    has next <= x_div_prime, that is bound = x_div_prime + 1); state
    (next, P2_thread, prime_sum, correct) *)
Definition P2_advance (w y sqrtx bound : Z) (st : Z * Z * Z * Z) : res (Z * Z * Z * Z) :=
  loop (fun '(next, p2, prime_sum, correct) =>
    if next <? bound then
      ' (p2, correct) <-
        (if (y <? next) && (next <=? sqrtx) then
           t <- t_mul w prime_sum next ;;
           p2 <- t_sub w p2 t ;;
           correct <- t_sub w correct next ;;
           Ok (p2, correct)
         else Ok (p2, correct)) ;;
      prime_sum <- t_add w prime_sum next ;;
      Ok (inl (next_prime next, p2, prime_sum, correct))
    else Ok (inr (next, p2, prime_sum, correct))) st.

(** src/P2.cpp:82-101 — the loop over the primes of rit; state (prime, rest) *)
Definition P2_main (w x y sqrtx start z : Z) (st : Z * (Z * Z * Z * Z)) : res (Z * Z * Z * Z) :=
  loop (fun '(prime, rest) =>
    if start <? prime then
      let x_div_prime := swrap 64 (Z.quot x prime) in
      if x_div_prime <? z then
        ' (next, p2, prime_sum, correct) <- P2_advance w y sqrtx (x_div_prime + 1) rest ;;
        t <- t_mul w prime_sum prime ;;
        p2 <- t_add w p2 t ;;
        correct <- t_add w correct prime ;;
        Ok (inl (prev_prime prime, (next, p2, prime_sum, correct)))
      else Ok (inr rest)
    else Ok (inr rest)) st.

(** src/P2.cpp:55-118 — P2_OpenMP_thread: (P2_thread, prime_sum, correct) *)
Definition P2_thread (w x y z thread_distance thread_num low : Z) : res (Z * Z * Z) :=
  t <- schk 64 (thread_distance * thread_num) ;;
  low <- schk 64 (low + t) ;;
  e <- schk 64 (low + thread_distance) ;;
  let z := Z.min e z in
  let sqrtx := Z.sqrt x in
  assert_ (negb (z =? 0) && negb (low =? 0)) UB ;;;
  let start := swrap 64 (Z.max (Z.quot x z) y) in
  let stop := swrap 64 (Z.min (Z.quot x low) sqrtx) in
  let next := next_prime (low - 1) in
  let prime := prev_prime (stop + 1) in
  rest <- P2_main w x y sqrtx start z (prime, (next, 0, 0, 0)) ;;
  ' (_, p2, prime_sum, correct) <- P2_advance w y sqrtx z rest ;;
  Ok (p2, prime_sum, correct).

(** src/P2.cpp:158-160 — the parallel loop; state (prime_sums, correct) *)
Definition P2_round (w x y z thread_distance low : Z) (sch : list (list Z)) (st : list Z * list Z) (p2 : Z)
  : res (Z * (list Z * list Z)) :=
  par_accs (t_add w) (fun i p2 '(prime_sums, correct) =>
    ' (t, ps, c) <- P2_thread w x y z thread_distance i low ;;
    prime_sums <- aset prime_sums i ps ;;
    correct <- aset correct i c ;;
    p2 <- t_add w p2 t ;;
    Ok (p2, (prime_sums, correct))) sch st p2.

(** src/P2.cpp:162-166 — adding the corrections *)
Definition P2_correct (w threads : Z) (prime_sums correct : list Z) (st : Z * Z) : res (Z * Z) :=
  for_ 0 threads (fun i '(p2, prime_sum) =>
    c <- aget correct i ;;
    t <- t_mul w prime_sum c ;;
    p2 <- t_add w p2 t ;;
    s <- aget prime_sums i ;;
    prime_sum <- t_add w prime_sum s ;;
    Ok (p2, prime_sum)) st.

(** src/P2.cpp:124-180 — P2_OpenMP_master; [lsched], [speed], [sched]: schedules
    inside pi_legendre, timings and schedule of each round; state of the while loop (lines
    152-177): round number (for the oracles), low, thread_distance, threads, p2,
    prime_sum, prime_sums, correct *)
Definition P2_master (lsched : nat -> Z -> Z -> list (list Z)) (speed : Z -> comparison)
    (sched : Z -> Z -> Z -> list (list Z)) (w x y threads : Z) : res Z :=
  if x <? 4 then Ok 0
  else
    a <- pi_legendre lsched y ;;
    b <- pi_legendre lsched (Z.sqrt x) ;;
    if b <=? a then Ok 0
    else
      let z := swrap 64 (Z.quot x (Z.max y 1)) in
      prime_sum <- prime_sum_tiny y ;;
      let prime_sums := amake threads 0 in
      let correct := amake threads 0 in
      loop (fun '(k, low, thread_distance, threads, p2, prime_sum, prime_sums, correct) =>
        if low <? z then
          segments <- ceil_div i64 (z - low) thread_distance ;;
          let threads := in_between 1 threads segments in
          ' (p2, (prime_sums, correct)) <-
             P2_round w x y z thread_distance low (sched k 0 threads) (prime_sums, correct) p2 ;;
          ' (p2, prime_sum) <- P2_correct w threads prime_sums correct (p2, prime_sum) ;;
          t <- schk 64 (thread_distance * threads) ;;
          low <- schk 64 (low + t) ;;
          thread_distance <- balanceLoad (speed k) thread_distance low z threads ;;
          Ok (inl (k + 1, low, thread_distance, threads, p2, prime_sum, prime_sums, correct))
        else Ok (inr p2))
      (0, 2, 2 ^ 23, threads, 0, prime_sum, prime_sums, correct).

(** src/P2.cpp:186-204 — P2: 64-bit arithmetic for x when possible *)
Definition P2 (lsched : nat -> Z -> Z -> list (list Z)) (speed : Z -> comparison)
    (sched : Z -> Z -> Z -> list (list Z)) (x y threads : Z) : res Z :=
  if x <=? smax 64 then P2_master lsched speed sched (next_larger 64) (swrap 64 x) y threads
  else P2_master lsched speed sched (next_larger 128) x y threads.
