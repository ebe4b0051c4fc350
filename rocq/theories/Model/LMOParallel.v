(** Model of src/lmo/pi_lmo_parallel1.cpp.

    The int256_t values (S2_thread, phi and mu_sum of a thread, S2_total and phi_total) use
    the operations of Model/Accum.v; all int64_t sums and products are checked, as are all
    accesses of the tables.  Simplifications.  isqrt is Z.sqrt (C28).  phi[b], mu_sum[b] and wheel[b] are
    read before and written after the leaves of b, instead of at each leaf.  The
    iterations of the parallel loop only write to their own phi[i] and mu_sum[i] and to the
    reduction variable; they are evaluated one after the other; the reduction then adds
    their results according to an arbitrary schedule.  The calls of print and
    get_time do not take part in the computation.  The loops over the segments and the
    leaves are those of Model/LMO.v, the intervals of the threads and the load balancer
    those of Model/S2LoadBalancer.v. *)
From Coq Require Import ZArith List Bool.
From Verif.Base Require Import Res Word Zl IType.
From Verif.Model Require Import Accum Imath Primesieve Tables PhiTiny P2 S1 BitSieve Wheel S2 S2LoadBalancer S2Hard Oracles LMO.
Import ListNotations.
Open Scope Z_scope.

(** The data read by every thread: src/lmo/pi_lmo_parallel1.cpp:61-72 *)
Record par_env := {
  l_x : Z; l_y : Z; l_c : Z;
  l_pi : list Z; l_primes : list Z; l_lpf : list Z; l_mu : list Z
}.

(** src/lmo/pi_lmo_parallel1.cpp:122-123 — the accumulator is (S2_thread, mu_sum[b]) *)
Definition sub_pair (pmul phi : Z) (acc : Z * Z) : res (Z * Z) :=
  t <- t_mul 256 phi pmul ;;
  s2 <- t_sub 256 (fst acc) t ;;
  mu_b <- t_sub 256 (snd acc) pmul ;;
  Ok (s2, mu_b).
(** src/lmo/pi_lmo_parallel1.cpp:152-153 *)
Definition add_pair (pmul phi : Z) (acc : Z * Z) : res (Z * Z) :=
  t <- t_mul 256 phi pmul ;;
  s2 <- t_add 256 (fst acc) t ;;
  mu_b <- t_add 256 (snd acc) pmul ;;
  Ok (s2, mu_b).

(** src/lmo/pi_lmo_parallel1.cpp:104-130 and 136-159 — the leaves of the b-th prime; the
    first loop runs while b < min(pi_sqrty, size).  [pm] is (phi[b], mu_sum[b]) *)
Definition par_leaves (env : par_env) (pi_sqrty size low high b : Z) (sieve : bitsieve) (pm : Z * Z) (s2 : Z) : res (option ((Z * Z) * Z)) :=
  o <- (if b <? Z.min pi_sqrty size
        then seg_leaves_m (t_add 256) (bs_getz sieve) sub_pair 2 (l_x env) (l_y env) (l_primes env) (l_lpf env) (l_mu env) low high b (fst pm) (s2, snd pm)
        else seg_leaves_l (t_add 256) (bs_getz sieve) add_pair 2 (l_x env) (l_y env) (l_primes env) (l_pi env) low high b (fst pm) (s2, snd pm)) ;;
  Ok (match o with
      | None => None
      | Some (phi_b, (s2, mu_b)) => Some ((phi_b, mu_b), s2)
      end).

(** src/lmo/pi_lmo_parallel1.cpp:60-166 — S2_thread; returns (S2_thread, mu_sum, phi) *)
Definition par_thread (env : par_env) (segment_size segments_per_thread thread_num low limit : Z) : res (Z * list Z * list Z) :=
  ' (low, limit) <- lb_interval segment_size segments_per_thread thread_num low limit ;;
  q <- zdiv (l_x env) low ;;
  n <- aget (l_pi env) (Z.min (Z.sqrt q) (l_y env)) ;;
  let size := n + 1 in
  pi_sqrty <- aget (l_pi env) (Z.sqrt (l_y env)) ;;
  pi_y <- aget (l_pi env) (l_y env) ;;
  if l_c env >=? size - 1 then Ok (0, [], [])
  else
    sieve <- bs_make segment_size ;;
    wheel <- wheel_make (l_primes env) size low ;;
    ' (pm, s2) <- segments
      (fun low high sieve wheel => sieve <- pre_sieve sieve (l_c env) low ;; Ok (sieve, wheel))
      (fun low high => par_leaves env pi_sqrty size low high)
      (lmo5_cross (l_primes env))
      (l_c env) (Z.min pi_y size) segment_size low limit sieve (amake size (0, 0)) wheel ;;
    Ok (s2, map snd pm, map fst pm).

(** src/lmo/pi_lmo_parallel1.cpp:212-219 — all threads of one round *)
Definition par_threads (env : par_env) (segment_size segments_per_thread threads low limit : Z) : res (list (Z * list Z * list Z)) :=
  for_ 0 threads (fun i l =>
    r <- par_thread env segment_size segments_per_thread i low limit ;;
    Ok (l ++ [r])) [].

(** src/lmo/pi_lmo_parallel1.cpp:202-237 — one iteration of the main loop.  The reduction
    (line 212) and lines 226-233 are those of S2_hard *)
Definition par_round (env : par_env) (shl : Z) (obs : Z -> lb_obs) (sched : Z -> Z -> Z -> list (list Z)) (limit : Z) (m : master_state) : res master_state :=
  let '(min_size, segment_size, segments_per_thread) := r_lb m in
  let low := r_low m in
  ' (threads, segments_per_thread) <- lb_clamp limit low segment_size segments_per_thread (r_threads m) ;;
  rs <- par_threads env segment_size segments_per_thread threads low limit ;;
  ' (s2, phi_total) <- hard_combine 256 256 (sched (r_round m)) rs threads (r_s2 m, r_phi_total m) ;;
  ' (low, lb) <- lb_advance (Z.sqrt limit) shl (obs (r_round m)) low threads (min_size, segment_size, segments_per_thread) ;;
  Ok {| r_low := low; r_threads := threads; r_lb := lb; r_phi_total := phi_total; r_s2 := s2; r_round := r_round m + 1 |}.

(** What src/lmo/pi_lmo_parallel1.cpp takes from its environment: the load balancer is the
    object of S2_hard, here for z = limit (src/S2LoadBalancer.cpp:102-131) *)
Record par_oracles := {
  po_lmo : lmo_oracles;
  (** src/S2LoadBalancer.cpp:126-127 and 180 — (int64_t) (sqrtz_ / max(1.0, divisor)) *)
  po_size : Z;
  (** src/S2LoadBalancer.cpp:130 — smallest_hard_leaf_ *)
  po_leaf : Z;
  (** the observations of the load balancer, by number of the round *)
  po_obs : Z -> lb_obs;
  (** the schedules of the parallel loop, by number of the round *)
  po_sched : Z -> Z -> Z -> list (list Z)
}.

(** src/lmo/pi_lmo_parallel1.cpp:176-241 — S2 *)
Definition par_S2 (o : par_oracles) (x y c : Z) (primes lpf mu : list Z) (threads : Z) : res Z :=
  d <- zdiv x y ;;
  let limit := swrap 64 (d + 1) in
  let threads := ideal_num_threads threads limit (10 ^ 5) in
  min_size <- lb_min_size (po_size o) ;;
  pi <- generate_pi y ;;
  let env := {| l_x := x; l_y := y; l_c := c; l_pi := pi; l_primes := primes; l_lpf := lpf; l_mu := mu |} in
  loop (fun m =>
    if r_low m <? limit then
      m <- par_round env (po_leaf o) (po_obs o) (po_sched o) limit m ;; Ok (inl m)
    else Ok (inr (r_s2 m)))
    {| r_low := 1; r_threads := threads; r_lb := (min_size, min_size, 1); r_phi_total := amake (zlen primes) 0; r_s2 := 0; r_round := 0 |}.

(** src/lmo/pi_lmo_parallel1.cpp:251-278 — pi_lmo_parallel1 *)
Definition pi_lmo_parallel1 (o : par_oracles) (x threads : Z) : res Z :=
  if x <? 2 then Ok 0
  else
    let lo := po_lmo o in
    x6 <- iroot i128 6 (lo_root6 lo) x ;;
    x13 <- iroot i128 3 (lo_root3 lo) x ;;
    let y := lo_y lo x13 x6 in
    c <- get_c y ;;
    p2 <- P2.P2 (o_p2leg (lo_base lo)) (o_p2speed (lo_base lo)) (o_p2sched (lo_base lo)) x y threads ;;
    mu <- generate_moebius y ;;
    lpf <- generate_lpf y ;;
    let primes := map (swrap 32) (generate_primes y) in
    s1 <- S1.S1 (o_s1sched (lo_base lo)) x y c ;;
    s2 <- par_S2 o x y c primes lpf mu threads ;;
    t <- prime_sum_tiny y ;;
    lmo_formula s1 s2 t p2.

(** src/primesum.cpp:99-102 — pi_lmo *)
Definition pi_lmo := pi_lmo_parallel1.
