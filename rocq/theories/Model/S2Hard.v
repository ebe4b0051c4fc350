(** Model of src/deleglise-rivat/S2_hard.cpp.

    The accumulators of type T and res_t (int128_t for a 64-bit x, int256_t above) use the
    operations of Model/Accum.v; the sums phi, sum, sum_low_high and phi_total (int128_t)
    are checked for overflow, except inside BitSieve::sum and the BinaryIndexedTree.
    Simplifications.  int64_t sums and products that decide about intervals are checked,
    conversions to int64_t wrap.
    isqrt is Z.sqrt (C28), fast_div the quotient (C31).  few_leaves compares with a
    double: its outcome is an oracle.  The two branches of the thread function (lines
    148-225 and 226-300) are the same loops with different means to sum the unsieved
    numbers, here a [counter].  mu_sum[b] is read before and written after the loop
    over the leaves of b, instead of at each leaf.  The iterations of the parallel loop
    only write to their own phi[i] and mu_sum[i] and to the reduction variable; they
    are evaluated one after the other; the reduction then adds their results according
    to an arbitrary schedule. *)
From Coq Require Import ZArith List Bool.
From Verif.Base Require Import Res Word Zl IType Par.
From Verif.Model Require Import Accum Imath Primesieve PiTable FactorTable BitSieve Fenwick Wheel S2 S2LoadBalancer.
Import ListNotations.
Open Scope Z_scope.

(** src/deleglise-rivat/S2_hard.cpp:151 (sum_low_high) or 134 (tree) *)
Inductive counter := Direct (sum_low_high : Z) | Tree (tree : list Z).

(** sieve[pos] as a number: include/BitSieve.hpp:77-82 *)
Definition bs_getz (sieve : bitsieve) (pos : Z) : res Z := b <- bs_get sieve pos ;; Ok (Z.b2z b).

(** src/deleglise-rivat/S2_hard.cpp:148-151 and 234 — the counter after pre-sieving;
    [old] is the previous content of the tree *)
Definition counter_init (few : bool) (old : list Z) (sieve : bitsieve) (segment_size low high : Z) : res counter :=
  if few then s <- bs_sum sieve low 0 (high - 1 - low) ;; Ok (Direct s)
  else t <- bit_init old segment_size (bs_getz sieve) low ;; Ok (Tree t).

(** src/deleglise-rivat/S2_hard.cpp:178-181 and 213-216, or 259 and 290 — the sum of the
    unsieved numbers up to low + stop; state (start, sum) *)
Definition counter_sum (cnt : counter) (sieve : bitsieve) (low high stop : Z) (st : Z * Z) : res (Z * Z) :=
  let '(start, sum) := st in
  match cnt with
  | Direct sum_low_high =>
      s <- bs_sum6 sieve start stop low high sum sum_low_high ;;
      sum <- schk 128 (sum + s) ;;
      Ok (stop + 1, sum)
  | Tree tree => s <- bit_sum tree stop ;; Ok (start, s)
  end.

(** src/deleglise-rivat/S2_hard.cpp:189 and 222, or 268 and 297 — the sum of all
    unsieved numbers of the segment *)
Definition counter_total (cnt : counter) (low high : Z) : res Z :=
  match cnt with
  | Direct sum_low_high => Ok sum_low_high
  | Tree tree => bit_sum tree (high - 1 - low)
  end.

(** src/deleglise-rivat/S2_hard.cpp:38-57 (lines 50-53, the body of the loop) — cross_off *)
Definition cross_off_sum (low m : Z) (st : bitsieve * Z) : res (bitsieve * Z) :=
  let '(sieve, sum) := st in
  g <- bs_getz sieve (m - low) ;;
  sieve <- bs_unset sieve (m - low) ;;
  sum <- schk 128 (sum + m * g) ;;
  Ok (sieve, sum).
(** src/deleglise-rivat/S2_hard.cpp:59-83 (lines 74-80, the body of the loop) — cross_off *)
Definition cross_off_tree (low m : Z) (st : bitsieve * list Z) : res (bitsieve * list Z) :=
  let '(sieve, tree) := st in
  g <- bs_get sieve (m - low) ;;
  if g then
    sieve <- bs_unset sieve (m - low) ;;
    tree <- bit_update tree m low ;;
    Ok (sieve, tree)
  else Ok (sieve, tree).
(** src/deleglise-rivat/S2_hard.cpp:190 and 223, or 269 and 298; lines 45-56 and 70-82 *)
Definition cross_off (cnt : counter) (sieve : bitsieve) (low high prime : Z) (it : wheel_item) : res (bitsieve * counter * wheel_item) :=
  match cnt with
  | Direct sum_low_high =>
      ' (s, it) <- wheel_for prime high it (cross_off_sum low) (sieve, 0) ;;
      d <- schk 128 (sum_low_high - snd s) ;;
      Ok (fst s, Direct d, it)
  | Tree tree =>
      ' (s, it) <- wheel_for prime high it (cross_off_tree low) (sieve, tree) ;;
      Ok (fst s, Tree (snd s), it)
  end.

(** The data read by every thread and the arguments that do not change:
    src/deleglise-rivat/S2_hard.cpp:105-119 *)
Record hard_env := {
  (** the width of T *)
  h_w : Z;
  h_x : Z; h_y : Z; h_z : Z; h_c : Z;
  h_factors : list Z; h_pi : pitable; h_primes : list Z;
  (** src/deleglise-rivat/S2_hard.cpp:85-95 — few_leaves(low, high, y, alpha) *)
  h_few : Z -> Z -> bool
}.

(** src/deleglise-rivat/S2_hard.cpp:163-187, or 253-266 — the leaves prime * m of one
    segment; [st] is (start, sum), [acc] is (s2_hard, mu_sum[b]) *)
Definition hard_m_loop (env : hard_env) (cnt : counter) (sieve : bitsieve) (low high prime x2 phi_b min_m max_m : Z) (acc : Z * Z) : res (Z * Z) :=
  loop (fun '(m, st, s2, mu_sum) =>
    if m >? min_m then
      lpf <- ft_lpf (h_factors env) m ;;
      if prime <? lpf then
        fm <- get_number m ;;
        d <- zdiv x2 fm ;;
        let xn := swrap 64 d in
        st <- counter_sum cnt sieve low high (xn - low) st ;;
        phi_xn <- schk 128 (phi_b + snd st) ;;
        mu_m <- ft_mu (h_factors env) m ;;
        k <- schk 64 (mu_m * fm) ;;
        pmul <- schk 128 (k * prime) ;;
        t <- t_mul (h_w env) pmul phi_xn ;;
        s2 <- t_sub (h_w env) s2 t ;;
        mu_sum <- t_sub (h_w env) mu_sum pmul ;;
        Ok (inl (m - 1, st, s2, mu_sum))
      else Ok (inl (m - 1, st, s2, mu_sum))
    else Ok (inr (s2, mu_sum))) (max_m, (0, 0), fst acc, snd acc).

(** src/deleglise-rivat/S2_hard.cpp:204-220, or 287-295 — the leaves prime * primes[l]
    of one segment *)
Definition hard_l_loop (env : hard_env) (cnt : counter) (sieve : bitsieve) (low high prime x2 phi_b min_hard l : Z) (acc : Z * Z) : res (Z * Z) :=
  loop (fun '(l, st, s2, mu_sum) =>
    q <- aget (h_primes env) l ;;
    if q >? min_hard then
      d <- zdiv x2 q ;;
      let xn := swrap 64 d in
      st <- counter_sum cnt sieve low high (xn - low) st ;;
      phi_xn <- schk 128 (phi_b + snd st) ;;
      pmul <- schk 128 (q * prime) ;;
      t <- t_mul (h_w env) pmul phi_xn ;;
      s2 <- t_add (h_w env) s2 t ;;
      mu_sum <- t_add (h_w env) mu_sum pmul ;;
      Ok (inl (l - 1, st, s2, mu_sum))
    else Ok (inr (s2, mu_sum))) (l, (0, 0), fst acc, snd acc).

(** src/deleglise-rivat/S2_hard.cpp:158-187, or 241-266 — all leaves of the b-th prime
    for b <= pi_sqrty; None is goto next_segment *)
Definition hard_leaves_m (env : hard_env) (cnt : counter) (sieve : bitsieve) (low high b phi_b : Z) (acc : Z * Z) : res (option (Z * Z)) :=
  prime <- aget (h_primes env) b ;;
  x2 <- zdiv (h_x env) prime ;;
  d <- zdiv x2 high ;;
  let x2_div_high := swrap 64 (Z.min d (h_y env)) in
  d <- zdiv (h_y env) prime ;;
  let min_m := Z.max x2_div_high d in
  d <- zdiv x2 low ;;
  let max_m := swrap 64 (Z.min d (h_y env)) in
  if prime >=? max_m then Ok None
  else
    min_m <- get_index min_m ;;
    max_m <- get_index max_m ;;
    r <- hard_m_loop env cnt sieve low high prime x2 phi_b min_m max_m acc ;;
    Ok (Some r).

(** src/deleglise-rivat/S2_hard.cpp:198-220, or 277-295 — for b > pi_sqrty *)
Definition hard_leaves_l (env : hard_env) (cnt : counter) (sieve : bitsieve) (low high b phi_b : Z) (acc : Z * Z) : res (option (Z * Z)) :=
  prime <- aget (h_primes env) b ;;
  x2 <- zdiv (h_x env) prime ;;
  d <- zdiv x2 low ;;
  let x2_div_low := swrap 64 (Z.min d (h_y env)) in
  d <- zdiv x2 high ;;
  let x2_div_high := swrap 64 (Z.min d (h_y env)) in
  d <- zdiv (h_z env) prime ;;
  l <- pi_get (h_pi env) (Z.min x2_div_low d) ;;
  d <- zdiv (h_y env) prime ;;
  let min_hard := Z.max (Z.max x2_div_high d) prime in
  q <- aget (h_primes env) l ;;
  if prime >=? q then Ok None
  else
    r <- hard_l_loop env cnt sieve low high prime x2 phi_b min_hard l acc ;;
    Ok (Some r).

(** The variables of a thread: src/deleglise-rivat/S2_hard.cpp:118-119 and 125-134 *)
Record hard_state := {
  t_s2 : Z; t_sieve : bitsieve; t_wheel : list wheel_item; t_phi : list Z; t_mu : list Z; t_tree : list Z
}.
(** src/deleglise-rivat/S2_hard.cpp:134 — the tree of the thread after a segment *)
Definition tree_of (cnt : counter) (old : list Z) : list Z := match cnt with Direct _ => old | Tree t => t end.

(** src/deleglise-rivat/S2_hard.cpp:153-224, or 236-299 — the two loops over b of one
    segment, from b = c + 1; the first runs while b <= min(pi_sqrty, max_b), the second
    while b <= max_b *)
Definition hard_b_loop (env : hard_env) (low high pi_sqrty max_b : Z) (cnt : counter) (st : hard_state) : res (counter * hard_state) :=
  loop (fun '(b, cnt, st) =>
    if b <=? max_b then
      phi_b <- aget (t_phi st) b ;;
      mu_b <- aget (t_mu st) b ;;
      o <- (if b <=? Z.min pi_sqrty max_b
            then hard_leaves_m env cnt (t_sieve st) low high b phi_b (t_s2 st, mu_b)
            else hard_leaves_l env cnt (t_sieve st) low high b phi_b (t_s2 st, mu_b)) ;;
      match o with
      | None => Ok (inr (cnt, st))
      | Some (s2, mu_b) =>
          mu <- aset (t_mu st) b mu_b ;;
          total <- counter_total cnt low high ;;
          phi_b <- schk 128 (phi_b + total) ;;
          phi <- aset (t_phi st) b phi_b ;;
          prime <- aget (h_primes env) b ;;
          it <- aget (t_wheel st) b ;;
          ' (sieve, cnt, it) <- cross_off cnt (t_sieve st) low high prime it ;;
          wheel <- aset (t_wheel st) b it ;;
          Ok (inl (b + 1, cnt,
            {| t_s2 := s2; t_sieve := sieve; t_wheel := wheel; t_phi := phi; t_mu := mu; t_tree := t_tree st |}))
      end
    else Ok (inr (cnt, st))) (h_c env + 1, cnt, st).

(** src/deleglise-rivat/S2_hard.cpp:136-303 — the loop over the segments of a thread *)
Definition hard_segments (env : hard_env) (segment_size low limit pi_sqrty max_b : Z) (st : hard_state) : res hard_state :=
  loop (fun '(low, st) =>
    if low <? limit then
      h <- schk 64 (low + segment_size) ;;
      let high := Z.min h limit in
      sieve <- pre_sieve (t_sieve st) (h_c env) low ;;
      cnt <- counter_init (h_few env low high) (t_tree st) sieve segment_size low high ;;
      ' (cnt, st) <- hard_b_loop env low high pi_sqrty max_b cnt
        {| t_s2 := t_s2 st; t_sieve := sieve; t_wheel := t_wheel st; t_phi := t_phi st; t_mu := t_mu st; t_tree := t_tree st |} ;;
      Ok (inl (low + segment_size,
        {| t_s2 := t_s2 st; t_sieve := t_sieve st; t_wheel := t_wheel st; t_phi := t_phi st; t_mu := t_mu st;
           t_tree := tree_of cnt (t_tree st) |}))
    else Ok (inr st)) (low, st).

(** src/deleglise-rivat/S2_hard.cpp:105-306 — S2_hard_OpenMP_thread; returns
    (s2_hard, mu_sum, phi) *)
Definition S2_hard_thread (env : hard_env) (segment_size segments_per_thread thread_num low limit : Z) : res (Z * list Z * list Z) :=
  ' (low, limit) <- lb_interval segment_size segments_per_thread thread_num low limit ;;
  q <- zdiv (h_x env) low ;;
  max_b <- pi_get (h_pi env) (swrap 64 (Z.min (Z.min (Z.sqrt q) (Z.sqrt (h_z env))) (h_y env))) ;;
  pi_sqrty <- pi_get (h_pi env) (Z.sqrt (h_y env)) ;;
  if h_c env >? max_b then Ok (0, [], [])
  else
    sieve <- bs_make segment_size ;;
    wheel <- wheel_make (h_primes env) (max_b + 1) low ;;
    st <- hard_segments env segment_size low limit pi_sqrty max_b
      {| t_s2 := 0; t_sieve := sieve; t_wheel := wheel; t_phi := amake (max_b + 1) 0; t_mu := amake (max_b + 1) 0; t_tree := [] |} ;;
    Ok (t_s2 st, t_mu st, t_phi st).

(** src/deleglise-rivat/S2_hard.cpp:353-360 — all threads of one round *)
Definition hard_threads (env : hard_env) (segment_size segments_per_thread threads low limit : Z) : res (list (Z * list Z * list Z)) :=
  for_ 0 threads (fun i l =>
    r <- S2_hard_thread env segment_size segments_per_thread i low limit ;;
    Ok (l ++ [r])) [].

(** src/deleglise-rivat/S2_hard.cpp:369-373 — the contribution of one thread; [w] is the
    width of res_t, [v] that of the elements of phi_total *)
Definition hard_combine1 (w v : Z) (mu_sum phi : list Z) (st : Z * list Z) : res (Z * list Z) :=
  for_ 1 (zlen phi) (fun j '(s2, phi_total) =>
    m <- aget mu_sum j ;;
    t <- aget phi_total j ;;
    mt <- t_mul w m t ;;
    s2 <- t_add w s2 mt ;;
    p <- aget phi j ;;
    t <- t_add v t p ;;
    phi_total <- aset phi_total j t ;;
    Ok (s2, phi_total)) st.

(** src/deleglise-rivat/S2_hard.cpp:353-360 (the reduction) and 367-374; [sched] is the
    schedule of the parallel loop *)
Definition hard_combine (w v : Z) (sched : Z -> Z -> list (list Z)) (rs : list (Z * list Z * list Z)) (threads : Z) (st : Z * list Z) : res (Z * list Z) :=
  s2 <- par_acc (t_add w) (fun i s2 (_ : unit) => r <- aget rs i ;; s2 <- t_add w s2 (fst (fst r)) ;; Ok (s2, tt))
    (sched 0 threads) tt (fst st) ;;
  for_ 0 threads (fun i st =>
    ' (_, mu_sum, phi) <- aget rs i ;;
    hard_combine1 w v mu_sum phi st) (s2, snd st).

(** src/deleglise-rivat/S2_hard.cpp:328-340 — the variables of the master between two rounds *)
Record master_state := { r_low : Z; r_threads : Z; r_lb : lb_state; r_phi_total : list Z; r_s2 : Z; r_round : Z }.

(** src/deleglise-rivat/S2_hard.cpp:343-378 — one iteration of the main loop *)
Definition hard_round (env : hard_env) (shl : Z) (obs : Z -> lb_obs) (sched : Z -> Z -> Z -> list (list Z)) (limit : Z) (m : master_state) : res master_state :=
  let '(min_size, segment_size, segments_per_thread) := r_lb m in
  let low := r_low m in
  ' (threads, segments_per_thread) <- lb_clamp limit low segment_size segments_per_thread (r_threads m) ;;
  rs <- hard_threads env segment_size segments_per_thread threads low limit ;;
  ' (s2, phi_total) <- hard_combine (h_w env) 128 (sched (r_round m)) rs threads (r_s2 m, r_phi_total m) ;;
  ' (low, lb) <- lb_advance (Z.sqrt (h_z env)) shl (obs (r_round m)) low threads (min_size, segment_size, segments_per_thread) ;;
  Ok {| r_low := low; r_threads := threads; r_lb := lb; r_phi_total := phi_total; r_s2 := s2; r_round := r_round m + 1 |}.

(** What src/deleglise-rivat/S2_hard.cpp:318-424 takes from its environment *)
Record hard_oracles := {
  (** the order of the parallel loop of the FactorTable *)
  ho_order : Z -> list Z;
  (** few_leaves *)
  ho_few : Z -> Z -> bool;
  (** src/S2LoadBalancer.cpp:126-127 and 180 — (int64_t) (sqrtz_ / max(1.0, divisor)) *)
  ho_size : Z;
  (** src/S2LoadBalancer.cpp:130 — smallest_hard_leaf_ *)
  ho_leaf : Z;
  (** the observations of the load balancer, by number of the round *)
  ho_obs : Z -> lb_obs;
  (** the schedules of the parallel loop, by number of the round *)
  ho_sched : Z -> Z -> Z -> list (list Z)
}.

(** src/deleglise-rivat/S2_hard.cpp:316-381 — S2_hard_OpenMP_master, [w] being the
    width of res_t *)
Definition S2_hard_master (w : Z) (o : hard_oracles) (x y z c : Z) (primes factors : list Z) (threads : Z) : res Z :=
  let threads := ideal_num_threads threads z (10 ^ 5) in
  limit <- schk 64 (z + 1) ;;
  max_prime <- zdiv z (Z.sqrt y) ;;
  min_size <- lb_min_size (ho_size o) ;;
  pt <- PiTable max_prime ;;
  n <- pi_get pt (Z.sqrt z) ;;
  let env := {| h_w := w; h_x := x; h_y := y; h_z := z; h_c := c; h_factors := factors; h_pi := pt; h_primes := primes; h_few := ho_few o |} in
  loop (fun m =>
    if r_low m <? limit then
      m <- hard_round env (ho_leaf o) (ho_obs o) (ho_sched o) limit m ;; Ok (inl m)
    else Ok (inr (r_s2 m)))
    {| r_low := 1; r_threads := threads; r_lb := (min_size, min_size, 1); r_phi_total := amake (n + 1) 0; r_s2 := 0; r_round := 0 |}.

(** src/deleglise-rivat/S2_hard.cpp:387-424 — S2_hard.  The primes are stored as
    uint32_t or int64_t: larger ones are truncated
    (lib/primesieve/include/primesieve/StorePrimes.hpp:60-61) *)
Definition S2_hard (o : hard_oracles) (x y z c threads : Z) : res Z :=
  if y <=? ft_max (2 ^ 16 - 1) then
    factors <- FactorTable (2 ^ 16 - 1) y threads (ho_order o) ;;
    max_prime <- zdiv z (Z.sqrt y) ;;
    let primes := map (uwrap 32) (generate_primes max_prime) in
    S2_hard_master (if x <=? 2 ^ 63 - 1 then next_larger 64 else next_larger 128) o x y z c primes factors threads
  else
    factors <- FactorTable (2 ^ 32 - 1) y threads (ho_order o) ;;
    max_prime <- zdiv z (Z.sqrt y) ;;
    let primes := map (swrap 64) (generate_primes max_prime) in
    S2_hard_master (next_larger 128) o x y z c primes factors threads.
