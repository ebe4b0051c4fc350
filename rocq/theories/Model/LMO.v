(** Model of src/lmo/pi_lmo2.cpp, pi_lmo3.cpp, pi_lmo4.cpp and pi_lmo5.cpp.

    S2_result, phi and phi[b] are int64_t, int128_t in pi_lmo4.cpp.  What an operation on
    them does with its exact value is the parameter [ar] : [schk n] makes a value that does
    not fit undefined behaviour, as the language does, [wrap n] reduces it, as the
    processor does.  All other int64_t sums and products are checked, as are all accesses
    of the tables.  Simplifications.  isqrt is Z.sqrt (C28).  The calls of print and get_time do
    not take part in the computation.  phi[b] is read before and written after the
    leaves of b, instead of at each leaf; next[b] (wheel[b]) likewise.  The four files
    have the same structure: the parts they share are defined once, with the lines of
    every file. *)
From Coq Require Import ZArith List Bool.
From Verif.Base Require Import Res Word Zl IType.
From Verif.Model Require Import Accum Imath Primesieve Tables PhiTiny P2 S1 BitSieve Fenwick Wheel S2 S2Hard Oracles.
Import ListNotations.
Open Scope Z_scope.

(** An n-bit signed operation of the processor: the exact value is reduced.  The types of
    src/lmo/pi_lmo2.cpp:44 and 61, pi_lmo3.cpp:63 and 67, pi_lmo5.cpp:75 and 77 *)
Definition wrap (n v : Z) : res Z := Ok (swrap n v).

(** ** Parts of the loops *)
(** [for (; i <= stop; i += step) phi += (low + i) * sieve[i]]:
    src/lmo/pi_lmo2.cpp:72-73 (low = 0), pi_lmo3.cpp:107-108 and 114-115,
    pi_lmo5.cpp:110-111, 116-117, 138-139 and 143-144, pi_lmo_parallel1.cpp:120-121,
    127-128, 150-151 and 156-157 (there [i < high - low] is [i <= high - low - 1]).
    [plus] is the addition of the type of phi *)
Definition sum_until (plus : Z -> Z -> res Z) (get : Z -> res Z) (low step stop : Z) (st : Z * Z) : res (Z * Z) :=
  loop (fun '(i, phi) =>
    if i <=? stop then
      v <- get i ;;
      phi <- plus phi ((low + i) * v) ;;
      Ok (inl (i + step, phi))
    else Ok (inr (i, phi))) st.

(** [for (; k < high; k += step) sieve[k - low] = 0]; returns also the last k:
    src/lmo/pi_lmo2.cpp:53-54 and 80-81 (low = 0), pi_lmo3.cpp:44-45 and 82-83,
    pi_lmo4.cpp:91-92 *)
Definition mark (sieve : list Z) (low k high step : Z) : res (list Z * Z) :=
  loop (fun '(sieve, k) =>
    if k <? high then
      sieve <- aset sieve (k - low) 0 ;;
      k <- schk 64 (k + step) ;;
      Ok (inl (sieve, k))
    else Ok (inr (sieve, k))) (sieve, k).

(** The loop over the leaves prime * m: src/lmo/pi_lmo2.cpp:63-77, pi_lmo3.cpp:100-112,
    pi_lmo4.cpp:111-121, pi_lmo5.cpp:104-114, pi_lmo_parallel1.cpp:114-125.  [query] finds
    phi(xn, b - 1), [sub pmul phi] accounts for a leaf with the weight - pmul *)
Definition leaves_m {S A} (query : Z -> S -> res (Z * S)) (sub : Z -> Z -> A -> res A) (lpf mu : list Z) (x prime min_m max_m : Z) (st : S) (acc : A) : res (S * A) :=
  for_down max_m min_m (fun m '(st, acc) =>
    mu_m <- aget mu m ;;
    if mu_m =? 0 then Ok (st, acc)
    else
      lpf_m <- aget lpf m ;;
      if prime <? lpf_m then
        n <- schk 64 (prime * m) ;;
        xn <- zdiv x n ;;
        ' (phi, st) <- query xn st ;;
        acc <- sub (mu_m * m * prime) phi acc ;;
        Ok (st, acc)
      else Ok (st, acc)) (st, acc).

(** The loop over the leaves prime * primes[l]: src/lmo/pi_lmo5.cpp:134-141,
    pi_lmo_parallel1.cpp:146-154; [add pmul phi] accounts for a leaf with the weight pmul *)
Definition leaves_l {S A} (query : Z -> S -> res (Z * S)) (add : Z -> Z -> A -> res A) (primes : list Z) (x prime min_m l : Z) (st : S) (acc : A) : res (S * A) :=
  loop (fun '(l, st, acc) =>
    q <- aget primes l ;;
    if q >? min_m then
      n <- schk 64 (prime * q) ;;
      xn <- zdiv x n ;;
      ' (phi, st) <- query xn st ;;
      acc <- add (q * prime) phi acc ;;
      Ok (inl (l - 1, st, acc))
    else Ok (inr (st, acc))) (l, st, acc).

(** phi += d: src/lmo/pi_lmo2.cpp:73, pi_lmo3.cpp:108 and 115, pi_lmo4.cpp:117 and 125,
    pi_lmo5.cpp:111, 117, 139 and 144 *)
Definition ar_plus (ar : Z -> res Z) (phi d : Z) : res Z := ar (phi + d).
(** src/lmo/pi_lmo2.cpp:75, pi_lmo3.cpp:110, pi_lmo4.cpp:119, pi_lmo5.cpp:112; the product
    mu[m] * m * prime is at most y^2 *)
Definition sub_leaf (ar : Z -> res Z) (pmul phi s2 : Z) : res Z := t <- ar (pmul * phi) ;; ar (s2 - t).
(** src/lmo/pi_lmo5.cpp:140 *)
Definition add_leaf (ar : Z -> res Z) (pmul phi s2 : Z) : res Z := t <- ar (pmul * phi) ;; ar (s2 + t).

(** min_m and max_m: src/lmo/pi_lmo3.cpp:90-91, pi_lmo4.cpp:102-103, pi_lmo5.cpp:97-98,
    pi_lmo_parallel1.cpp:107-108 *)
Definition m_range (x y prime low high : Z) : res (Z * Z) :=
  ph <- schk 64 (prime * high) ;;
  d <- zdiv x ph ;;
  e <- zdiv y prime ;;
  pl <- schk 64 (prime * low) ;;
  f <- zdiv x pl ;;
  Ok (Z.max d e, Z.min f y).

(** ** pi_lmo2 *)
(** src/lmo/pi_lmo2.cpp:72-73 — the query of the loop over the leaves; state (i, phi) *)
Definition lmo2_query (ar : Z -> res Z) (sieve : list Z) (xn : Z) (st : Z * Z) : res (Z * (Z * Z)) :=
  st <- sum_until (ar_plus ar) (aget sieve) 0 1 xn st ;; Ok (snd st, st).

(** src/lmo/pi_lmo2.cpp:35-85 — S2 *)
Definition lmo2_S2 (ar : Z -> res Z) (x y c : Z) (primes lpf mu : list Z) : res Z :=
  d <- zdiv x y ;;
  limit <- schk 64 (d + 1) ;;
  pi_y <- pi_bsearch primes y ;;
  sieve <- for_ 1 (c + 1) (fun b sieve =>
    prime <- aget primes b ;;
    ' (sieve, _) <- mark sieve 0 prime limit prime ;;
    Ok sieve) (amake limit 1) ;;
  ' (_, s2) <- for_ (c + 1) pi_y (fun b '(sieve, s2) =>
    prime <- aget primes b ;;
    d <- zdiv y prime ;;
    ' (_, s2) <- leaves_m (lmo2_query ar sieve) (sub_leaf ar) lpf mu x prime d y (1, 0) s2 ;;
    ' (sieve, _) <- mark sieve 0 prime limit (prime * 2) ;;
    Ok (sieve, s2)) (sieve, 0) ;;
  Ok s2.

(** ** Segmented sieves *)
(** The loops over b in one segment, from b = c + 1 while b < last:
    src/lmo/pi_lmo3.cpp:87-119, pi_lmo4.cpp:99-129, pi_lmo5.cpp:94-146,
    pi_lmo_parallel1.cpp:104-160.  An element of [phi] is phi[b] (in pi_lmo_parallel1.cpp
    the pair of phi[b] and mu_sum[b]).  [leaves] gives its new value and the new S2_result,
    or None for break and goto next_segment; [cross] removes the multiples of the b-th
    prime from the sieve [v] and advances next[b] (wheel[b]) *)
Definition seg_b_loop {V I P} (leaves : Z -> V -> P -> Z -> res (option (P * Z))) (cross : Z -> V -> I -> res (V * I))
    (c last : Z) (v : V) (phi : list P) (next : list I) (s2 : Z) : res (V * list P * list I * Z) :=
  loop (fun '(b, v, phi, next, s2) =>
    if b <? last then
      phi_b <- aget phi b ;;
      o <- leaves b v phi_b s2 ;;
      match o with
      | None => Ok (inr (v, phi, next, s2))
      | Some (phi_b, s2) =>
          phi <- aset phi b phi_b ;;
          it <- aget next b ;;
          ' (v, it) <- cross b v it ;;
          next <- aset next b it ;;
          Ok (inl (b + 1, v, phi, next, s2))
      end
    else Ok (inr (v, phi, next, s2))) (c + 1, v, phi, next, s2).

(** The loop over the segments of [low, limit[: src/lmo/pi_lmo3.cpp:70-120,
    pi_lmo4.cpp:79-130, pi_lmo5.cpp:82-149, pi_lmo_parallel1.cpp:92-163.  [init] prepares
    the sieve of the segment.  Returns phi and S2_result *)
Definition segments {V I P} (init : Z -> Z -> V -> list I -> res (V * list I)) (leaves : Z -> Z -> Z -> V -> P -> Z -> res (option (P * Z)))
    (cross : Z -> Z -> Z -> V -> I -> res (V * I)) (c last segment_size low limit : Z) (v : V) (phi : list P) (next : list I) : res (list P * Z) :=
  loop (fun '(low, v, phi, next, s2) =>
    if low <? limit then
      h <- schk 64 (low + segment_size) ;;
      let high := Z.min h limit in
      ' (v, next) <- init low high v next ;;
      ' (v, phi, next, s2) <- seg_b_loop (leaves low high) (cross low high) c last v phi next s2 ;;
      Ok (inl (h, v, phi, next, s2))
    else Ok (inr (phi, s2))) (low, v, phi, next, 0).

(** src/lmo/pi_lmo3.cpp:79-85, pi_lmo4.cpp:88-94 — the multiples of the first c primes *)
Definition mark_first (primes : list Z) (c low high : Z) (sieve next : list Z) : res (list Z * list Z) :=
  for_ 1 (c + 1) (fun b '(sieve, next) =>
    k <- aget next b ;;
    prime <- aget primes b ;;
    ' (sieve, k) <- mark sieve low k high prime ;;
    next <- aset next b k ;;
    Ok (sieve, next)) (sieve, next).

(** ** pi_lmo3 *)
(** src/lmo/pi_lmo3.cpp:104-108, pi_lmo5.cpp:108-111 and 136-139,
    pi_lmo_parallel1.cpp:118-121 and 148-151 — the query; state (i, phi[b]) *)
Definition seg_query (plus : Z -> Z -> res Z) (get : Z -> res Z) (low step xn : Z) (st : Z * Z) : res (Z * (Z * Z)) :=
  st <- sum_until plus get low step (xn - low) st ;; Ok (snd st, st).

(** src/lmo/pi_lmo3.cpp:89-115, pi_lmo5.cpp:96-117, pi_lmo_parallel1.cpp:106-128; [acc] is
    S2_result *)
Definition seg_leaves_m {A} (plus : Z -> Z -> res Z) (get : Z -> res Z) (sub : Z -> Z -> A -> res A) (step x y : Z) (primes lpf mu : list Z) (low high b phi_b : Z) (acc : A) : res (option (Z * A)) :=
  prime <- aget primes b ;;
  ' (min_m, max_m) <- m_range x y prime low high ;;
  if prime >=? max_m then Ok None
  else
    ' (st, acc) <- leaves_m (seg_query plus get low step) sub lpf mu x prime min_m max_m (0, phi_b) acc ;;
    ' (_, phi_b) <- sum_until plus get low step (high - low - 1) st ;;
    Ok (Some (phi_b, acc)).

(** src/lmo/pi_lmo3.cpp:53-123 — S2 *)
Definition lmo3_S2 (ar : Z -> res Z) (x y c : Z) (primes lpf mu : list Z) : res Z :=
  d <- zdiv x y ;;
  limit <- schk 64 (d + 1) ;;
  segment_size <- next_power_of_2 i64 (Z.sqrt limit) ;;
  pi_y <- pi_bsearch primes y ;;
  ' (_, s2) <- segments
    (fun low high _ next => mark_first primes c low high (amake segment_size 1) next)
    (fun low high b sieve => seg_leaves_m (ar_plus ar) (aget sieve) (sub_leaf ar) 1 x y primes lpf mu low high b)
    (fun low high b sieve k => prime <- aget primes b ;; mark sieve low k high (prime * 2))
    c pi_y segment_size 1 limit [] (amake (zlen primes) 0) primes ;;
  Ok s2.

(** ** pi_lmo4 *)
(** src/lmo/pi_lmo4.cpp:115-117 — the query *)
Definition lmo4_query (ar : Z -> res Z) (tree : list Z) (low phi_b xn : Z) (st : unit) : res (Z * unit) :=
  sum <- bit_sum tree (xn - low) ;;
  phi <- ar_plus ar phi_b sum ;;
  Ok (phi, st).
(** src/lmo/pi_lmo4.cpp:101-125 *)
Definition lmo4_leaves (ar : Z -> res Z) (x y : Z) (primes lpf mu tree : list Z) (low high b phi_b s2 : Z) : res (option (Z * Z)) :=
  prime <- aget primes b ;;
  ' (min_m, max_m) <- m_range x y prime low high ;;
  if prime >=? max_m then Ok None
  else
    ' (_, s2) <- leaves_m (lmo4_query ar tree low phi_b) (sub_leaf ar) lpf mu x prime min_m max_m tt s2 ;;
    sum <- bit_sum tree (high - 1 - low) ;;
    phi_b <- ar_plus ar phi_b sum ;;
    Ok (Some (phi_b, s2)).
(** src/lmo/pi_lmo4.cpp:36-56 — cross_off *)
Definition lmo4_cross (primes : list Z) (low high b : Z) (v : list Z * list Z) (k : Z) : res (list Z * list Z * Z) :=
  prime <- aget primes b ;;
  ' (sieve, tree, k) <- loop (fun '(sieve, tree, m) =>
    if m <? high then
      v <- aget sieve (m - low) ;;
      ' (sieve, tree) <- (if v =? 0 then Ok (sieve, tree)
        else
          sieve <- aset sieve (m - low) 0 ;;
          tree <- bit_update tree m low ;;
          Ok (sieve, tree)) ;;
      m <- schk 64 (m + prime * 2) ;;
      Ok (inl (sieve, tree, m))
    else Ok (inr (sieve, tree, m))) (fst v, snd v, k) ;;
  Ok (sieve, tree, k).
(** src/lmo/pi_lmo4.cpp:61-133 — S2 *)
Definition lmo4_S2 (ar : Z -> res Z) (x y c : Z) (primes lpf mu : list Z) : res Z :=
  d <- zdiv x y ;;
  limit <- schk 64 (d + 1) ;;
  segment_size <- next_power_of_2 i64 (Z.sqrt limit) ;;
  pi_y <- pi_bsearch primes y ;;
  ' (_, s2) <- segments
    (fun low high v next =>
      ' (sieve, next) <- mark_first primes c low high (amake segment_size 1) next ;;
      tree <- bit_init (snd v) segment_size (aget sieve) low ;;
      Ok ((sieve, tree), next))
    (fun low high b v => lmo4_leaves ar x y primes lpf mu (snd v) low high b)
    (lmo4_cross primes)
    c pi_y segment_size 1 limit ([], []) (amake (zlen primes) 0) primes ;;
  Ok s2.

(** ** pi_lmo5 *)
(** src/lmo/pi_lmo5.cpp:126-144, pi_lmo_parallel1.cpp:138-157 *)
Definition seg_leaves_l {A} (plus : Z -> Z -> res Z) (get : Z -> res Z) (add : Z -> Z -> A -> res A) (step x y : Z) (primes pi : list Z) (low high b phi_b : Z) (acc : A) : res (option (Z * A)) :=
  prime <- aget primes b ;;
  pl <- schk 64 (prime * low) ;;
  d <- zdiv x pl ;;
  l <- aget pi (Z.min d y) ;;
  ph <- schk 64 (prime * high) ;;
  d <- zdiv x ph ;;
  e <- zdiv y prime ;;
  let min_m := Z.max (Z.max d e) prime in
  q <- aget primes l ;;
  if prime >=? q then Ok None
  else
    ' (st, acc) <- leaves_l (seg_query plus get low step) add primes x prime min_m l (0, phi_b) acc ;;
    ' (_, phi_b) <- sum_until plus get low step (high - low - 1) st ;;
    Ok (Some (phi_b, acc)).
(** src/lmo/pi_lmo5.cpp:38-51, pi_lmo_parallel1.cpp:39-52 — cross_off *)
Definition lmo5_cross (primes : list Z) (low high b : Z) (sieve : bitsieve) (it : wheel_item) : res (bitsieve * wheel_item) :=
  prime <- aget primes b ;;
  wheel_for prime high it (fun m sieve => bs_unset sieve (m - low)) sieve.
(** src/lmo/pi_lmo5.cpp:57-153 — S2; pi_sqrty and pi_y are read from pi *)
Definition lmo5_S2 (ar : Z -> res Z) (x y c : Z) (primes lpf mu : list Z) : res Z :=
  d <- zdiv x y ;;
  limit <- schk 64 (d + 1) ;;
  segment_size <- next_power_of_2 i64 (Z.sqrt limit) ;;
  sieve <- bs_make segment_size ;;
  wheel <- wheel_make primes (zlen primes) 1 ;;
  pi <- generate_pi y ;;
  pi_sqrty <- aget pi (Z.sqrt y) ;;
  pi_y <- aget pi y ;;
  ' (_, s2) <- segments
    (fun low high sieve wheel => sieve <- pre_sieve sieve c low ;; Ok (sieve, wheel))
    (fun low high b sieve =>
      if b <? pi_sqrty then seg_leaves_m (ar_plus ar) (bs_getz sieve) (sub_leaf ar) 2 x y primes lpf mu low high b
      else seg_leaves_l (ar_plus ar) (bs_getz sieve) (add_leaf ar) 2 x y primes pi low high b)
    (lmo5_cross primes)
    c pi_y segment_size 1 limit sieve (amake (zlen primes) 0) wheel ;;
  Ok s2.

(** ** The functions themselves *)
(** What the functions of src/lmo/pi_lmo2.cpp:95, pi_lmo3.cpp:133, pi_lmo4.cpp:143 and
    pi_lmo5.cpp:163 take from their environment, besides [oracles] *)
Record lmo_oracles := {
  lo_base : oracles;
  (** pow((double) x, 1.0 / 6) in iroot<6> (include/imath.hpp:88) *)
  lo_root6 : Z;
  (** pow((double) x, 1.0 / 3) in iroot<3> (include/imath.hpp:88) *)
  lo_root3 : Z;
  (** (int64_t) (x13 * alpha), x13 = iroot<3>(x), where alpha is get_alpha_lmo(x): the
      tuning factor set by the user or a polynomial in log(x), clamped to
      [1, iroot<6>(x)] (src/primesum.cpp:184-201) *)
  lo_y : Z -> Z -> Z
}.

(** src/lmo/pi_lmo2.cpp:95-116, pi_lmo3.cpp:133-154, pi_lmo4.cpp:143-164,
    pi_lmo5.cpp:163-190.  int256_t values follow Model/Accum.v, the result is
    int64_t(sum) *)
Definition lmo_main (S2 : Z -> Z -> Z -> list Z -> list Z -> list Z -> res Z) (o : lmo_oracles) (x : Z) : res Z :=
  if x <? 2 then Ok 0
  else
    x6 <- iroot i128 6 (lo_root6 o) x ;;
    x13 <- iroot i64 3 (lo_root3 o) x ;;
    let y := lo_y o x13 x6 in
    c <- get_c y ;;
    p2 <- P2.P2 (o_p2leg (lo_base o)) (o_p2speed (lo_base o)) (o_p2sched (lo_base o)) x y 1 ;;
    let primes := map (swrap 32) (generate_primes y) in
    lpf <- generate_lpf y ;;
    mu <- generate_moebius y ;;
    s1 <- S1.S1 (o_s1sched (lo_base o)) x y c ;;
    s2 <- S2 x y c primes lpf mu ;;
    t <- prime_sum_tiny y ;;
    sum <- lmo_formula s1 s2 t p2 ;;
    Ok (swrap 64 sum).

(** src/lmo/pi_lmo2.cpp:95, pi_lmo3.cpp:133, pi_lmo5.cpp:163, with the int64_t operations
    of the processor *)
Definition pi_lmo2 := lmo_main (lmo2_S2 (wrap 64)).
(** src/lmo/pi_lmo3.cpp:133 *)
Definition pi_lmo3 := lmo_main (lmo3_S2 (wrap 64)).
(** src/lmo/pi_lmo5.cpp:163 *)
Definition pi_lmo5 := lmo_main (lmo5_S2 (wrap 64)).
(** The same functions where an int64_t overflow is undefined behaviour:
    src/lmo/pi_lmo2.cpp:95, pi_lmo3.cpp:133, pi_lmo5.cpp:163 *)
Definition pi_lmo2_strict := lmo_main (lmo2_S2 (schk 64)).
(** src/lmo/pi_lmo3.cpp:133 *)
Definition pi_lmo3_strict := lmo_main (lmo3_S2 (schk 64)).
(** src/lmo/pi_lmo5.cpp:163 *)
Definition pi_lmo5_strict := lmo_main (lmo5_S2 (schk 64)).
(** src/lmo/pi_lmo4.cpp:143; an int128_t overflow is undefined behaviour *)
Definition pi_lmo4 := lmo_main (lmo4_S2 (schk 128)).
