(** Model of src/deleglise-rivat/S2_trivial.cpp, S2_easy.cpp and S2_easy_libdivide.cpp.

    The accumulators and the products added to them (res_t: int128_t for a 64-bit x,
    int256_t above) use the operations of Model/Accum.v; the arithmetic of the table of
    prime sums (uint64_t or int128_t) and the conversions to int64_t are modelled.
    Simplifications.
    isqrt is Z.sqrt (C28), fast_div the quotient (C31), iroot<3> takes its floating
    point estimate as an argument.  Every table access is checked; the status output is
    left out; the iterations of the parallel loops run in an arbitrary order. *)
From Coq Require Import ZArith List Bool.
From Verif.Base Require Import Res Word Zl IType Par.
From Verif.Model Require Import Accum Imath Primesieve PiTable Tables Libdivide.
Import ListNotations.
Open Scope Z_scope.

(** a / b as at src/deleglise-rivat/S2_trivial.cpp:59 and S2_easy.cpp:60-96; dividing by zero is
    undefined *)
Definition zdiv (a b : Z) : res Z := assert_ (negb (b =? 0)) UB ;;; Ok (Z.quot a b).

(** The type of the prime sums — uint64_t if y <= UINT32_MAX, else int128_t:
    src/deleglise-rivat/S2_trivial.cpp:86-96 and S2_easy.cpp:124-141 *)
Definition ps_ar (y v : Z) : res Z := if y <=? 2 ^ 32 - 1 then Ok (uwrap 64 v) else schk 128 v.
(** src/deleglise-rivat/S2_easy.cpp:81, 85, 95 — prime_sums[k]; the entries are computed exactly
    and converted on access *)
Definition ps_get (y : Z) (prime_sums : list Z) (k : Z) : res Z := v <- aget prime_sums k ;; ps_ar y v.
(** src/deleglise-rivat/S2_easy.cpp:81 and 95 — prime_sums[pi_xn] + 1 - prime_sums[b - 1] *)
Definition phi_of_sums (y : Z) (prime_sums : list Z) (pi_xn b : Z) : res Z :=
  u <- ps_get y prime_sums pi_xn ;;
  u <- ps_ar y (u + 1) ;;
  v <- ps_get y prime_sums (b - 1) ;;
  ps_ar y (u - v).

(** src/deleglise-rivat/S2_trivial.cpp:54-62 — the loop over the primes < stop after
    start - 1; state (position of the iterator, s2_trivial); [s2] is the value of the
    reduction variable at the start of the iteration *)
Definition trivial_loop (pt : pitable) (prime_sums : list Z) (x y stop : Z) (start s2 : Z) : res Z :=
  loop (fun '(it, s2) =>
    let prime := next_prime it in
    if prime <? stop then
      q <- zdiv x (prime * prime) ;;
      let xn := swrap 64 (Z.max q prime) in
      iy <- pi_get pt y ;;
      ixn <- pi_get pt xn ;;
      a <- ps_get y prime_sums iy ;;
      b <- ps_get y prime_sums ixn ;;
      diff <- ps_ar y (a - b) ;;
      t <- t_mul 256 diff prime ;;
      s2 <- t_add 256 s2 t ;;
      Ok (inl (prime, s2))
    else Ok (inr s2)) (start - 1, s2).

(** src/deleglise-rivat/S2_trivial.cpp:48-63 — one iteration of the parallel loop *)
Definition trivial_thread (pt : pitable) (prime_sums : list Z) (x y sqrtz prime_c threads i s2 : Z) : res Z :=
  let start := Z.max prime_c sqrtz + 1 in
  thread_interval <- ceil_div i64 (y - start) threads ;;
  d <- schk 64 (thread_interval * i) ;;
  start <- schk 64 (start + d) ;;
  e <- schk 64 (start + thread_interval) ;;
  let stop := Z.min e y in
  trivial_loop pt prime_sums x y stop start s2.

(** src/deleglise-rivat/S2_trivial.cpp:29-66 — S2_trivial_OpenMP, and
    src/deleglise-rivat/S2_trivial.cpp:72-100 — S2_trivial *)
Definition S2_trivial (sched : Z -> Z -> list (list Z)) (x y z c threads : Z) : res Z :=
  prime_sums <- generate_prime_sums y ;;
  let threads := ideal_num_threads threads y (10 ^ 7) in
  pt <- PiTable y ;;
  let sqrtz := Z.sqrt z in
  prime_c <- nth_prime c ;;
  par_acc (t_add 256) (fun i s2 (_ : unit) => v <- trivial_thread pt prime_sums x y sqrtz prime_c threads i s2 ;; Ok (v, tt))
    (sched 0 threads) tt 0.

(** src/deleglise-rivat/S2_easy.cpp:79, 82 and 94, and S2_easy_libdivide.cpp:124, 127
    and 139 — x2 / primes[l] *)
Definition quo_primes (primes : list Z) (x2 l : Z) : res Z :=
  q <- aget primes l ;;
  zdiv x2 q.

(** src/deleglise-rivat/S2_easy_libdivide.cpp:40-48 — libdivide_divisors: a divider for
    every entry of primes but the first, whose divider is not initialized *)
Fixpoint gen_dividers (gen : Z -> res (Z * Z)) (l : list Z) : res (list (option (Z * Z))) :=
  match l with
  | [] => Ok []
  | d :: l => v <- gen d ;; t <- gen_dividers gen l ;; Ok (Some v :: t)
  end.
(** src/deleglise-rivat/S2_easy_libdivide.cpp:41-48 — libdivide_divisors *)
Definition libdivide_divisors (div128 : Z -> Z -> Z -> res (Z * Z)) (primes : list Z) : res (list (option (Z * Z))) :=
  t <- gen_dividers (u64_branchfree_gen div128) (tl primes) ;;
  Ok (None :: t).

(** src/deleglise-rivat/S2_easy_libdivide.cpp:32-36 (is_libdivide), 87-147 (the two
    branches of the loop, which only differ in the division), 95, 98 and 110 *)
Definition quo_libdivide (mullhi : Z -> Z -> res Z) (primes : list Z) (fastdiv : list (option (Z * Z))) (x2 l : Z) : res Z :=
  if x2 <=? 2 ^ 64 - 1 then
    o <- aget fastdiv l ;;
    match o with
    | Some v => u64_branchfree_do mullhi (uwrap 64 x2) v
    | None => Fail UB
    end
  else quo_primes primes x2 l.

(** src/deleglise-rivat/S2_easy.cpp:77-87 (S2_easy_libdivide.cpp:93-103 and 122-132) —
    clustered easy leaves; [w] is the width of res_t, [quo] divides x2 by primes[l];
    state (l, s2_easy) *)
Definition easy_clustered (w : Z) (quo : Z -> Z -> res Z) (y : Z) (prime_sums : list Z) (pt : pitable) (b prime x2 min_clustered pi_min_clustered l s2 : Z) : res (Z * Z) :=
  loop (fun '(l, s2) =>
    if l >? pi_min_clustered then
      d <- quo x2 l ;;
      let xn := swrap 64 d in
      pi_xn <- pi_get pt xn ;;
      let phi_xn := pi_xn - b + 2 in
      phi_xn_sum <- phi_of_sums y prime_sums pi_xn b ;;
      d <- quo x2 (b + phi_xn - 1) ;;
      let xm := swrap 64 d in
      let xm := Z.max xm min_clustered in
      l2 <- pi_get pt xm ;;
      a <- ps_get y prime_sums l ;;
      a2 <- ps_get y prime_sums l2 ;;
      diff <- ps_ar y (a - a2) ;;
      t <- t_mul w phi_xn_sum prime ;;
      t <- t_mul w t diff ;;
      s2 <- t_add w s2 t ;;
      Ok (inl (l2, s2))
    else Ok (inr (l, s2))) (l, s2).

(** src/deleglise-rivat/S2_easy.cpp:92-97 (S2_easy_libdivide.cpp:108-113 and 137-142) —
    sparse easy leaves; state (l, s2_easy) *)
Definition easy_sparse (w : Z) (quo : Z -> Z -> res Z) (y : Z) (primes prime_sums : list Z) (pt : pitable) (b prime x2 pi_min_sparse : Z) (st : Z * Z) : res Z :=
  loop (fun '(l, s2) =>
    if l >? pi_min_sparse then
      d <- quo x2 l ;;
      let xn := swrap 64 d in
      pi_xn <- pi_get pt xn ;;
      q <- aget primes l ;;
      phi <- phi_of_sums y prime_sums pi_xn b ;;
      n <- ps_ar y (prime * q) ;;
      t <- t_mul w phi n ;;
      s2 <- t_add w s2 t ;;
      Ok (inl (l - 1, s2))
    else Ok (inr s2)) st.

(** src/deleglise-rivat/S2_easy.cpp:59-97 (S2_easy_libdivide.cpp:72-147) — one iteration
    of the parallel loop *)
Definition easy_b (w : Z) (quo : Z -> Z -> res Z) (primes prime_sums : list Z) (pt : pitable) (x y z b s2 : Z) : res Z :=
  prime <- aget primes b ;;
  x2 <- zdiv x prime ;;
  d <- zdiv x2 prime ;;
  let min_trivial := Z.min d y in
  let min_clustered := swrap 64 (Z.sqrt x2) in
  min_sparse <- zdiv z prime ;;
  d <- zdiv y prime ;;
  let min_hard := Z.max d prime in
  let min_clustered := in_between min_hard min_clustered y in
  let min_sparse := in_between min_hard min_sparse y in
  l <- pi_get pt min_trivial ;;
  pi_min_clustered <- pi_get pt min_clustered ;;
  pi_min_sparse <- pi_get pt min_sparse ;;
  st <- easy_clustered w quo y prime_sums pt b prime x2 min_clustered pi_min_clustered l s2 ;;
  easy_sparse w quo y primes prime_sums pt b prime x2 pi_min_sparse st.

(** src/deleglise-rivat/S2_easy.cpp:36-104 and S2_easy_libdivide.cpp:53-154 —
    S2_easy_OpenMP<res_t>, [w] being the width of res_t; [root] estimates the cube root of x.  The number of threads only
    influences the schedule. *)
Definition S2_easy_OpenMP (w : Z) (quo : Z -> Z -> res Z) (primes prime_sums : list Z) (root : Z) (sched : Z -> Z -> list (list Z)) (x y z c : Z) : res Z :=
  x13 <- iroot u128 3 root x ;;
  let x13 := swrap 64 x13 in
  pt <- PiTable y ;;
  pi_sqrty <- pi_get pt (Z.sqrt y) ;;
  pi_x13 <- pi_get pt x13 ;;
  par_acc (t_add w) (fun b s2 (_ : unit) => v <- easy_b w quo primes prime_sums pt x y z b s2 ;; Ok (v, tt))
    (sched (Z.max c pi_sqrty + 1) (pi_x13 + 1)) tt 0.

(** src/deleglise-rivat/S2_easy.cpp:124-141 and S2_easy_libdivide.cpp:172-189 — the width
    of res_t *)
Definition easy_width (x y : Z) : Z := if (y <=? 2 ^ 32 - 1) && (x <=? 2 ^ 64 - 1) then 128 else 256.

(** src/deleglise-rivat/S2_easy.cpp:110-145 — S2_easy *)
Definition S2_easy (root : Z) (sched : Z -> Z -> list (list Z)) (x y z c : Z) : res Z :=
  let primes := generate_primes y in
  prime_sums <- generate_prime_sums y ;;
  S2_easy_OpenMP (easy_width x y) (quo_primes primes) primes prime_sums root sched x y z c.

(** src/deleglise-rivat/S2_easy_libdivide.cpp:160-195 — S2_easy; the list of dividers is
    built at line 65, inside S2_easy_OpenMP *)
Definition S2_easy_libdivide div128 mullhi (root : Z) (sched : Z -> Z -> list (list Z)) (x y z c : Z) : res Z :=
  let primes := generate_primes y in
  prime_sums <- generate_prime_sums y ;;
  fastdiv <- libdivide_divisors div128 primes ;;
  S2_easy_OpenMP (easy_width x y) (quo_libdivide mullhi primes fastdiv) primes prime_sums root sched x y z c.
