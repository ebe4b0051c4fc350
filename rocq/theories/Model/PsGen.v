(** Model of the generation of primes in lib/primesieve: the classes SievingPrimes,
    PrimeGenerator and iterator, store_primes and store_n_primes.

    Simplifications.  A buffer of primes is the list of its valid entries: an entry behind
    the number of valid ones (i_ < size_, last_idx_) is never written twice nor read, which
    the accesses check; the size of the array is checked when an entry is written.  The
    capacity reserved for vectors has no effect (primeCountApprox). *)
From Coq Require Import ZArith List Bool.
From Verif.Base Require Import Res Word Zl Each.
From Verif.Model Require Import PsTables PsMath PsErat PsCache.
Import ListNotations.
Open Scope Z_scope.

(** What the machine contributes: the processor, Erat::nextPrime as compiled (Erat.hpp:
    135-147), get_sieve_size (src/api.cpp:147), and the conversions of floating-point
    results to integers: (T) (logx * logx) in maxPrimeGap (pmath.hpp:178-187),
    (uint64_t) sqrt(x) (IteratorHelper.cpp:31), (uint64_t) logx and (uint64_t) (sqrt(x) * 2)
    (IteratorHelper.cpp:45-56), (uint64_t) log(x) (StorePrimes.hpp:81) *)
Record genv := GE {
  g_cpu : cpu; g_next : Z -> Z -> res Z; g_size : Z; g_gap : Z -> Z;
  g_sqrt : Z -> Z; g_log : Z -> Z; g_sqrt2 : Z -> Z; g_logn : Z -> Z }.

(** lib/primesieve/include/primesieve/littleendian_cast.hpp:57-66 — littleendian_cast<uint64_t>(&sieve[i]) *)
Definition le64 (sieve : list Z) (i : Z) : res Z :=
  for_ 0 8 (fun j n => b <- aget sieve (i + j) ;; Ok (n + Z.shiftl b (8 * j))) 0.
(** lib/primesieve/src/SievingPrimes.cpp:70-71, PrimeGenerator.cpp:269-270 and 312-313 —
    for (; bits != 0; bits &= bits - 1) primes[num++] = nextPrime(bits, low).  [cap] is the
    size of an array, None for push_back. *)
Definition decode (g : genv) (cap : option Z) (low bits : Z) (acc : list Z) : res (list Z) :=
  loop (fun '((bits, acc) : Z * list Z) =>
    if bits =? 0 then Ok (inr acc) else
    p <- g_next g bits low ;;
    if (match cap with Some c => zlen acc <? c | None => true end)
    then Ok (inl (Z.land bits (bits - 1), acc ++ [p])) else Fail UB) (bits, acc).
(** lib/primesieve/src/SievingPrimes.cpp:66-78, PrimeGenerator.cpp:308-319 — the do-while
    loop that decodes words until less than 64 places are left or the segment ends *)
Definition fill_words (g : genv) (cap : Z) (e : erat) (idx low : Z) : res (list Z * Z * Z) :=
  loop (fun '((acc, idx, low) : list Z * Z * Z) =>
    bits <- le64 (e_sieve e) idx ;;
    acc <- decode g (Some cap) low bits acc ;;
    let low := uwrap 64 (low + 8 * 30) in
    let idx := idx + 8 in
    if (zlen acc <=? cap - 64) && (idx <? e_size e) then Ok (inl (acc, idx, low)) else Ok (inr (acc, idx, low))) ([], idx, low).

(** *** SievingPrimes *)
(** lib/primesieve/include/primesieve/SievingPrimes.hpp:24-42 — the Erat part, i_, low_,
    tinyIdx_, sieveIdx_, primes_ (with size_) and tinySieve_ *)
Record svp := SV { v_e : erat; v_i : Z; v_low : Z; v_tidx : Z; v_idx : Z; v_primes : list Z; v_tiny : list bool }.
(** lib/primesieve/include/primesieve/SievingPrimes.hpp:32-38 — initial values *)
Definition svp0 : svp := SV (erat0 0 0) 0 0 0 (umax 64) [] [].
(** lib/primesieve/src/SievingPrimes.cpp:41-47 — tinySieve: tinySieve_ *)
Definition tiny_sieve (n : Z) : res (list bool) :=
  loop (fun '((i, t) : Z * list bool) =>
    if i * i <=? n then
      b <- aget t i ;;
      t <- (if b then for_step (i * i) (n + 1) (i * 2) (fun j t => aset t j false) t else Ok t) ;;
      Ok (inl (i + 2, t))
    else Ok (inr t)) (3, amake (n + 1) true).
(** lib/primesieve/src/SievingPrimes.cpp:28-51 — init and tinySieve; erat->getStop() and
    erat->getSieveSize() (Erat.hpp:159-167) *)
Definition svp_init (g : genv) (e : erat) (ps : presieve) (v : svp) : res (svp * presieve) :=
  ' (ve, ps) <- erat_init (g_cpu g) (uwrap 64 (ps_max ps + 1)) (Z.sqrt (e_stop e)) (Z.shiftr (e_size e) 10) (v_e v) ps ;;
  t <- tiny_sieve (Z.sqrt (e_stop ve)) ;;
  let tidx := e_start ve + Z.land (umax 64 - e_start ve) 1 in
  Ok (SV ve (v_i v) (v_low v) tidx (v_idx v) (v_primes v) t, ps).
(** lib/primesieve/src/SievingPrimes.cpp:84-107 — sieveSegment; the result is the return value *)
Definition svp_segment (v : svp) (ps : presieve) : res (bool * svp) :=
  if erat_has_next (v_e v) then
    ' (i, e) <- loop (fun '((i, e) : Z * erat) =>
        if i * i <=? e_high (v_e v) then
          b <- aget (v_tiny v) i ;;
          e <- (if b : bool then erat_add i e else Ok e) ;;
          Ok (inl (i + 2, e))
        else Ok (inr (i, e))) (v_tidx v, v_e v) ;;
    e <- erat_segment e ps ;;
    Ok (true, SV e (v_i v) (v_low v) i 0 (v_primes v) (v_tiny v))
  else Ok (false, SV (v_e v) 0 (v_low v) (v_tidx v) (v_idx v) [umax 64] (v_tiny v)).
(** lib/primesieve/src/SievingPrimes.cpp:53-82 — fill *)
Definition svp_fill (g : genv) (v : svp) (ps : presieve) : res svp :=
  ' (go, v) <- (if v_idx v >=? e_size (v_e v) then svp_segment v ps else Ok (true, v)) ;;
  if (go : bool) then
    ' (l, idx, low) <- fill_words g 128 (v_e v) (v_idx v) (v_low v) ;;
    Ok (SV (v_e v) 0 low (v_tidx v) idx l (v_tiny v))
  else Ok v.
(** lib/primesieve/include/primesieve/SievingPrimes.hpp:44-50 — next *)
Definition svp_next (g : genv) (v : svp) (ps : presieve) : res (Z * svp) :=
  v <- loop (fun v => if v_i v >=? zlen (v_primes v) then v <- svp_fill g v ps ;; Ok (inl v) else Ok (inr v)) v ;;
  p <- aget (v_primes v) (v_i v) ;;
  Ok (p, SV (v_e v) (v_i v + 1) (v_low v) (v_tidx v) (v_idx v) (v_primes v) (v_tiny v)).

(** *** PrimeGenerator *)
(** lib/primesieve/include/primesieve/PrimeGenerator.hpp:24-40 — the Erat part, low_,
    sieveIdx_, prime_, preSieve_, sievingPrimes_ and isInit_ *)
Record pgen := PG { p_e : erat; p_low : Z; p_idx : Z; p_prime : Z; p_ps : presieve; p_sv : svp; p_init : bool }.
(** lib/primesieve/src/PrimeGenerator.cpp:108-110 — constructor *)
Definition pgen0 (start stop : Z) : pgen := PG (erat0 start stop) 0 (umax 64) 0 presieve0 svp0 false.
(** lib/primesieve/src/PrimeGenerator.cpp:164-167 — maxCachedPrime *)
Definition max_cached : Z := last small_primes 0.
(** lib/primesieve/src/PrimeGenerator.cpp:169-177 — getStartIdx *)
Definition start_idx (start : Z) : res Z := if start >? 1 then aget prime_pi (start - 1) else Ok 0.
(** lib/primesieve/src/PrimeGenerator.cpp:179-189 — getStopIdx *)
Definition stop_idx (stop : Z) : res Z := if stop <? max_cached then aget prime_pi stop else Ok (zlen small_primes).
(** lib/primesieve/src/PrimeGenerator.cpp:118-126 and 134-145 — the cached primes of
    [start_, stop_]: smallPrimes[a], ..., smallPrimes[b - 1].  An invalid range (a > b) is
    undefined. *)
Definition cached_primes (start stop : Z) : res (list Z) :=
  if start <=? max_cached then
    a <- start_idx start ;;
    b <- stop_idx stop ;;
    if (a <=? b) && (b <=? zlen small_primes) then Ok (firstn (Z.to_nat (b - a)) (skipn (Z.to_nat a) small_primes)) else Fail UB
  else Ok [].
(** lib/primesieve/src/PrimeGenerator.cpp:150-162 — initErat *)
Definition pgen_erat (g : genv) (p : pgen) : res pgen :=
  let start := Z.max (max_cached + 1) (e_start (p_e p)) in
  if start <=? e_stop (p_e p) then
    ' (e, ps) <- erat_init (g_cpu g) start (e_stop (p_e p)) (g_size g) (p_e p) (p_ps p) ;;
    ' (sv, ps) <- svp_init g e ps (p_sv p) ;;
    Ok (PG e (p_low p) (p_idx p) (p_prime p) ps sv true)
  else Ok (PG (p_e p) (p_low p) (p_idx p) (p_prime p) (p_ps p) (p_sv p) true).
(** lib/primesieve/src/PrimeGenerator.cpp:191-208 — sieveSegment() *)
Definition pgen_segment (g : genv) (p : pgen) : res pgen :=
  let sqrt_high := Z.sqrt (e_high (p_e p)) in
  let low := e_low (p_e p) in
  ' (prime, sv) <- (if p_prime p =? 0 then svp_next g (p_sv p) (p_ps p) else Ok (p_prime p, p_sv p)) ;;
  ' (prime, sv, e) <- loop (fun '((prime, sv, e) : Z * svp * erat) =>
      if prime <=? sqrt_high then
        e <- erat_add prime e ;;
        ' (prime, sv) <- svp_next g sv (p_ps p) ;;
        Ok (inl (prime, sv, e))
      else Ok (inr (prime, sv, e))) (prime, sv, p_e p) ;;
  e <- erat_segment e (p_ps p) ;;
  Ok (PG e low 0 prime (p_ps p) sv (p_init p)).
(** lib/primesieve/src/PrimeGenerator.cpp:211-223 and 113-129 — sieveSegment(primes), init(primes) *)
Definition pgen_sieve_prev (g : genv) (p : pgen) (primes : list Z) : res (bool * pgen * list Z) :=
  ' (p, primes) <- (if p_init p then Ok (p, primes) else
      l <- cached_primes (e_start (p_e p)) (e_stop (p_e p)) ;;
      p <- pgen_erat g p ;; Ok (p, primes ++ l)) ;;
  if erat_has_next (p_e p) then p <- pgen_segment g p ;; Ok (true, p, primes) else Ok (false, p, primes).
(** lib/primesieve/src/PrimeGenerator.cpp:226-252 and 132-148 — sieveSegment(primes, size),
    init(primes, size); [primes] has 256 entries; the result has *size of them *)
Definition pgen_sieve_next (g : genv) (p : pgen) : res (bool * pgen * list Z) :=
  ' (p, l) <- (if p_init p then Ok (p, []) else
      l <- cached_primes (e_start (p_e p)) (e_stop (p_e p)) ;;
      if zlen l <=? 256 then p <- pgen_erat g p ;; Ok (p, l) else Fail UB) ;;
  if negb (zlen l =? 0) then Ok (false, p, l) else
  if erat_has_next (p_e p) then p <- pgen_segment g p ;; Ok (true, p, []) else
  Ok (false, p, if e_stop (p_e p) >=? umax 64 then [umax 64] else []).
(** lib/primesieve/src/PrimeGenerator.cpp:261-276 — fill(primes) *)
Definition pgen_fill_prev (g : genv) (p : pgen) (primes : list Z) : res (list Z) :=
  loop (fun '((p, primes) : pgen * list Z) =>
    ' (go, p, primes) <- pgen_sieve_prev g p primes ;;
    if (go : bool) then
      ' (idx, low, primes) <- loop (fun '((idx, low, primes) : Z * Z * list Z) =>
          if idx <? e_size (p_e p) then
            bits <- le64 (e_sieve (p_e p)) idx ;;
            primes <- decode g None low bits primes ;;
            Ok (inl (idx + 8, uwrap 64 (low + 8 * 30), primes))
          else Ok (inr (idx, low, primes))) (p_idx p, p_low p, primes) ;;
      Ok (inl (PG (p_e p) low idx (p_prime p) (p_ps p) (p_sv p) (p_init p), primes))
    else Ok (inr primes)) (p, primes).
(** lib/primesieve/src/PrimeGenerator.cpp:285-326 — fill(primes, size) *)
Definition pgen_fill_next (g : genv) (p : pgen) : res (pgen * list Z) :=
  loop (fun p : pgen =>
    ' (go, p, l) <- (if p_idx p >=? e_size (p_e p) then pgen_sieve_next g p else Ok (true, p, [])) ;;
    if (go : bool) then
      ' (l, idx, low) <- fill_words g 256 (p_e p) (p_idx p) (p_low p) ;;
      let p := PG (p_e p) low idx (p_prime p) (p_ps p) (p_sv p) (p_init p) in
      if zlen l =? 0 then Ok (inl p) else Ok (inr (p, l))
    else Ok (inr (p, l))) p.

(** *** iterator *)
(** lib/primesieve/src/IteratorHelper.cpp:27-40 — getNextDist *)
Definition next_dist (g : genv) (n dist : Z) : Z :=
  Z.min (Z.max (Z.max (uwrap 64 (dist * 4)) (max_cached * 4)) (g_sqrt g n)) (2 ^ 60).
(** lib/primesieve/src/IteratorHelper.cpp:42-65 — getPrevDist; config.hpp:39-44 *)
Definition prev_dist (g : genv) (n dist : Z) : Z :=
  let min_dist := uwrap 64 (2 ^ 20 * 8 / 8 * g_log g n) in
  let max_dist := uwrap 64 (2 ^ 20 * 1024 / 8 * g_log g n) in
  Z.min (Z.max (Z.min (Z.max (uwrap 64 (dist * 4)) (max_cached * 4)) min_dist) (g_sqrt2 g n)) max_dist.
(** lib/primesieve/src/IteratorHelper.cpp:86-111, 67-72 — IteratorHelper::next: the new
    start, stop and dist *)
Definition helper_next (g : genv) (stop hint dist : Z) : Z * Z * Z :=
  let start := checked_add stop 1 in
  if start <? max_cached then (start, max_cached, max_cached - start)
  else
    let dist := next_dist g start dist in
    let stop := checked_add start dist in
    let stop := if (hint >=? start) && (hint <? umax 64) then checked_add hint (g_gap g hint) else stop in
    (start, stop, dist).
(** lib/primesieve/src/IteratorHelper.cpp:113-124, 74-80 — IteratorHelper::prev *)
Definition helper_prev (g : genv) (start hint dist : Z) : Z * Z * Z :=
  let stop := checked_sub start 1 in
  let dist := prev_dist g stop dist in
  let start := checked_sub stop dist in
  let start := if (hint >=? start) && (hint <=? stop) then checked_sub hint (g_gap g hint) else start in
  (start, stop, dist).

(** lib/primesieve/include/primesieve/iterator.hpp:86-97 — i_, last_idx_, primes_, start_,
    stop_, stop_hint_, dist_ and primeGenerator_ *)
Record iter := IT { it_i : Z; it_last : Z; it_primes : list Z; it_start : Z; it_stop : Z; it_hint : Z; it_dist : Z; it_gen : option pgen }.
(** lib/primesieve/src/iterator.cpp:36-53 — constructor, skipto *)
Definition iter_new (start hint : Z) : iter := IT 0 0 [] start start hint 0 None.
(** lib/primesieve/src/iterator.cpp:55-87 — generate_next_primes *)
Definition generate_next (g : genv) (it : iter) : res iter :=
  loop (fun it : iter =>
    let '(start, stop, dist, p) :=
      match it_gen it with
      | Some p => (it_start it, it_stop it, it_dist it, p)
      | None => let '(start, stop, dist) := helper_next g (it_stop it) (it_hint it) (it_dist it) in (start, stop, dist, pgen0 start stop)
      end in
    ' (p, l) <- pgen_fill_next g p ;;
    if zlen l =? 0 then Ok (inl (IT (it_i it) 0 l start stop (it_hint it) dist None))
    else Ok (inr (IT 0 (zlen l - 1) l start stop (it_hint it) dist (Some p)))) it.
(** lib/primesieve/src/iterator.cpp:89-108 — generate_prev_primes *)
Definition generate_prev (g : genv) (it : iter) : res iter :=
  start <- (match it_gen it with Some _ => aget (it_primes it) 0 | None => Ok (it_start it) end) ;;
  ' (start, stop, dist, l) <- loop (fun '((start, stop, dist, l) : Z * Z * Z * list Z) =>
      if zlen l =? 0 then
        let '(start, stop, dist) := helper_prev g start (it_hint it) dist in
        let l := if start <=? 2 then l ++ [0] else l in
        l <- pgen_fill_prev g (pgen0 start stop) l ;;
        Ok (inl (start, stop, dist, l))
      else Ok (inr (start, stop, dist, l))) (start, it_stop it, it_dist it, []) ;;
  Ok (IT (zlen l - 1) (zlen l - 1) l start stop (it_hint it) dist None).
(** lib/primesieve/include/primesieve/iterator.hpp:66-71 — next_prime *)
Definition iter_next (g : genv) (it : iter) : res (Z * iter) :=
  it <- (if it_i it =? it_last it then generate_next g it
         else Ok (IT (it_i it + 1) (it_last it) (it_primes it) (it_start it) (it_stop it) (it_hint it) (it_dist it) (it_gen it))) ;;
  p <- aget (it_primes it) (it_i it) ;;
  Ok (p, it).
(** lib/primesieve/include/primesieve/iterator.hpp:79-84 — prev_prime *)
Definition iter_prev (g : genv) (it : iter) : res (Z * iter) :=
  it <- (if it_i it =? 0 then generate_prev g it
         else Ok (IT (it_i it - 1) (it_last it) (it_primes it) (it_start it) (it_stop it) (it_hint it) (it_dist it) (it_gen it))) ;;
  p <- aget (it_primes it) (it_i it) ;;
  Ok (p, it).

(** lib/primesieve/include/primesieve/StorePrimes.hpp:42-63 — store_primes; [cast] is the
    conversion to V *)
Definition store_primes (g : genv) (cast : Z -> Z) (start stop : Z) (primes : list Z) : res (list Z) :=
  let start := if start >? 0 then start - 1 else start in
  let stop := if stop =? umax 64 then stop - 1 else stop in
  if start <? stop then
    ' (prime, it) <- iter_next g (iter_new start stop) ;;
    loop (fun '((prime, it, primes) : Z * iter * list Z) =>
      if prime <=? stop then
        ' (prime', it) <- iter_next g it ;; Ok (inl (prime', it, primes ++ [cast prime]))
      else Ok (inr primes)) (prime, it, primes)
  else Ok primes.
(** lib/primesieve/include/primesieve/StorePrimes.hpp:65-92 — store_n_primes *)
Definition store_n_primes (g : genv) (cast : Z -> Z) (n start : Z) (primes : list Z) : res (list Z) :=
  if n =? 0 then Ok primes else
  let start := if start >? 0 then start - 1 else start in
  let dist := uwrap 64 (n * uwrap 64 (g_logn g start + 1)) in
  let stop := uwrap 64 (start + dist) in
  ' (prime, it) <- iter_next g (iter_new start stop) ;;
  ' (prime, it, primes) <- for_ 0 n (fun _ '((prime, it, primes) : Z * iter * list Z) =>
      ' (prime', it) <- iter_next g it ;; Ok (prime', it, primes ++ [cast prime])) (prime, it, primes) ;;
  if prime =? umax 64 then Fail Throw else Ok primes.
