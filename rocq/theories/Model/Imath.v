(** Model of include/imath.hpp, include/isqrt.hpp, include/fast_div.hpp and of
    the small helpers of src/primesum.cpp and src/nth_prime.cpp.
    Floating point: the initial estimates are arguments (oracles). *)
From Coq Require Import ZArith List Bool Lia.
From Verif.Base Require Import Res Word Zl IType.
Import ListNotations.
Open Scope Z_scope.

(** include/isqrt.hpp:24-36, 46-54 — sqrt_helper, as the loop of its tail calls *)
Definition sqrt_helper (t : ity) (x lo hi : Z) : res Z :=
  loop (fun st : Z * Z =>
          let '(lo, hi) := st in
          if lo =? hi then Ok (inr lo)
          else
            s1 <- tar t (lo + hi) ;;
            s2 <- tar t (s1 + 1) ;;
            let mid := Z.quot s2 2 in
            assert_ (negb (mid =? 0)) UB ;;;
            if Z.quot x mid <? mid then h <- tar t (mid - 1) ;; Ok (inl (lo, h))
            else Ok (inl (mid, hi)))
       (lo, hi).

(** include/isqrt.hpp:38-42, 56-60 — ct_sqrt *)
Definition ct_sqrt (t : ity) (x : Z) : res Z :=
  hi <- tar t (Z.quot x 2 + 1) ;; sqrt_helper t x 0 hi.

(** include/isqrt.hpp:64-81 — isqrt; [r0] is (T) std::sqrt((double) x) *)
Definition isqrt (t : ity) (r0 x : Z) : res Z :=
  sqrt_max <- ct_sqrt t (tmax t) ;;
  let r := Z.min r0 sqrt_max in
  r <- loop (fun r => rr <- tar t (r * r) ;;
                      if rr >? x then r' <- tar t (r - 1) ;; Ok (inl r')
                      else Ok (inr r)) r ;;
  loop (fun r => rr <- tar t (r * r) ;;
                 d <- tar t (x - rr) ;;
                 r2 <- tar t (r * 2) ;;
                 if d >? r2 then r' <- tar t (r + 1) ;; Ok (inl r')
                 else Ok (inr r)) r.

(** include/imath.hpp:25-28 — isquare(int64_t) *)
Definition isquare (x : Z) : res Z := schk 64 (x * x).

(** include/imath.hpp:30-35 — ceil_div<A, A> *)
Definition ceil_div (t : ity) (a b : Z) : res Z :=
  s <- tar t (a + b) ;; s' <- tar t (s - 1) ;;
  assert_ (negb (b =? 0)) UB ;;; Ok (Z.quot s' b).

(** the loop of include/imath.hpp:50-51 and 59-60: x |= x >> i, i doubling;
    for T at least 32 bits wide the doubling cannot overflow *)
Definition fill_bits (t : ity) (x : Z) : res Z :=
  loop (fun st : Z * Z =>
          let '(i, x) := st in
          if i <? tdigits t then
            i' <- tar t (i + i) ;; Ok (inl (i', Z.lor x (Z.shiftr x i)))
          else Ok (inr x))
       (1, x).

(** include/imath.hpp:37-54 — next_power_of_2 *)
Definition next_power_of_2 (t : ity) (x : Z) : res Z :=
  if x =? 0 then Ok 1
  else
    x1 <- tar t (x - 1) ;;
    x2 <- fill_bits t x1 ;;
    tar t (x2 + 1).

(** include/imath.hpp:56-63 — prev_power_of_2 *)
Definition prev_power_of_2 (t : ity) (x : Z) : res Z :=
  x1 <- fill_bits t x ;; tar t (x1 - Z.shiftr x1 1).

(** include/imath.hpp:71-79 — ipow *)
Definition ipow (t : ity) (x n : Z) : res Z :=
  for_ 0 n (fun _ r => tar t (r * x)) 1.

(** include/imath.hpp:81-102 — iroot<N>; [r0] is (T) std::pow((double) x, 1.0/N) *)
Definition iroot (t : ity) (N r0 x : Z) : res Z :=
  if N =? 0 then Ok 0
  else
    r <- loop (fun r => if r >? 0 then
                          p <- ipow t r (N - 1) ;;
                          if p <=? Z.quot x r then Ok (inr r)
                          else r' <- tar t (r - 1) ;; Ok (inl r')
                        else Ok (inr r)) r0 ;;
    loop (fun r => r1 <- tar t (r + 1) ;;
                   p <- ipow t r1 (N - 1) ;;
                   assert_ (negb (r1 =? 0)) UB ;;;
                   if p <=? Z.quot x r1 then Ok (inl r1) else Ok (inr r)) r.

(** include/imath.hpp:104-113 — in_between (all three of one type) *)
Definition in_between (mn x mx : Z) : Z :=
  if x <? mn then mn else if x >? mx then mx else x.

(** include/imath.hpp:115-125 — pi_bsearch; std::upper_bound as the usual
    bisection over [start, end).  An empty vector makes begin() + 1 invalid. *)
Definition upper_bound (l : list Z) (first last x : Z) : res Z :=
  loop (fun st : Z * Z =>
          let '(first, len) := st in
          if len >? 0 then
            let half := len / 2 in
            let middle := first + half in
            v <- aget l middle ;;
            if x <? v then Ok (inl (first, half))
            else Ok (inl (middle + 1, len - half - 1))
          else Ok (inr first))
       (first, last - first).
(** include/imath.hpp:119-125 — pi_bsearch itself *)
Definition pi_bsearch (primes : list Z) (x : Z) : res Z :=
  assert_ (0 <? zlen primes) UB ;;;
  p <- upper_bound primes 1 (zlen primes) x ;; Ok (p - 1).

(** include/fast_div.hpp:26-32 — fastdiv<T>::type (bits of the unsigned type) *)
Definition fastdiv_bits (X : ity) : Z := if bits X / 2 <=? 32 then 32 else 64.

(** include/fast_div.hpp:44-45 and 63 — the comparison x <= max(uintK) after the usual
    arithmetic conversions: when uintK is at least as wide as X, x is converted to
    unsigned first. *)
Definition le_umax (X : ity) (x k : Z) : bool :=
  (if bits X <=? k then uwrap k x else x) <=? umax k.

(** include/fast_div.hpp:50 and 66 — built-in x / y at type X. *)
Definition native_div (X : ity) (x y : Z) : res Z :=
  assert_ (negb (y =? 0)) UB ;;; tar X (Z.quot x y).

(** include/fast_div.hpp:34-51 — fast_div, sizeof(X) == sizeof(Y) (same type) *)
Definition fast_div_eq (X : ity) (x y : Z) : res Z :=
  let k := fastdiv_bits X in
  if le_umax X x k && le_umax X y k then
    let a := uwrap k x in let b := uwrap k y in
    assert_ (negb (b =? 0)) UB ;;; Ok (tcast X (a / b))
  else native_div X x y.

(** include/fast_div.hpp:53-67 — fast_div, sizeof(X) > sizeof(Y); y is already
    a value of the narrower type Y *)
Definition fast_div_gt (X : ity) (x y : Z) : res Z :=
  let k := fastdiv_bits X in
  if le_umax X x k then
    let a := uwrap k x in let b := uwrap k y in
    assert_ (negb (b =? 0)) UB ;;; Ok (tcast X (a / b))
  else native_div X x y.

(** src/primesum.cpp:154-160 — ideal_num_threads *)
Definition ideal_num_threads (threads sieve_limit thread_threshold : Z) : Z :=
  let thread_threshold := Z.max 1 thread_threshold in
  let threads := swrap 32 (Z.min threads (Z.quot sieve_limit thread_threshold)) in
  Z.max 1 threads.

(** src/nth_prime.cpp:20 and 26-35 — nth_prime *)
Definition small_primes : list Z := [0; 2; 3; 5; 7; 11; 13; 17; 19; 23].
(** src/nth_prime.cpp:26-35 — nth_prime *)
Definition nth_prime (n : Z) : res Z :=
  if n >=? 10 then Fail Throw
  else if n <? 2 then aget small_primes 1
  else aget small_primes n.

(** src/primesum.cpp:36, 227-245 — the thread setting: state is [threads_],
    [hw] is omp_get_max_threads() at the time of the call *)
Definition set_num_threads (hw threads : Z) : Z := in_between 1 threads hw.
(** src/primesum.cpp:237-247 — get_num_threads *)
Definition get_num_threads (hw threads_ : Z) : Z :=
  if negb (threads_ =? 0) then threads_ else Z.max 1 hw.

(** src/primesum.cpp:247-266 — status precision; [x] against 1e23 and 1e21,
    which are compared exactly here (the code converts x to double) *)
Definition set_status_precision (precision : Z) : Z := in_between 0 precision 5.
(** src/primesum.cpp:254-266 — get_status_precision *)
Definition get_status_precision (status_precision_ x : Z) : Z :=
  let dflt := if status_precision_ >? 0 then status_precision_ else 0 in
  if status_precision_ <? 0 then
    if x >=? 10 ^ 23 then 2 else if x >=? 10 ^ 21 then 1 else dflt
  else dflt.
