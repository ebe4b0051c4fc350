(** Model of src/phi.cpp and src/pi_legendre.cpp.  isqrt is replaced by the floor
    square root (C28) and fast_div by the quotient (C31). *)
From Coq Require Import ZArith List Bool.
From Verif.Base Require Import Res Word Zl Par.
From Verif.Model Require Import Primesieve PiTable PhiTiny.
Import ListNotations.
Open Scope Z_scope.

(** src/phi.cpp:51 — MAX_A *)
Definition MAX_A : Z := 100.
(** src/phi.cpp:113 — cache_: MAX_A vectors of uint16_t *)
Definition phi_cache := list (list Z).
(** src/phi.cpp:113 — cache_ of a new PhiCache *)
Definition empty_cache : phi_cache := amake MAX_A [].

(** src/phi.cpp:117-128 — update_cache *)
Definition update_cache (cache : phi_cache) (x a sum : Z) : res phi_cache :=
  if (a <? zlen cache) && (x <=? umax 16) then
    row <- aget cache a ;;
    let row := if zlen row <=? x then row ++ amake (x + 1 - zlen row) 0 else row in
    row <- aset row x (uwrap 16 (Z.abs sum)) ;;
    aset cache a row
  else Ok cache.

(** src/phi.cpp:130-134 — is_pix *)
Definition is_pix (primes : list Z) (pt : pitable) (x a : Z) : res bool :=
  if x <? pi_size pt then
    p <- aget primes (a + 1) ;;
    s <- schk 64 (p * p) ;;
    Ok (x <? s)
  else Ok false.

(** src/phi.cpp:136-141 — is_cached, together with the value cache_[a][x]
    (0 when it is not cached) *)
Definition cached (cache : phi_cache) (x a : Z) : res Z :=
  if a <? zlen cache then
    row <- aget cache a ;;
    if x <? zlen row then aget row x else Ok 0
  else Ok 0.

(** src/phi.cpp:65-109 — PhiCache::phi<SIGN>(x, a).  The cache is passed on as a
    state; [n] bounds the recursion depth. *)
Fixpoint cache_phi (n : nat) (tabs : list (list Z)) (primes : list Z) (pt : pitable)
    (SIGN x a : Z) (cache : phi_cache) : res (Z * phi_cache) :=
  match n with
  | O => Fail Fuel
  | S n =>
      p <- aget primes a ;;
      if x <=? p then Ok (SIGN, cache)
      else if is_phi_tiny a then
        t <- phi_tiny tabs x a ;; v <- schk 64 (t * SIGN) ;; Ok (v, cache)
      else
        px <- is_pix primes pt x a ;;
        if px : bool then
          v <- pi_get pt x ;; v <- schk 64 ((v - a + 1) * SIGN) ;; Ok (v, cache)
        else
          cv <- cached cache x a ;;
          if negb (cv =? 0) then Ok (cv * SIGN, cache)
          else
            let sqrtx := Z.sqrt x in
            c <- get_c sqrtx ;;
            pi_sqrtx <- (if sqrtx <? pi_size pt then v <- pi_get pt sqrtx ;; Ok (Z.min v a) else Ok a) ;;
            sum <- schk 64 (0 + (pi_sqrtx - a) * SIGN) ;;
            t <- phi_tiny tabs x c ;;
            sum <- schk 64 (sum + t * SIGN) ;;
            r <- for_ c pi_sqrtx (fun i (st : Z * phi_cache) =>
              let '(sum, cache) := st in
              q <- aget primes (i + 1) ;;
              let x2 := Z.quot x q in
              px <- is_pix primes pt x2 i ;;
              if px : bool then
                v <- pi_get pt x2 ;; s <- schk 64 (sum + (v - i + 1) * - SIGN) ;; Ok (s, cache)
              else
                r <- cache_phi n tabs primes pt (- SIGN) x2 i cache ;;
                s <- schk 64 (sum + fst r) ;; Ok (s, snd r)) (sum, cache) ;;
            cache <- update_cache (snd r) x a (fst r) ;;
            Ok (fst r, cache)
  end.

(** src/phi.cpp:151-188 — phi(x, a, threads).  [sched] is the distribution of the
    iterations of the parallel loop over the threads chosen by OpenMP; the
    thread count only influences it. *)
Definition phi_xa (sched : Z -> Z -> list (list Z)) (x a : Z) : res Z :=
  tabs <- PhiTiny_init ;;
  if x <? 1 then Ok 0
  else if a >? x then Ok 1
  else if a <? 1 then Ok x
  else if is_phi_tiny a then phi_tiny tabs x a
  else
    let primes := generate_n_primes a in
    pa <- aget primes a ;;
    if pa >=? x then Ok 1
    else
      let sqrtx := Z.sqrt x in
      pt <- PiTable (Z.max sqrtx pa) ;;
      c <- get_c sqrtx ;;
      v <- pi_get pt sqrtx ;;
      let pi_sqrtx := Z.min v a in
      t <- phi_tiny tabs x c ;;
      sum <- schk 64 (t - a + pi_sqrtx) ;;
      par_sum (schk 64) (fun i cache =>
          q <- aget primes (i + 1) ;;
          cache_phi (S (Z.to_nat i)) tabs primes pt (-1) (Z.quot x q) i cache)
        (sched c pi_sqrtx) empty_cache sum.

(** src/pi_legendre.cpp:21-30 — pi_legendre(x, threads).  [n] bounds the depth of
    the recursion on isqrt(x); the recursive call passes threads = 1 and may be
    scheduled differently. *)
Fixpoint pi_legendre_rec (n : nat) (sched : nat -> Z -> Z -> list (list Z)) (x : Z) : res Z :=
  match n with
  | O => Fail Fuel
  | S n =>
      if x <? 2 then Ok 0
      else
        a <- pi_legendre_rec n sched (Z.sqrt x) ;;
        p <- phi_xa (sched n) x a ;;
        schk 64 (p + a - 1)
  end.
(** src/pi_legendre.cpp:21-30 — pi_legendre; recursion depth 7 is enough for 64-bit x. *)
Definition pi_legendre (sched : nat -> Z -> Z -> list (list Z)) (x : Z) : res Z :=
  pi_legendre_rec 8 sched x.
