(** Model of src/lmo/pi_lmo1.cpp.  int256_t values follow Model/Accum.v; all
    table accesses are checked. *)
From Coq Require Import ZArith List Bool.
From Verif.Base Require Import Res Word Zl IType.
From Verif.Spec Require Import IntSpec.
From Verif.Model Require Import Int256 Accum Imath Primesieve PhiSum Tables PhiTiny Phi P2 S1 Oracles.
Import ListNotations.
Open Scope Z_scope.

(** src/lmo/pi_lmo1.cpp:36-67 — pi_lmo1 *)
Definition pi_lmo1 (o : oracles) (x : Z) : res Z :=
  if x <? 2 then Ok 0
  else
    y <- iroot i128 3 (o_root o) x ;;
    let y := swrap 64 y in
    pi_y <- pi_legendre (o_leg o) y ;;
    c <- get_c y ;;
    let primes := map (swrap 32) (generate_primes y) in
    lpf <- generate_lpf y ;;
    mu <- generate_moebius y ;;
    (* lines 51-54 *)
    s1 <- for_ 1 (y + 1) (fun n s1 =>
      l <- aget lpf n ;;
      pc <- aget primes c ;;
      if l >? pc then
        v <- phi_sum_X 128 (Z.quot x n) c ;;
        m <- aget mu n ;;
        l <- t_mul 256 v (m * n) ;;
        t_add 256 s1 l
      else Ok s1) 0 ;;
    (* lines 56-60 *)
    s2 <- for_ (c + 1) pi_y (fun b s2 =>
      p <- aget primes b ;;
      for_ (Z.quot y p + 1) (y + 1) (fun m s2 =>
        l <- aget lpf m ;;
        if l >? p then
          v <- phi_sum_X 128 (Z.quot x (p * m)) (b - 1) ;;
          mm <- aget mu m ;;
          l <- t_mul 256 v (mm * m * p) ;;
          t_sub 256 s2 l
        else Ok s2) s2) 0 ;;
    p2 <- P2.P2 (o_p2leg o) (o_p2speed o) (o_p2sched o) x y 1 ;;
    t <- prime_sum_tiny y ;;
    lmo_formula s1 s2 t p2.
