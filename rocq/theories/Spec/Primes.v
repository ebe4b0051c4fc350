(** Primes, prime counting and prime sums, by trial division.  This is the
    specification every algorithm is compared with. *)
From Coq Require Import ZArith List Bool Lia Znumtheory.
From Verif.Base Require Import Zl.
Import ListNotations.
Open Scope Z_scope.

(** n is prime: at least 2 and without divisor in 2..n-1. *)
Definition primeb (n : Z) : bool :=
  (2 <=? n) && forallb (fun d => negb (n mod d =? 0)) (zrange 2 n).

(** The primes <= n in increasing order. *)
Definition primes_upto (n : Z) : list Z := filter primeb (zrange 2 (n + 1)).

(** Number of primes <= n, sum of the primes <= n. *)
Definition pi (n : Z) : Z := zlen (primes_upto n).
Definition prime_sum (n : Z) : Z := lsum (fun p => p) (primes_upto n).

(** p is the b-th prime. *)
Definition is_nth_prime (b p : Z) : Prop := prime p /\ pi p = b.

(** The 1-indexed table of all primes up to N used throughout the code
    (generate_primes): index 0 holds 0. *)
Definition prime_table (N : Z) : list Z := 0 :: primes_upto N.
