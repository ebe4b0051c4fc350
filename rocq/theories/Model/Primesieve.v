(** The part of lib/primesieve used by the code, as a specification: the functions
    below are defined by trial division and are executable on small numbers.  That
    the code of lib/primesieve (Model/PsErat.v, Model/PsGen.v) delivers the same
    values is property C61. *)
From Coq Require Import ZArith List Bool Lia.
From Verif.Base Require Import Res Zl Word.
From Verif.Spec Require Import Primes.
Import ListNotations.
Open Scope Z_scope.

(** No source line: helper of next_prime.  First k' >= k satisfying f among p candidates. *)
Fixpoint psearch (f : Z -> bool) (p : positive) (k : Z) : option Z :=
  match p with
  | xH => if f k then Some k else None
  | xO q => match psearch f q k with Some r => Some r | None => psearch f q (k + Zpos q) end
  | xI q =>
      if f k then Some k
      else match psearch f q (k + 1) with
           | Some r => Some r
           | None => psearch f q (k + 1 + Zpos q) end
  end.

(** No source line: helper of next_prime.  n! for n >= 0 *)
Definition zfact (n : Z) : Z := fold_right Z.mul 1 (zrange 1 (n + 1)).

(** lib/primesieve/include/primesieve/iterator.hpp:66-71 — next_prime() on an iterator
    standing at n: the least prime above n.  By Euclid's argument there is one up to n! + 1. *)
Definition next_prime (n : Z) : Z :=
  let n := Z.max n 1 in
  match psearch primeb (Z.to_pos (zfact n + 1)) (n + 1) with Some p => p | None => 0 end.

(** lib/primesieve/include/primesieve/iterator.hpp:74-84 — prev_prime() on an iterator
    standing at n: the greatest prime below n, 0 when there is none. *)
Definition prev_prime (n : Z) : Z := last (primes_upto (n - 1)) 0.

(** src/generate.cpp:38 — primesieve::generate_n_primes: the first n primes. *)
Fixpoint n_primes (n : nat) (from : Z) : list Z :=
  match n with
  | O => []
  | S n => let p := next_prime from in p :: n_primes n p
  end.

(** include/generate.hpp:23-29 and src/generate.cpp:25-30 — generate_primes: the
    table of the primes up to max with a leading 0 *)
Definition generate_primes (max : Z) : list Z := prime_table max.

(** src/generate.cpp:35-40 — generate_n_primes.  The vector holds int32_t;
    libprimesieve stores each prime with a cast (lib/primesieve/include/
    primesieve/StorePrimes.hpp:62-88), so larger primes are truncated. *)
Definition generate_n_primes (n : Z) : list Z := 0 :: map (swrap 32) (n_primes (Z.to_nat n) 0).
