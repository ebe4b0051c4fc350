(** Specification of the pieces of the Lagarias-Miller-Odlyzko method for sums of
    primes.  Everything is a plain sum over a range of integers. *)
From Coq Require Import ZArith List Bool Lia Znumtheory.
From Verif.Base Require Import Zl.
From Verif.Spec Require Import Primes.
Import ListNotations.
Open Scope Z_scope.

(** n >= 1 is divisible by none of the first a primes. *)
Definition roughb (a n : Z) : bool :=
  forallb (fun p => negb ((pi p <=? a) && (n mod p =? 0))) (primes_upto n).

(** Sum of w n over 1 <= n <= x divisible by none of the first a primes. *)
Definition Phi (w : Z -> Z) (x a : Z) : Z := sumr 1 (x + 1) (fun n => if roughb a n then w n else 0).
(** How many there are, and their sum. *)
Definition phi (x a : Z) : Z := Phi (fun _ => 1) x a.
Definition phi_sum (x a : Z) : Z := Phi (fun n => n) x a.

(** Sum of f p over the primes lo <= p <= hi. *)
Definition psum (lo hi : Z) (f : Z -> Z) : Z := sumr lo (hi + 1) (fun p => if primeb p then f p else 0).

(** Moebius function of n >= 1. *)
Definition prime_divisors (n : Z) : list Z := filter (fun p => n mod p =? 0) (primes_upto n).
Definition squarefreeb (n : Z) : bool := forallb (fun p => negb (n mod (p * p) =? 0)) (primes_upto n).
Definition mu (n : Z) : Z := if squarefreeb n then (-1) ^ zlen (prime_divisors n) else 0.

(** Semiprimes p*q <= x with y < p <= q: sum. *)
Definition P2_sum (x y : Z) : Z :=
  psum (y + 1) x (fun p => psum p (x / p) (fun q => p * q)).
(** Their number. *)
Definition P2_count (x y : Z) : Z :=
  psum (y + 1) x (fun p => psum p (x / p) (fun _ => 1)).

(** Ordinary leaves: n <= y without any of the first c primes. *)
Definition S1_sum (x y c : Z) : Z :=
  sumr 1 (y + 1) (fun n => if roughb c n then mu n * n * phi_sum (x / n) c else 0).

(** Special leaves of the prime p: n = p*m, y/p < m <= y, m without prime
    factor <= p. *)
Definition leaf (x p m : Z) : Z :=
  if roughb (pi p) m then - (mu m * (p * m) * phi_sum (x / (p * m)) (pi p - 1)) else 0.
Definition S2_prime (x y p : Z) : Z := sumr (y / p + 1) (y + 1) (leaf x p).
(** All special leaves: primes p <= y of index > c. *)
Definition S2_sum (x y c : Z) : Z := psum 2 y (fun p => if c <? pi p then S2_prime x y p else 0).

(** Least prime factor of n >= 2. *)
Definition least_factor (n : Z) : Z := hd 0 (prime_divisors n).
