(** When the 256-bit version of phi_sum is free of the multiplication defect:
    no intermediate sum that enters a multiplication with a negative sign lies in
    the window (2^128 - 2^64, 2^128].  The intermediate sums of phi_sum(x, a) are
    the phi_sum(x/m, i-1), m a product of distinct primes among the first a, i the
    index of the least of them; the sign is negative when their number is odd. *)
From Coq Require Import ZArith Znumtheory.
From Verif.Spec Require Import Primes LMOSpec.
Open Scope Z_scope.

Definition in_window (v : Z) : Prop := 2 ^ 128 - 2 ^ 64 < v <= 2 ^ 128.

Definition window_free (x a : Z) : Prop :=
  forall m p, 1 <= m -> mu m = -1 -> prime p -> (p | m) ->
    (forall q, prime q -> (q | m) -> p <= q /\ pi q <= a) ->
    ~ in_window (phi_sum (x / m) (pi p - 1)).
