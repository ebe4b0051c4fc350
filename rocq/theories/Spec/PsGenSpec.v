(** What the generators of primes of lib/primesieve are meant to deliver. *)
From Coq Require Import ZArith List Bool Znumtheory.
From Verif.Base Require Import Res Word Zl.
From Verif.Spec Require Import Primes PsSpec.
From Verif.Model Require Import PsErat PsGen Primesieve.
Import ListNotations.
Open Scope Z_scope.

(** What is assumed of the machine: nextPrime gives the number of the lowest set bit (C60),
    the other values are 64-bit numbers. *)
Definition genv_ok (g : genv) : Prop :=
  (forall bits low k, 0 <= bits < 2 ^ 64 -> lowest bits k -> g_next g bits low = Ok (uwrap 64 (low + (30 * (k / 8) + off (k mod 8))))) /\
  0 <= g_size g < 2 ^ 64 /\ forall n, 0 <= g_gap g n < 2 ^ 64 /\ 0 <= g_sqrt g n < 2 ^ 64 /\ 0 <= g_log g n < 2 ^ 64 /\ 0 <= g_sqrt2 g n < 2 ^ 64 /\ 0 <= g_logn g n < 2 ^ 64.

(** The primes of [a, b] in increasing order *)
Definition primes_in (a b : Z) : list Z := filter primeb (zrange a (b + 1)).

(** next_prime of an iterator standing at v: the least prime above v, or 2^64 - 1 if that is
    2^64 or more. *)
Definition follows (v r : Z) : Prop :=
  (prime r /\ v < r < 2 ^ 64 /\ forall q, prime q -> v < q -> r <= q) \/
  (r = 2 ^ 64 - 1 /\ forall q, prime q -> v < q -> 2 ^ 64 <= q).
(** prev_prime: the greatest prime below v, or 0 if there is none *)
Definition precedes (v r : Z) : Prop :=
  (prime r /\ r < v /\ forall q, prime q -> q < v -> q <= r) \/ (r = 0 /\ forall q, prime q -> v <= q).

(** The results of calls of next_prime (true) and prev_prime (false) in any order *)
Inductive moves : Z -> list bool -> list Z -> Prop :=
| mv_nil v : moves v [] []
| mv_next v r l rs : follows v r -> moves r l rs -> moves v (true :: l) (r :: rs)
| mv_prev v r l rs : precedes v r -> moves r l rs -> moves v (false :: l) (r :: rs).
Fixpoint iter_calls (g : genv) (l : list bool) (it : iter) : res (list Z) :=
  match l with
  | [] => Ok []
  | b :: l =>
      ' (r, it) <- (if b : bool then iter_next g it else iter_prev g it) ;;
      rs <- iter_calls g l it ;; Ok (r :: rs)
  end.

(** n calls of SievingPrimes::next *)
Fixpoint svp_calls (g : genv) (ps : presieve) (n : nat) (v : svp) : res (list Z) :=
  match n with
  | O => Ok []
  | S n => ' (r, v) <- svp_next g v ps ;; rs <- svp_calls g ps n v ;; Ok (r :: rs)
  end.
(** All calls of fill(primes, size) on a generator until one gives no
    prime: the buffers, one after the other *)
Inductive pgen_chunks (g : genv) : pgen -> list (list Z) -> Prop :=
| pc_end p p' : pgen_fill_next g p = Ok (p', []) -> pgen_chunks g p []
| pc_top p p' : pgen_fill_next g p = Ok (p', [2 ^ 64 - 1]) -> pgen_chunks g p []
| pc_more p p' l ls : pgen_fill_next g p = Ok (p', l) -> l <> [] -> l <> [2 ^ 64 - 1] -> zlen l <= 256 -> pgen_chunks g p' ls -> pgen_chunks g p (l :: ls).
(** The results of the calls according to Model/Primesieve.v, which the models of primesum use *)
Fixpoint calls_model (l : list bool) (v : Z) : list Z :=
  match l with
  | [] => []
  | b :: l => let r := if b : bool then next_prime v else prev_prime v in r :: calls_model l r
  end.
