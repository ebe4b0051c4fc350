(** The three classes of special leaves n = p*m (p prime of index > c, y/p < m <= y,
    m without prime factor <= p). *)
From Coq Require Import ZArith Bool.
From Verif.Base Require Import Zl.
From Verif.Spec Require Import Primes LMOSpec.
Open Scope Z_scope.

(** The special leaves satisfying P, summed. *)
Definition S2_part (P : Z -> Z -> bool) (x y c : Z) : Z :=
  psum 2 y (fun p => if c <? pi p then sumr (y / p + 1) (y + 1) (fun m => if P p m then leaf x p m else 0) else 0).

(** trivial: the quotient is smaller than p, so that phi_sum of it is 1 *)
Definition trivial_leaf (x p m : Z) : bool := x / (p * m) <? p.
(** easy: not trivial, p > sqrt(y) and the quotient is smaller than y *)
Definition easy_leaf (x y p m : Z) : bool := negb (trivial_leaf x p m) && (y <? p * p) && (x / (p * m) <? y).
(** hard: all others *)
Definition hard_leaf (x y p m : Z) : bool := negb (trivial_leaf x p m) && negb (easy_leaf x y p m).

Definition S2_trivial_sum (x y c : Z) : Z := S2_part (trivial_leaf x) x y c.
Definition S2_easy_sum (x y c : Z) : Z := S2_part (easy_leaf x y) x y c.
Definition S2_hard_sum (x y c : Z) : Z := S2_part (hard_leaf x y) x y c.
