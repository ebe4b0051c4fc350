(** The multiples visited by a wheel modulo 210 = 2*3*5*7. *)
From Coq Require Import ZArith List Bool Znumtheory.
From Verif.Base Require Import Zl.
Import ListNotations.
Open Scope Z_scope.

Definition coprime210 (k : Z) : bool := Z.gcd k 210 =? 1.
(** n = p * k with k coprime to 210 *)
Definition wheel_hit (p n : Z) : bool := (n mod p =? 0) && coprime210 (n / p).
(** those in [lo, hi), increasing *)
Definition wheel_hits (p lo hi : Z) : list Z := filter (wheel_hit p) (zrange lo hi).
(** consecutive segments [low, h1), [h1, h2), ... *)
Fixpoint segments_from (low : Z) (ends : list Z) : Prop :=
  match ends with [] => True | h :: ends => low <= h /\ segments_from h ends end.
(** the hits of each segment *)
Fixpoint hits_from (p low : Z) (ends : list Z) : list (list Z) :=
  match ends with [] => [] | h :: ends => wheel_hits p low h :: hits_from p h ends end.

