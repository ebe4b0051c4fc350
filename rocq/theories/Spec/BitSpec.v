(** Bits of 64-bit words. *)
From Coq Require Import ZArith Bool.
From Verif.Base Require Import Zl.
Open Scope Z_scope.

(** Number of one bits among the low 64 bits of x. *)
Definition popcount (x : Z) : Z := sumr 0 64 (fun k => Z.b2z (Z.testbit x k)).
