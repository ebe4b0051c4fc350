(** Everything the prime summing functions take from their environment and that
    the theorems quantify over: floating-point estimates, OpenMP schedules and
    comparisons of measured times.  (No source line of its own: the fields are
    the oracle arguments of the models of P2.cpp, S1.cpp, phi.cpp, imath.hpp.) *)
From Coq Require Import ZArith List.
From Verif.Base Require Import Par.
Open Scope Z_scope.

(** No source line of its own; the fields are used by the models of include/imath.hpp:88,
    src/pi_legendre.cpp:21-30, src/P2.cpp:124-180 and src/S1.cpp *)
Record oracles := {
  (** pow((double) x, 1.0 / 3) in iroot<3> (include/imath.hpp:88) *)
  o_root : Z;
  (** schedules inside pi_legendre(y, ...) called from the top level, and inside P2 *)
  o_leg : nat -> Z -> Z -> list (list Z);
  o_p2leg : nat -> Z -> Z -> list (list Z);
  (** P2: timing and schedule of each round *)
  o_p2speed : Z -> comparison;
  o_p2sched : Z -> Z -> Z -> list (list Z);
  (** S1 *)
  o_s1sched : Z -> Z -> list (list Z)
}.
(** No source line: what is assumed of the environment *)
Definition valid_oracles (o : oracles) : Prop :=
  0 <= o_root o <= 2 ^ 43 /\ (forall n, valid_sched (o_leg o n)) /\ (forall n, valid_sched (o_p2leg o n)) /\
  (forall k, valid_sched (o_p2sched o k)) /\ valid_sched (o_s1sched o).
