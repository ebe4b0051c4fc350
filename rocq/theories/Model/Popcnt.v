(** Model of include/popcnt.hpp. *)
From Coq Require Import ZArith.
From Verif.Base Require Import Word.
Open Scope Z_scope.

(** include/popcnt.hpp:51-63 — popcnt64, the portable version.  The other
    versions are a single instruction of the compiler or processor (trusted to
    count the one bits too). *)
Definition popcnt64 (x : Z) : Z :=
  let m1 := 0x5555555555555555 in
  let m2 := 0x3333333333333333 in
  let m4 := 0x0F0F0F0F0F0F0F0F in
  let h01 := 0x0101010101010101 in
  let x := uwrap 64 (x - Z.land (Z.shiftr x 1) m1) in
  let x := uwrap 64 (Z.land x m2 + Z.land (Z.shiftr x 2) m2) in
  let x := Z.land (uwrap 64 (x + Z.shiftr x 4)) m4 in
  Z.shiftr (uwrap 64 (x * h01)) 56.
