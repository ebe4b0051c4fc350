(** Work distribution: half-open intervals. *)
From Coq Require Import ZArith List Bool.
From Verif.Base Require Import Res Zl.
Import ListNotations.
Open Scope Z_scope.

(** the number of intervals [lo, hi) of a list that contain n *)
Definition covered (n : Z) (l : list (Z * Z)) : Z := zlen (filter (fun '(lo, hi) => (lo <=? n) && (n <? hi)) l).
(** the intervals tile [a, b): every integer in it is in exactly one of them, no other
    integer is in any *)
Definition tiles (a b : Z) (l : list (Z * Z)) : Prop := forall n, covered n l = if (a <=? n) && (n <? b) then 1 else 0.

(** a round of the work plan: minimal segment size, segment size, segments per thread
    and the intervals of the threads, cut off at limit *)
Definition round_ok (limit : Z) (r : Z * Z * Z * list (Z * Z)) : Prop :=
  let '((ms, seg, spt), l) := r in
  (exists k, 0 <= k /\ ms = 2 ^ k) /\ (exists k, 0 <= k /\ seg = 2 ^ k) /\ 512 <= ms <= seg /\ 1 <= spt /\ 1 <= zlen l /\
  forall i lo hi, aget l i = Ok (lo, hi) -> hi = Z.min (lo + seg * spt) limit.
