(** Model of the integer functions of lib/primesieve/include/primesieve/pmath.hpp at
    T = uint64_t. *)
From Coq Require Import ZArith List Bool.
From Verif.Base Require Import Res Word.
Import ListNotations.
Open Scope Z_scope.

(** lib/primesieve/include/primesieve/pmath.hpp:43-50 — floorPow2: the loop
    i = 1, 2, 4, ..., 32 is written out *)
Definition floor_pow2 (x : Z) : Z :=
  let x := fold_left (fun x i => Z.lor x (Z.shiftr x i)) [1; 2; 4; 8; 16; 32] x in
  x - Z.shiftr x 1.

(** lib/primesieve/include/primesieve/pmath.hpp:52-69 — ilog2: the loop
    i = 32, 16, ..., 1 is written out *)
Definition ilog2 (x : Z) : Z :=
  snd (fold_left (fun '(x, l) i => if Z.shiftl 1 i <=? x then (Z.shiftr x i, l + i) else (x, l))
         [32; 16; 8; 4; 2; 1] (x, 0)).

(** lib/primesieve/include/primesieve/pmath.hpp:108-122 — isqrt; [r0] is
    (T) std::sqrt((double) x), the constant maxSqrt is 2^32-1 *)
Definition ps_isqrt (r0 x : Z) : res Z :=
  r <- loop (fun r => if uwrap 64 (r * r) >? x then Ok (inl (uwrap 64 (r - 1))) else Ok (inr r)) (Z.min r0 (2 ^ 32 - 1)) ;;
  loop (fun r => if uwrap 64 (x - uwrap 64 (r * r)) >? uwrap 64 (r * 2) then Ok (inl (uwrap 64 (r + 1))) else Ok (inr r)) r.

(** lib/primesieve/include/primesieve/pmath.hpp:124-131 — checkedAdd *)
Definition checked_add (x y : Z) : Z := if x >=? umax 64 - y then umax 64 else x + y.
(** lib/primesieve/include/primesieve/pmath.hpp:133-140 — checkedSub *)
Definition checked_sub (x y : Z) : Z := if x >? y then x - y else 0.
(** lib/primesieve/include/primesieve/pmath.hpp:142-153 — inBetween *)
Definition in_between (mn x mx : Z) : Z := if x <? mn then mn else if x >? mx then mx else x.
