(** Model of the 64-bit branch-free divider of include/libdivide.h.

    The compiler builtin __builtin_clzll is taken as 63 - floor(log2 val) (undefined
    for 0), the divq instruction as the exact quotient and remainder (a fault if the
    quotient does not fit).  The portable code used without 128-bit support is modelled
    as well.  LIBDIVIDE_ERROR ends the program. *)
From Coq Require Import ZArith List Bool.
From Verif.Base Require Import Res Word Zl.
Import ListNotations.
Open Scope Z_scope.

(** include/libdivide.h:301-305 — libdivide_count_leading_zeros64 *)
Definition clz64 (v : Z) : res Z := assert_ (0 <? v) UB ;;; Ok (63 - Z.log2 v).

(** include/libdivide.h:230-237 — libdivide_mullhi_u64 with __uint128_t *)
Definition mullhi_128 (x y : Z) : res Z := Ok (Z.shiftr (uwrap 128 (x * y)) 64).
(** include/libdivide.h:216-220 — libdivide_mullhi_u32 *)
Definition mullhi_u32 (x y : Z) : Z := uwrap 32 (Z.shiftr (uwrap 64 (x * y)) 32).
(** include/libdivide.h:238-254 — libdivide_mullhi_u64 without *)
Definition mullhi_32 (x y : Z) : res Z :=
  let mask := 2 ^ 32 - 1 in
  let x0 := Z.land x mask in
  let x1 := uwrap 32 (Z.shiftr x 32) in
  let y0 := Z.land y mask in
  let y1 := uwrap 32 (Z.shiftr y 32) in
  let x0y0_hi := mullhi_u32 x0 y0 in
  let x0y1 := uwrap 64 (x0 * y1) in
  let x1y0 := uwrap 64 (x1 * y0) in
  let x1y1 := uwrap 64 (x1 * y1) in
  let temp := uwrap 64 (x1y0 + x0y0_hi) in
  let temp_lo := Z.land temp mask in
  let temp_hi := Z.shiftr temp 32 in
  Ok (uwrap 64 (uwrap 64 (x1y1 + temp_hi) + Z.shiftr (uwrap 64 (temp_lo + x0y1)) 32)).

(** include/libdivide.h:343-357 — libdivide_128_div_64_to_64 with divq or __uint128_t:
    (quotient, remainder) *)
Definition div128_exact (u1 u0 v : Z) : res (Z * Z) :=
  assert_ (u1 <? v) UB ;;;
  let n := u1 * 2 ^ 64 + u0 in Ok (n / v, n mod v).

(** include/libdivide.h:408-416 and 422-430 — one quotient digit: the digit pair
    [un], the next digit [un1] of the dividend, the digits of the divisor; (q, rhat) *)
Definition knuth_digit (un un1 vn1 vn0 : Z) : res Z :=
  let b := 2 ^ 32 in
  assert_ (negb (vn1 =? 0)) UB ;;;
  let q := un / vn1 in
  let rhat := uwrap 64 (un - uwrap 64 (q * vn1)) in
  loop (fun '(q, rhat) =>
    if (q >=? b) || (uwrap 64 (q * vn0) >? uwrap 64 (uwrap 64 (b * rhat) + un1)) then
      let q := uwrap 64 (q - 1) in
      let rhat := uwrap 64 (rhat + vn1) in
      if rhat >=? b then Ok (inr q) else Ok (inl (q, rhat))
    else Ok (inr q)) (q, rhat).

(** include/libdivide.h:358-434 — libdivide_128_div_64_to_64 without *)
Definition div128_knuth (u1 u0 v : Z) : res (Z * Z) :=
  let b := 2 ^ 32 in
  let mask := 2 ^ 32 - 1 in
  if u1 >=? v then Ok (2 ^ 64 - 1, 2 ^ 64 - 1)
  else
    s <- clz64 v ;;
    ' (v, un64, un10) <-
      (if s >? 0 then
         v' <- ushl 64 v s ;;
         a <- ushl 64 u1 s ;;
         c <- ushr 64 u0 (64 - s) ;;
         un10 <- ushl 64 u0 s ;;
         Ok (v', Z.lor a c, un10)
       else Ok (v, u1, u0)) ;;
    let vn1 := Z.shiftr v 32 in
    let vn0 := Z.land v mask in
    let un1 := Z.shiftr un10 32 in
    let un0 := Z.land un10 mask in
    q1 <- knuth_digit un64 un1 vn1 vn0 ;;
    let un21 := uwrap 64 (uwrap 64 (uwrap 64 (un64 * b) + un1) - uwrap 64 (q1 * v)) in
    q0 <- knuth_digit un21 un0 vn1 vn0 ;;
    r <- ushr 64 (uwrap 64 (uwrap 64 (uwrap 64 (un21 * b) + un0) - uwrap 64 (q0 * v))) s ;;
    Ok (uwrap 64 (uwrap 64 (q1 * b) + q0), r).

(** include/libdivide.h:179-183 *)
Definition SHIFT_MASK_64 : Z := 63.
(** include/libdivide.h:181 — LIBDIVIDE_ADD_MARKER *)
Definition ADD_MARKER : Z := 64.

(** include/libdivide.h:704-752 — libdivide_internal_u64_gen: (magic, more) *)
Definition internal_u64_gen (div128 : Z -> Z -> Z -> res (Z * Z)) (d : Z) (branchfree : bool) : res (Z * Z) :=
  assert_ (negb (d =? 0)) Abort ;;;
  lz <- clz64 d ;;
  let floor_log_2_d := 63 - lz in
  if Z.land d (uwrap 64 (d - 1)) =? 0 then
    Ok (0, uwrap 8 (floor_log_2_d - (if branchfree then 1 else 0)))
  else
    hi <- ushl 64 1 floor_log_2_d ;;
    ' (proposed_m, rem) <- div128 hi 0 d ;;
    let e := uwrap 64 (d - rem) in
    if negb branchfree && (e <? hi) then Ok (uwrap 64 (1 + proposed_m), floor_log_2_d)
    else
      let proposed_m := uwrap 64 (proposed_m + proposed_m) in
      let twice_rem := uwrap 64 (rem + rem) in
      let proposed_m := if (twice_rem >=? d) || (twice_rem <? rem) then uwrap 64 (proposed_m + 1) else proposed_m in
      Ok (uwrap 64 (1 + proposed_m), Z.lor floor_log_2_d ADD_MARKER).

(** include/libdivide.h:754-756 — libdivide_u64_gen *)
Definition u64_gen div128 (d : Z) : res (Z * Z) := internal_u64_gen div128 d false.

(** include/libdivide.h:758-765 — libdivide_u64_branchfree_gen *)
Definition u64_branchfree_gen div128 (d : Z) : res (Z * Z) :=
  assert_ (negb (d =? 1)) Abort ;;;
  ' (magic, more) <- internal_u64_gen div128 d true ;;
  Ok (magic, Z.land more SHIFT_MASK_64).

(** include/libdivide.h:767-783 — libdivide_u64_do *)
Definition u64_do (mullhi : Z -> Z -> res Z) (numer : Z) (denom : Z * Z) : res Z :=
  let '(magic, more) := denom in
  if magic =? 0 then ushr 64 numer more
  else
    q <- mullhi magic numer ;;
    if negb (Z.land more ADD_MARKER =? 0) then
      let t := uwrap 64 (Z.shiftr (uwrap 64 (numer - q)) 1 + q) in
      ushr 64 t (Z.land more SHIFT_MASK_64)
    else ushr 64 q more.

(** include/libdivide.h:785-789 — libdivide_u64_branchfree_do *)
Definition u64_branchfree_do (mullhi : Z -> Z -> res Z) (numer : Z) (denom : Z * Z) : res Z :=
  let '(magic, more) := denom in
  q <- mullhi magic numer ;;
  let t := uwrap 64 (Z.shiftr (uwrap 64 (numer - q)) 1 + q) in
  ushr 64 t more.
