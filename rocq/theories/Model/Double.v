(** The C++ type double: IEEE 754 binary64 with rounding to nearest, ties to even, as
    formalised by Flocq (NaN without sign and payload).  The sources use it in
    src/primesum.cpp, src/S2LoadBalancer.cpp and src/deleglise-rivat/S2_hard.cpp.
    Each operation below is correctly rounded: no extended precision, no contraction of
    a * b + c. *)
From Coq Require Import ZArith List Bool.
From Flocq Require Import IEEE754.BinarySingleNaN.
From Verif.Base Require Import Res Word.
Import ListNotations.
Open Scope Z_scope.

(** The type double of src/primesum.cpp:40, 129-223, include/S2LoadBalancer.hpp:40-47 and
    src/S2LoadBalancer.cpp:60-260 *)
Definition double : Type := binary_float 53 1024.
(** No source line: the precision and the largest exponent are sensible, which the operations
    of Flocq need *)
Definition d_prec : FLX.Prec_gt_0 53 := eq_refl.
(** No source line: see d_prec *)
Definition d_emax : Prec_lt_emax 53 1024 := eq_refl.

(** No source line: the result of an invalid operation, for instance of sqrt at
    src/S2LoadBalancer.cpp:92 *)
Definition d_nan : double := B754_nan.
(** No source line: the result of an overflow or of a division by zero, for instance at
    src/S2LoadBalancer.cpp:130 *)
Definition d_inf (neg : bool) : double := B754_infinity neg.
(** conversion of an integer: int to double at src/primesum.cpp:175-176,
    194, 199, 210, src/S2LoadBalancer.cpp:106-108, 122, 130 *)
Definition d_of_Z (n : Z) : double := binary_normalize 53 1024 d_prec d_emax mode_NE n 0 false.
(** a + b, a - b, a * b, a / b and sqrt(a), as in src/S2LoadBalancer.cpp:65-96 *)
Definition d_add (a b : double) : double := Bplus (prec_gt_0_ := d_prec) (prec_lt_emax_ := d_emax) mode_NE a b.
(** a - b, as in src/S2LoadBalancer.cpp:65-96 *)
Definition d_sub (a b : double) : double := Bminus (prec_gt_0_ := d_prec) (prec_lt_emax_ := d_emax) mode_NE a b.
(** a * b, as in src/S2LoadBalancer.cpp:65-96 *)
Definition d_mul (a b : double) : double := Bmult (prec_gt_0_ := d_prec) (prec_lt_emax_ := d_emax) mode_NE a b.
(** a / b, as in src/S2LoadBalancer.cpp:65-96 *)
Definition d_div (a b : double) : double := Bdiv (prec_gt_0_ := d_prec) (prec_lt_emax_ := d_emax) mode_NE a b.
(** sqrt(a), src/S2LoadBalancer.cpp:92 and 130 *)
Definition d_sqrt (a : double) : double := Bsqrt (prec_gt_0_ := d_prec) (prec_lt_emax_ := d_emax) mode_NE a.
(** a < b and a == b: false if one of them is NaN, as in src/S2LoadBalancer.cpp:83, 165-174 *)
Definition d_lt (a b : double) : bool := Bltb a b.
(** a == b, src/S2LoadBalancer.cpp:83 *)
Definition d_eq (a b : double) : bool := Beqb a b.
(** a decimal literal num / 10^k: the quotient of two integers that are doubles, correctly
    rounded (src/primesum.cpp:191-193, 215-218, src/S2LoadBalancer.cpp:123, 125, 199, 252) *)
Definition d_lit (num k : Z) : double := d_div (d_of_Z num) (d_of_Z (10 ^ k)).
(** std::max and std::min (<algorithm>): src/S2LoadBalancer.cpp:92, 122-123, 153-157, 180, 199, 254 *)
Definition d_max (a b : double) : double := if d_lt a b then b else a.
(** std::min, src/S2LoadBalancer.cpp:122-157 *)
Definition d_min (a b : double) : double := if d_lt b a then b else a.
(** conversion to int64_t truncates; of a value that does not fit, of an infinity and of
    NaN it is undefined behaviour: src/S2LoadBalancer.cpp:130, 180, 255,
    src/deleglise-rivat/pi_deleglise_rivat_parallel1.cpp:66, src/lmo/pi_lmo5.cpp:170 *)
Definition d_to_Z (n : Z) (a : double) : res Z :=
  if is_finite a && in_sb n (Btrunc a) then Ok (Btrunc a) else Fail UB.
