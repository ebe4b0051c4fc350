(** Arithmetic of the result types: [w] = 128 stands for int128_t, whose overflow is
    undefined behaviour, [w] = 256 for int256_t, whose operators are those of
    Model/Int256.v.  Values are kept as integers and converted to the pair of words and
    back at each operation. *)
From Coq Require Import ZArith Bool.
From Verif.Base Require Import Res Word.
From Verif.Spec Require Import IntSpec.
From Verif.Model Require Import Int256.
Open Scope Z_scope.

(** include/int256_t.hpp:641-649 — next_larger_type: the result type for an argument of
    type int64_t or int128_t (bits) *)
Definition next_larger (w : Z) : Z := if w =? 64 then 128 else 256.

(** a + b (also +=): include/int256_t.hpp:130-141 and 230-234 *)
Definition t_add (w a b : Z) : res Z :=
  if w =? 128 then schk 128 (a + b) else Ok (sval (add256 (of_Z256 a) (of_Z256 b))).
(** a - b (also -=): include/int256_t.hpp:143-154 and 236-240 *)
Definition t_sub (w a b : Z) : res Z :=
  if w =? 128 then schk 128 (a - b) else Ok (sval (sub256 (of_Z256 a) (of_Z256 b))).
(** a * b: include/int256_t.hpp:156-184 (also *=, 242-246) *)
Definition t_mul (w a b : Z) : res Z :=
  if w =? 128 then schk 128 (a * b) else Ok (sval (mul256 (of_Z256 a) (of_Z256 b))).

(** The last lines of the algorithms, phi = s1 + s2; sum = phi + prime_sum_tiny(y) - 1 - p2:
    src/deleglise-rivat/pi_deleglise_rivat_parallel1.cpp:78-79, src/lmo/pi_lmo1.cpp:62-64,
    pi_lmo2.cpp:112-113, pi_lmo3.cpp:150-151, pi_lmo4.cpp:160-161, pi_lmo5.cpp:186-187,
    pi_lmo_parallel1.cpp:274-275 *)
Definition lmo_formula (s1 s2 t p2 : Z) : res Z :=
  phi <- t_add 256 s1 s2 ;;
  s <- t_add 256 phi t ;;
  s <- t_sub 256 s 1 ;;
  t_sub 256 s p2.
