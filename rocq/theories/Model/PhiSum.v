(** Model of src/phi_sum.cpp. *)
From Coq Require Import ZArith List Bool Lia.
From Verif.Base Require Import Res Word Zl IType.
From Verif.Spec Require Import Primes IntSpec.
From Verif.Model Require Import Int256 Imath Primesieve.
Import ListNotations.
Open Scope Z_scope.

(** src/phi_sum.cpp:25 — small_primes_ *)
Definition small_primes_ : list Z := [0; 2; 3; 5; 7; 11; 13; 17; 19; 23].

(** src/phi_sum.cpp:27-48 — phi_sum128<SIGN>.  [n] bounds the recursion depth;
    every int128_t operation is checked for overflow.  fast_div is
    include/fast_div.hpp:53-67; the table elements are int (int32_t). *)
Fixpoint phi_sum128 (n : nat) (SIGN x a : Z) (primes : list Z) : res Z :=
  match n with
  | O => Fail Fuel
  | S n =>
      loop (fun st : Z * Z =>
        let '(a, sum) := st in
        if a >? 0 then
          p <- aget primes a ;;
          if x <=? p then s <- schk 128 (sum + SIGN) ;; Ok (inr s)
          else
            x2 <- fast_div_gt i64 x p ;;
            v <- phi_sum128 n (- SIGN) x2 (a - 1) primes ;;
            t <- schk 128 (v * p) ;;
            s <- schk 128 (sum + t) ;;
            Ok (inl (a - 1, s))
        else
          n1 <- schk 128 (x + 1) ;;
          nn <- schk 128 (x * n1) ;;
          f <- schk 128 (Z.shiftr nn 1 * SIGN) ;;
          s <- schk 128 (sum + f) ;; Ok (inr s))
      (a, 0)
  end.

(** src/phi_sum.cpp:50-79 — phi_sum256<SIGN>, with the int256_t operations of
    Model/Int256.v.  A prime or SIGN is converted to int256_t by the
    constructor from a native integer. *)
Fixpoint phi_sum256 (n : nat) (SIGN x a : Z) (primes : list Z) : res i256 :=
  match n with
  | O => Fail Fuel
  | S n =>
      loop (fun st : Z * i256 =>
        let '(a, sum) := st in
        if a >? 0 then
          p <- aget primes a ;;
          if x <=? p then Ok (inr (add256 sum (of_native SIGN)))
          else
            x2 <- fast_div_gt i128 x p ;;
            v <- (if x2 <=? smax 64 then
                    v <- phi_sum128 n (- SIGN) x2 (a - 1) primes ;; Ok (of_native v)
                  else phi_sum256 n (- SIGN) x2 (a - 1) primes) ;;
            Ok (inl (a - 1, add256 sum (mul256 v (of_native p))))
        else
          let m := of_native x in
          fx <- shr256 (mul256 m (add256 m (of_native 1))) 1 ;;
          Ok (inr (add256 sum (mul256 fx (of_native SIGN)))))
      (a, of_native 0)
  end.

(** src/phi_sum.cpp:89-92 and 100-103 — the table of primes that is used *)
Definition phi_sum_table (a : Z) : list Z := if a <? 10 then small_primes_ else generate_n_primes a.

(** src/phi_sum.cpp:85-94 — phi_sum(int64_t, int64_t) *)
Definition phi_sum_64 (x a : Z) : res Z :=
  if x <? 1 then Ok 0 else phi_sum128 (S (Z.to_nat a)) 1 x a (phi_sum_table a).

(** src/phi_sum.cpp:96-105 — phi_sum(int128_t, int64_t) *)
Definition phi_sum_128 (x a : Z) : res i256 :=
  if x <=? smax 64 then v <- phi_sum_64 (swrap 64 x) a ;; Ok (of_native v)
  else phi_sum256 (S (Z.to_nat a)) 1 x a (phi_sum_table a).
