(** Model of include/PiTable.hpp and src/PiTable.cpp. *)
From Coq Require Import ZArith List Bool.
From Verif.Base Require Import Res Word Zl.
From Verif.Model Require Import Popcnt Primesieve.
Import ListNotations.
Open Scope Z_scope.

(** include/PiTable.hpp:43-50 — PiData {prime_count, bits}, pi_ and max_ *)
Record pitable := mkPi { pi_ : list (Z * Z); max_ : Z }.

(** src/PiTable.cpp:22-39 — PiTable::PiTable *)
Definition PiTable (max : Z) : res pitable :=
  let pi0 := amake (max / 64 + 1) (0, 0) in
  pi1 <- loop (fun st : Z * list (Z * Z) =>
      let '(prime, l) := st in
      let prime := next_prime prime in
      if prime <=? max then
        d <- aget l (prime / 64) ;;
        b <- ushl 64 1 (prime mod 64) ;;
        l <- aset l (prime / 64) (fst d, Z.lor (snd d) b) ;;
        Ok (inl (prime, l))
      else Ok (inr l)) (0, pi0) ;;
  r <- for_ 0 (zlen pi1) (fun i (st : list (Z * Z) * Z) =>
      let '(l, pix) := st in
      d <- aget l i ;;
      l <- aset l i (pix, snd d) ;;
      Ok (l, uwrap 64 (pix + popcnt64 (snd d)))) (pi1, 0) ;;
  Ok (mkPi (fst r) max).

(** include/PiTable.hpp:31-36 — operator[] (the assert as undefined behaviour) *)
Definition pi_get (t : pitable) (n : Z) : res Z :=
  assert_ ((0 <=? n) && (n <=? max_ t)) UB ;;;
  bitmask <- ushr 64 0xffffffffffffffff (63 - n mod 64) ;;
  d <- aget (pi_ t) (n / 64) ;;
  Ok (fst d + popcnt64 (Z.land (snd d) bitmask)).

(** include/PiTable.hpp:38-41 — size *)
Definition pi_size (t : pitable) : Z := max_ t + 1.
