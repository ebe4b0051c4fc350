(** Model of src/BitSieve.cpp, include/BitSieve.hpp and include/SumBits.hpp.

    A sieve is the list of its 64-bit words together with size_; uint64_t
    arithmetic wraps explicitly, asserts are checked ([Abort]), accesses of
    sieve_ are checked ([UB]).  Simplifications: the words read through a uint16_t
    pointer (lines 77-96) are read as the four 16-bit parts in little-endian order,
    as in the version for a value. *)
From Coq Require Import ZArith List Bool.
From Verif.Base Require Import Res Word Zl IType.
From Verif.Model Require Import Imath Popcnt.
Import ListNotations.
Open Scope Z_scope.

(** src/BitSieve.cpp:32 — primes *)
Definition bs_primes : list Z := [0; 2; 3; 5; 7; 11; 13; 17; 19; 23].
(** src/BitSieve.cpp:34-47 — masks *)
Definition bs_masks : list Z :=
  [0x0000000000000000; 0x5555555555555555; 0x9249249249249249; 0x1084210842108421;
   0x8102040810204081; 0x0080100200400801; 0x0010008004002001; 0x0008000400020001;
   0x0200004000080001; 0x0000400000800001].
(** src/BitSieve.cpp:112-146 — set_bit_: 1ull << k for these k *)
Definition bs_set_bit : list Z := map (Z.shiftl 1)
  [0; 0; 1; 1; 2; 2; 3; 3; 4; 4; 5; 5; 6; 6; 7; 7;
   8; 8; 9; 9; 10; 10; 11; 11; 12; 12; 13; 13; 14; 14; 15; 15;
   16; 16; 17; 17; 18; 18; 19; 19; 20; 20; 21; 21; 22; 22; 23; 23;
   24; 24; 25; 25; 26; 26; 27; 27; 28; 28; 29; 29; 30; 30; 31; 31;
   32; 32; 33; 33; 34; 34; 35; 35; 36; 36; 37; 37; 38; 38; 39; 39;
   40; 40; 41; 41; 42; 42; 43; 43; 44; 44; 45; 45; 46; 46; 47; 47;
   48; 48; 49; 49; 50; 50; 51; 51; 52; 52; 53; 53; 54; 54; 55; 55;
   56; 56; 57; 57; 58; 58; 59; 59; 60; 60; 61; 61; 62; 62; 63; 63].

(** src/BitSieve.cpp:49-54 — fast_modulo *)
Definition fast_modulo (x y : Z) : res Z :=
  assert_ (x <? uwrap 64 (y * 2)) Abort ;;;
  Ok (if x <? y then x else uwrap 64 (x - y)).

(** include/SumBits.hpp:22-30 — entry i of the table; __builtin_ctzll(j) is the
    position of the lowest one bit *)
Definition sumbits_entry (i : Z) : res Z :=
  loop (fun '(j, s) =>
    if j =? 0 then Ok (inr s)
    else
      let ctz := Z.log2 (Z.land j (- j)) in
      Ok (inl (Z.land j (j - 1), uwrap 8 (s + uwrap 8 (ctz * 2))))) (i, 0).
(** include/SumBits.hpp:32-36 — operator[] *)
Definition sumbits (i : Z) : res Z := assert_ ((0 <=? i) && (i <? 2 ^ 16)) UB ;;; sumbits_entry i.

(** src/BitSieve.cpp:56-96 — sum_bits of one word; returns the sum and the new low *)
Definition sum_bits (bits low : Z) : res (Z * Z) :=
  let bits0 := Z.land bits 0xffff in
  let bits1 := Z.land (Z.shiftr bits 16) 0xffff in
  let bits2 := Z.land (Z.shiftr bits 32) 0xffff in
  let bits3 := Z.shiftr bits 48 in
  s0 <- sumbits bits0 ;;
  s1 <- sumbits bits1 ;;
  s2 <- sumbits bits2 ;;
  s3 <- sumbits bits3 ;;
  let sum := uwrap 64 (uwrap 64 (uwrap 64 (s0 + s1) + s2) + s3) in
  let sum := uwrap 64 (sum + uwrap 64 (low * popcnt64 bits0)) in
  let low := uwrap 64 (low + 32) in
  let sum := uwrap 64 (sum + uwrap 64 (low * popcnt64 bits1)) in
  let low := uwrap 64 (low + 32) in
  let sum := uwrap 64 (sum + uwrap 64 (low * popcnt64 bits2)) in
  let low := uwrap 64 (low + 32) in
  let sum := uwrap 64 (sum + uwrap 64 (low * popcnt64 bits3)) in
  let low := uwrap 64 (low + 32) in
  Ok (sum, low).

(** src/BitSieve.cpp:98-106 — sum_bits of [size] words starting at index [from] *)
Definition sum_words (sieve : list Z) (from size low : Z) : res (Z * Z) :=
  for_ 0 size (fun i '(sum, low) =>
    w <- aget sieve (from + i) ;;
    ' (s, low) <- sum_bits w low ;;
    sum <- schk 128 (sum + s) ;;
    Ok (sum, low)) (0, low).

(** include/BitSieve.hpp:86-94 — the object *)
Record bitsieve := { bs_words : list Z; bs_size : Z }.

(** src/BitSieve.cpp:148-151 — constructor (ceil_div of std::size_t and int gives an
    unsigned 64-bit value) *)
Definition bs_make (size : Z) : res bitsieve :=
  n <- ceil_div u64 size 128 ;;
  Ok {| bs_words := amake n 0; bs_size := size |}.

(** src/BitSieve.cpp:182-184 and 209-211 — std::copy of the first n words to position last (the
    ranges do not overlap) *)
Definition bs_copy (sieve : list Z) (n last : Z) : res (list Z) :=
  for_ 0 n (fun k s => w <- aget s k ;; aset s (last + k) w) sieve.

(** src/BitSieve.cpp:177-184 and 206-213 — the copying loops: while last < end *)
Definition bs_fill (sieve : list Z) (sieved last end_ sieve_size : Z) : res (list Z * Z) :=
  loop (fun '(s, last) =>
    if last <? end_ then
      let copy_words := Z.min sieved (uwrap 64 (sieve_size - last)) in
      s <- bs_copy s copy_words last ;;
      Ok (inl (s, uwrap 64 (last + copy_words)))
    else Ok (inr (s, last))) (sieve, last).

(** src/BitSieve.cpp:194-200 — remove the multiples of the i-th prime *)
Definition bs_remove (sieve : list Z) (last prime mask shift p64 : Z) : res (list Z * Z) :=
  for_ 0 last (fun j '(s, shift) =>
    w <- aget s j ;;
    sh <- ushl 64 mask shift ;;
    s <- aset s j (Z.land w (uwrap 64 (Z.lnot sh))) ;;
    shift <- fast_modulo (uwrap 64 (shift + p64)) prime ;;
    Ok (s, shift)) (sieve, shift).

(** src/BitSieve.cpp:157-214 — pre_sieve *)
Definition pre_sieve (bs : bitsieve) (c low : Z) : res bitsieve :=
  assert_ (c <? zlen bs_primes) Abort ;;;
  if zlen (bs_words bs) =? 0 then Ok bs
  else
    s <- aset (bs_words bs) 0 (2 ^ 64 - 1) ;;
    let sieve_size := zlen s in
    ' (s, last, sieved) <- for_ 2 (c + 1) (fun i '(s, last, sieved) =>
      prime <- aget bs_primes i ;;
      let end_copy := Z.min (uwrap 64 (sieved * prime)) sieve_size in
      ' (s, last) <- bs_fill s sieved last end_copy sieve_size ;;
      q <- ceil_div u64 low prime ;;
      let multiple := uwrap 64 (q * prime) in
      let multiple := uwrap 64 (multiple + uwrap 64 (prime * Z.land (uwrap 64 (Z.lnot multiple)) 1)) in
      let p64 := uwrap 64 (prime - Z.rem 64 prime) in
      mask <- aget bs_masks i ;;
      let shift := Z.quot (uwrap 64 (multiple - low)) 2 in
      ' (s, _) <- bs_remove s last prime mask shift p64 ;;
      Ok (s, last, last)) (s, 1, 1) ;;
    ' (s, _) <- bs_fill s sieved last sieve_size sieve_size ;;
    Ok {| bs_words := s; bs_size := bs_size bs |}.

(** src/BitSieve.cpp:217-248 — sum(low, start, stop) *)
Definition bs_sum (bs : bitsieve) (low start stop : Z) : res Z :=
  let start := uwrap 64 (start + Z.rem start 2) in
  let stop := uwrap 64 (stop - Z.rem stop 2) in
  if start >? stop then Ok 0
  else
    assert_ (stop <? bs_size bs) Abort ;;;
    let start_idx := Z.quot start 128 in
    let stop_idx := Z.quot stop 128 in
    b1 <- aget bs_set_bit (Z.rem start 128) ;;
    let m1 := uwrap 64 (Z.lnot (uwrap 64 (b1 - 1))) in
    b2 <- aget bs_set_bit (Z.rem stop 128) ;;
    let m2 := Z.lor (uwrap 64 (Z.shiftl (uwrap 64 (b2 - 1)) 1)) 1 in
    let low := uwrap 64 (low + uwrap 64 (start - Z.rem start 128)) in
    if start_idx =? stop_idx then
      w <- aget (bs_words bs) start_idx ;;
      ' (s, _) <- sum_bits (Z.land w (Z.land m1 m2)) low ;;
      Ok s
    else
      w1 <- aget (bs_words bs) start_idx ;;
      ' (s1, low) <- sum_bits (Z.land w1 m1) low ;;
      ' (s2, low) <- sum_words (bs_words bs) (start_idx + 1) (stop_idx - (start_idx + 1)) low ;;
      sum <- schk 128 (s1 + s2) ;;
      w3 <- aget (bs_words bs) stop_idx ;;
      ' (s3, _) <- sum_bits (Z.land w3 m2) low ;;
      schk 128 (sum + s3).

(** include/BitSieve.hpp:43-61 — sum counting forwards or backwards *)
Definition bs_sum6 (bs : bitsieve) (start stop low high sum_0_start sum_low_high : Z) : res Z :=
  if start >? stop then Ok 0
  else if uwrap 64 (stop - start) <? uwrap 64 (uwrap 64 (high - low) - stop) then bs_sum bs low start stop
  else
    s <- bs_sum bs low (uwrap 64 (stop + 1)) (uwrap 64 (uwrap 64 (high - 1) - low)) ;;
    d <- schk 128 (sum_low_high - sum_0_start) ;;
    schk 128 (d - s).

(** include/BitSieve.hpp:70-75 — unset *)
Definition bs_unset (bs : bitsieve) (pos : Z) : res bitsieve :=
  assert_ (pos <? bs_size bs) Abort ;;;
  assert_ (Z.rem pos 2 =? 0) Abort ;;;
  w <- aget (bs_words bs) (Z.shiftr pos 7) ;;
  b <- aget bs_set_bit (Z.land pos 127) ;;
  s <- aset (bs_words bs) (Z.shiftr pos 7) (Z.land w (uwrap 64 (Z.lnot b))) ;;
  Ok {| bs_words := s; bs_size := bs_size bs |}.
(** include/BitSieve.hpp:77-82 — operator[] *)
Definition bs_get (bs : bitsieve) (pos : Z) : res bool :=
  assert_ (pos <? bs_size bs) Abort ;;;
  assert_ (Z.rem pos 2 =? 0) Abort ;;;
  w <- aget (bs_words bs) (Z.shiftr pos 7) ;;
  b <- aget bs_set_bit (Z.land pos 127) ;;
  Ok (negb (Z.land w b =? 0)).
