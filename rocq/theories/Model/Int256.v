(** Model of include/int256_t.hpp (256-bit signed integers made of two
    unsigned 128-bit words) and of the 128-bit printing in include/int128_t.hpp. *)
From Coq Require Import ZArith List Bool Ascii.
From Verif.Base Require Import Res Word.
Import ListNotations.
Open Scope Z_scope.

(** include/int256_t.hpp:470-471 — data members [low], [high] (uint128_t). *)
Record i256 := mk256 { low : Z; high : Z }.

(** include/int256_t.hpp:470-471 — type invariant of the members: both are uint128_t values. *)
Definition wf256 (a : i256) : Prop := 0 <= low a < 2 ^ 128 /\ 0 <= high a < 2 ^ 128.

(** include/int256_t.hpp:41-45 — int256_t(T x) for any native integer x. *)
Definition of_native (x : Z) : i256 :=
  mk256 (uwrap 128 x) (if x <? 0 then 2 ^ 128 - 1 else 0).

(** include/int256_t.hpp:47-51 — operator== *)
Definition eq256 (a b : i256) : bool := (low a =? low b) && (high a =? high b).

(** include/int256_t.hpp:53-56 — operator!= *)
Definition ne256 (a b : i256) : bool := negb (eq256 a b).

(** include/int256_t.hpp:58-64 — operator<; the conversion uint128_t -> int128_t
    of the high words is two's complement (gcc/clang). *)
Definition lt256 (a b : i256) : bool :=
  let hi1 := swrap 128 (high a) in
  let hi2 := swrap 128 (high b) in
  (hi1 <? hi2) || ((hi1 =? hi2) && (low a <? low b)).

(** include/int256_t.hpp:66-69 — operator<= *)
Definition le256 (a b : i256) : bool := negb (lt256 b a).
(** include/int256_t.hpp:71-74 — operator> *)
Definition gt256 (a b : i256) : bool := lt256 b a.
(** include/int256_t.hpp:76-79 — operator>= *)
Definition ge256 (a b : i256) : bool := negb (lt256 a b).

(** include/int256_t.hpp:93-96 — operator~ *)
Definition not256 (a : i256) : i256 :=
  mk256 (2 ^ 128 - 1 - low a) (2 ^ 128 - 1 - high a).

(** include/int256_t.hpp:107-114 — operator++ *)
Definition inc256 (a : i256) : i256 :=
  let l := uwrap 128 (low a + 1) in
  mk256 l (if l =? 0 then uwrap 128 (high a + 1) else high a).

(** include/int256_t.hpp:98-105 — operator-- *)
Definition dec256 (a : i256) : i256 :=
  let h := if low a =? 0 then uwrap 128 (high a - 1) else high a in
  mk256 (uwrap 128 (low a - 1)) h.

(** include/int256_t.hpp:86-91 — unary operator- *)
Definition neg256 (a : i256) : i256 := inc256 (not256 a).

(** include/int256_t.hpp:130-141 — operator+ *)
Definition add256 (a b : i256) : i256 :=
  let h := uwrap 128 (high a + high b) in
  let l := uwrap 128 (low a + low b) in
  mk256 l (if l <? low b then uwrap 128 (h + 1) else h).

(** include/int256_t.hpp:143-154 — operator- *)
Definition sub256 (a b : i256) : i256 :=
  let h := uwrap 128 (high a - high b) in
  let l := uwrap 128 (low a - low b) in
  mk256 l (if l >? low a then uwrap 128 (h - 1) else h).

(** include/int256_t.hpp:158 — max64 *)
Definition max64 : Z := 2 ^ 64 - 1.

(** include/int256_t.hpp:162 — [~h == 0] for a uint128_t h *)
Definition all_ones (h : Z) : bool := (2 ^ 128 - 1 - h) =? 0.

(** include/int256_t.hpp:160-163 — condition of the fast path of operator* *)
Definition mul_fast_cond (a b : i256) : bool :=
  (low a <=? max64) && (low b <=? max64) &&
  (((high a =? 0) || all_ones (high a)) && ((high b =? 0) || all_ones (high b))).

(** include/int256_t.hpp:165-166 — fast path of operator* *)
Definition mul_fast (a b : i256) : i256 :=
  mk256 (uwrap 128 (low a * low b))
        (if high a =? high b then 0 else uwrap 128 (-1)).

(** include/int256_t.hpp:170-182 — general path of operator*; the shifts by 64
    of 128-bit words are always defined. *)
Definition mul_slow (a b : i256) : i256 :=
  let al := Z.land (low a) max64 in
  let ah := Z.shiftr (low a) 64 in
  let bl := Z.land (low b) max64 in
  let bh := Z.shiftr (low b) 64 in
  let x := uwrap 128 (al * bl) in
  let y := uwrap 128 (al * bh) in
  let z := uwrap 128 (ah * bl) in
  let w := uwrap 128 (ah * bh) in
  add256
    (add256 (mk256 (uwrap 128 (Z.shiftl y 64)) (Z.shiftr y 64))
            (mk256 (uwrap 128 (Z.shiftl z 64)) (Z.shiftr z 64)))
    (mk256 x (uwrap 128 (uwrap 128 (w + uwrap 128 (low a * high b)) + uwrap 128 (high a * low b)))).

(** include/int256_t.hpp:156-184 — operator* *)
Definition mul256 (a b : i256) : i256 :=
  if mul_fast_cond a b then mul_fast a b else mul_slow a b.

(** include/int256_t.hpp:196-212 — operator&, |, ^ *)
Definition and256 (a b : i256) : i256 := mk256 (Z.land (low a) (low b)) (Z.land (high a) (high b)).
(** include/int256_t.hpp:202-206 — operator| *)
Definition or256 (a b : i256) : i256 := mk256 (Z.lor (low a) (low b)) (Z.lor (high a) (high b)).
(** include/int256_t.hpp:208-212 — operator^ *)
Definition xor256 (a b : i256) : i256 := mk256 (Z.lxor (low a) (low b)) (Z.lxor (high a) (high b)).

(** include/int256_t.hpp:214-220 — operator<< (shifting a 128-bit word by a
    count outside 0..127 is undefined behaviour, so [bits = 0] is too). *)
Definition shl256 (a : i256) (bits : Z) : res i256 :=
  if bits >=? 128 then
    h <- ushl 128 (low a) (bits - 128) ;; Ok (mk256 0 h)
  else
    l <- ushl 128 (low a) bits ;;
    h1 <- ushl 128 (high a) bits ;;
    h2 <- ushr 128 (low a) (128 - bits) ;;
    Ok (mk256 l (Z.lor h1 h2)).

(** include/int256_t.hpp:222-228 — operator>> (unsigned words: logical shift) *)
Definition shr256 (a : i256) (bits : Z) : res i256 :=
  if bits >=? 128 then
    l <- ushr 128 (high a) (bits - 128) ;; Ok (mk256 l 0)
  else
    l1 <- ushr 128 (low a) bits ;;
    l2 <- ushl 128 (high a) (128 - bits) ;;
    h <- ushr 128 (high a) bits ;;
    Ok (mk256 (Z.lor l1 l2) h).

(** include/int256_t.hpp:402-440 — conversion operators to int8_t .. int128_t
    ([n] = width).  For a negative number the narrowed magnitude is negated; the
    negation is done in [int] (32 bits) for 8 and 16 bit types (integer
    promotion), in the type itself otherwise, where overflow is undefined; the
    return converts back to the type. *)
Definition to_signed (n : Z) (a : i256) : res Z :=
  if lt256 a (of_native 0) then
    let m := Z.lxor (uwrap 128 (low a - 1)) (2 ^ 128 - 1) in
    r <- schk (Z.max n 32) (- swrap n m) ;;
    Ok (swrap n r)
  else Ok (swrap n (low a)).

(** include/int256_t.hpp:442-465 — conversion operators to uint8_t .. uint128_t *)
Definition to_unsigned (n : Z) (a : i256) : Z := uwrap n (low a).

(** include/int256_t.hpp:479-482 — min_value() *)
Definition min_value : i256 := mk256 0 (2 ^ 127).

(** include/int256_t.hpp:490-496 — get_bit *)
Definition get_bit (a : i256) (bit : Z) : res bool :=
  if bit >=? 128 then
    v <- ushr 128 (high a) (bit - 128) ;; Ok (negb (Z.land v 1 =? 0))
  else
    v <- ushr 128 (low a) bit ;; Ok (negb (Z.land v 1 =? 0)).

(** include/int256_t.hpp:498-521 — set_bit *)
Definition set_bit (a : i256) (bit : Z) (value : bool) : res i256 :=
  if bit >=? 256 then Ok a
  else if bit >=? 128 then
    mask <- ushl 128 1 (bit - 128) ;;
    Ok (mk256 (low a) (if value then Z.lor (high a) mask
                       else Z.land (high a) (2 ^ 128 - 1 - mask)))
  else
    mask <- ushl 128 1 bit ;;
    Ok (mk256 (if value then Z.lor (low a) mask
               else Z.land (low a) (2 ^ 128 - 1 - mask)) (high a)).

(** include/int256_t.hpp:523-535 — find_most_significant_bit *)
Definition find_msb (a : i256) : res Z :=
  loop (fun st : i256 * Z =>
          let '(x, pos) := st in
          if ne256 x (of_native 0) then
            x' <- shr256 x 1 ;; Ok (inl (x', pos + 1))
          else Ok (inr pos))
       (a, 0).

(** include/int256_t.hpp:571-581 — one iteration of the long division *)
Definition udiv_step (a other : i256) (i : Z) (st : i256 * i256) : res (i256 * i256) :=
  let '(q, r) := st in
  r1 <- shl256 r 1 ;;
  b <- get_bit a i ;;
  r2 <- set_bit r1 0 b ;;
  if ge256 r2 other then
    q' <- set_bit q i true ;;
    Ok (q', sub256 r2 other)
  else Ok (q, r2).

(** include/int256_t.hpp:537-584 — udiv256; abort() on division by zero *)
Definition udiv256 (a other : i256) : res (i256 * i256) :=
  let zero := of_native 0 in
  let one := of_native 1 in
  if eq256 other (of_native 0) then Fail Abort
  else if eq256 other (of_native 1) then Ok (a, zero)
  else if eq256 a other then Ok (one, zero)
  else if eq256 a (of_native 0) || (ne256 a min_value && lt256 a other) then Ok (zero, a)
  else if (high a =? 0) && (high other =? 0) then
    Ok (mk256 (low a / low other) 0, mk256 (low a mod low other) 0)
  else
    m <- find_msb a ;;
    loop (fun st : Z * (i256 * i256) =>
            let '(i, qr) := st in
            if (i >=? 0) && (i <=? 256) then
              qr' <- udiv_step a other i qr ;; Ok (inl (i - 1, qr'))
            else Ok (inr qr))
         (m, (of_native 0, of_native 0)).

(** include/int256_t.hpp:586-614 — div256 *)
Definition div256 (a other : i256) : res (i256 * i256) :=
  if lt256 a (of_native 0) then
    let x := neg256 a in
    if lt256 other (of_native 0) then
      '(q, r) <- udiv256 x (neg256 other) ;; Ok (q, neg256 r)
    else
      '(q, r) <- udiv256 x other ;; Ok (neg256 q, neg256 r)
  else
    if lt256 other (of_native 0) then
      '(q, r) <- udiv256 a (neg256 other) ;; Ok (neg256 q, r)
    else udiv256 a other.

(** include/int256_t.hpp:186-194 — operator/ and operator% *)
Definition quot256 (a b : i256) : res i256 := qr <- div256 a b ;; Ok (fst qr).
(** include/int256_t.hpp:191-194 — operator% *)
Definition rem256 (a b : i256) : res i256 := qr <- div256 a b ;; Ok (snd qr).

(** '0' + d as a char (include/int256_t.hpp:629, include/int128_t.hpp:41). *)
Definition digit_char (d : Z) : ascii := ascii_of_N (Z.to_N (48 + d)).

(** include/int256_t.hpp:627-631 — digit loop, least significant digit first *)
Definition digits256 (n : i256) : res (list ascii) :=
  loop (fun st : i256 * list ascii =>
          let '(n, str) := st in
          if gt256 n (of_native 0) then
            r <- rem256 n (of_native 10) ;;
            d <- to_signed 8 r ;;
            n' <- quot256 n (of_native 10) ;;
            Ok (inl (n', str ++ [digit_char d]))
          else Ok (inr str))
       (n, []).

(** include/int256_t.hpp:617-639 — operator<<(ostream, int256_t) *)
Definition print256 (n : i256) : res (list ascii) :=
  let negative := lt256 n (of_native 0) in
  let n' := if negative then neg256 n else n in
  str <- digits256 n' ;;
  let str' := match str with [] => ["0"%char] | _ => str end in
  Ok ((if negative then ["-"%char] else []) ++ rev str').

(** include/int128_t.hpp:35-49 — operator<<(ostream, uint128_t) *)
Definition print_u128 (n : Z) : res (list ascii) :=
  str <- loop (fun st : Z * list ascii =>
          let '(n, str) := st in
          if n >? 0 then Ok (inl (n / 10, str ++ [digit_char (n mod 10)]))
          else Ok (inr str)) (n, []) ;;
  Ok (rev (match str with [] => ["0"%char] | _ => str end)).

(** include/int128_t.hpp:51-60 — operator<<(ostream, int128_t); negating the
    minimum is a signed overflow. *)
Definition print_s128 (n : Z) : res (list ascii) :=
  if n <? 0 then
    n' <- schk 128 (- n) ;;
    s <- print_u128 (uwrap 128 n') ;; Ok ("-"%char :: s)
  else print_u128 (uwrap 128 n).
