(** Model of the sieve of Eratosthenes of lib/primesieve: the classes Wheel, SievingPrime,
    EratSmall, EratMedium, EratBig, PreSieve and Erat.

    Simplifications.  Pointers into the sieve array are indexes of it (an unbounded integer
    for a pointer past the end); every access is checked.  The memory of the buckets is
    ideal: a pointer SievingPrime* to the end of a chain of buckets is the chain itself,
    newest bucket first, so that nullptr is the empty chain; MemoryPool's allocation and
    the address arithmetic of Bucket::get and Bucket::isFull are replaced by this.
    maxPrime_ of the three sieving classes is used in assertions only and left out.  The
    capacity reserved for vectors has no effect.  isqrt is Z.sqrt (C56).  [new uint8_t[n]]
    leaves its bytes indeterminate: here they are 0. *)
From Coq Require Import ZArith List Bool.
From Verif.Base Require Import Res Word Zl Each.
From Verif.Model Require Import PsTables PsMath.
Import ListNotations.
Open Scope Z_scope.

(** lib/primesieve/include/primesieve/Bucket.hpp:32-87 — class SievingPrime:
    indexes_ and sievingPrime_ *)
Record sprime := SP { sp_idx : Z; sp_sp : Z }.
(** lib/primesieve/include/primesieve/Bucket.hpp:57-65 — SievingPrime::set *)
Definition sp_set (sp mi wi : Z) : sprime := SP (uwrap 32 (Z.lor mi (uwrap 64 (Z.shiftl wi 23)))) (uwrap 32 sp).
(** lib/primesieve/include/primesieve/Bucket.hpp:72-75 — getMultipleIndex *)
Definition sp_mi (s : sprime) : Z := Z.land (sp_idx s) (2 ^ 23 - 1).
(** lib/primesieve/include/primesieve/Bucket.hpp:77-80 — getWheelIndex *)
Definition sp_wi (s : sprime) : Z := Z.shiftr (sp_idx s) 23.

(** lib/primesieve/include/primesieve/Wheel.hpp:68-98 — Wheel::addSievingPrime up to the
    call of storeSievingPrime: [Some (multipleIndex, wheelIndex)] or a return before it.
    [modulo], [size] and [init] are the template arguments, [stop] is stop_. *)
Definition first_multiple (modulo size : Z) (init : list (Z * Z)) (stop prime segment_low : Z) : res (option (Z * Z)) :=
  let low := uwrap 64 (segment_low + 6) in
  let quotient := Z.max prime (uwrap 64 (low / prime + 1)) in
  let multiple := uwrap 64 (prime * quotient) in
  if (multiple >? stop) || (multiple <? low) then Ok None else
  ' (factor, index) <- aget init (quotient mod modulo) ;;
  let next := uwrap 64 (prime * factor) in
  if next >? uwrap 64 (stop - multiple) then Ok None else
  let next := uwrap 64 (next + uwrap 64 (multiple - low)) in
  o <- aget wheel_offsets (prime mod 30) ;;
  Ok (Some (next / 30, size * o + index)).

(** lib/primesieve/include/primesieve/Wheel.hpp:118 — sieve[i] &= mask; the same in
    src/EratSmall.cpp:116-307 and src/EratMedium.cpp:145-408 *)
Definition clear (sieve : list Z) (i mask : Z) : res (list Z) :=
  b <- aget sieve i ;; aset sieve i (Z.land b mask).

(** *** EratSmall *)
(** lib/primesieve/include/primesieve/EratSmall.hpp:26-40 — enabled_, stop_, l1CacheSize_, primes_ *)
Record esmall := ES { es_on : bool; es_stop : Z; es_l1 : Z; es_primes : list sprime }.
(** lib/primesieve/include/primesieve/EratSmall.hpp:34-37, Wheel.hpp:101 — the initial values *)
Definition esmall0 : esmall := ES false 0 0 [].
(** lib/primesieve/src/EratSmall.cpp:46-58 — EratSmall::init *)
Definition esmall_init (stop l1 : Z) (e : esmall) : esmall := ES true stop l1 (es_primes e).
(** lib/primesieve/src/EratSmall.cpp:61-66 — storeSievingPrime, called at Wheel.hpp:97 *)
Definition esmall_add (prime low : Z) (e : esmall) : res esmall :=
  r <- first_multiple 30 8 wheel30_init (es_stop e) prime low ;;
  match r with
  | None => Ok e
  | Some (mi, wi) => Ok (ES (es_on e) (es_stop e) (es_l1 e) (es_primes e ++ [sp_set (prime / 30) mi wi]))
  end.

(** lib/primesieve/src/EratSmall.cpp:32-38, 125-132 etc. — one line
    CHECK_FINISHED(w); *p &= BIT; p += sievingPrime * f + c; then on to the next line, in
    the endless loop of its eight.  [inr (p - sieveEnd, w)] when the check stops the loop;
    a w without a line is the UNREACHABLE of the switch.  The lines of src/EratMedium.cpp:35-43, 145-152 etc. have the same form. *)
Definition line (rows : list (Z * Z * Z)) (sp end_ : Z) (sieve : list Z) (p w : Z)
  : res ((list Z * Z * Z) + (list Z * (Z * Z))) :=
  ' (mask, f, c) <- aget rows w ;;
  if p >=? end_ then Ok (inr (sieve, (p - end_, w))) else
  sieve <- clear sieve p mask ;;
  Ok (inl (sieve, p + (sp * f + c), if w mod 8 =? 7 then w - 7 else w + 1)).
(** lib/primesieve/src/EratSmall.cpp:112-124 etc. — the loop that removes eight multiples
    at a time, for the class k of sievingPrime % 30 *)
Definition unrolled (k sp loop_end : Z) (sieve : list Z) (p : Z) : res (list Z * Z) :=
  ' (inc, entries) <- aget small_unrolled k ;;
  loop (fun '(sieve, p) =>
    if p <? loop_end then
      sieve <- each (fun '(f, c, mask) sieve => clear sieve (p + (sp * f + c)) mask) entries sieve ;;
      Ok (inl (sieve, p + (sp * 30 + inc)))
    else Ok (inr (sieve, p))) (sieve, p).
(** lib/primesieve/src/EratSmall.cpp:95-313 — the body of the loop over the primes, for
    the bytes [base, end_) of the sieve array *)
Definition small_prime (base end_ : Z) (s : sprime) (sieve : list Z) : res (sprime * list Z) :=
  let sp := sp_sp s in
  let dist := sp * 28 + 27 in
  let loop_end := Z.max end_ (base + dist) - dist in
  ' (sieve, (mi, wi)) <- loop (fun '(sieve, p, w) =>
      ' (sieve, p) <- (if w mod 8 =? 0 then unrolled (w / 8) sp loop_end sieve p else Ok (sieve, p)) ;;
      line small_rows sp end_ sieve p w) (sieve, base + sp_mi s, sp_wi s) ;;
  Ok (sp_set sp mi wi, sieve).
(** lib/primesieve/src/EratSmall.cpp:78-86, 93-314 — both functions crossOff *)
Definition esmall_cross (sieve : list Z) (sieve_size : Z) (e : esmall) : res (esmall * list Z) :=
  ' (primes, sieve) <- for_step 0 sieve_size (es_l1 e) (fun i '(primes, sieve) =>
      let end_ := Z.min (i + es_l1 e) sieve_size in
      each_map (small_prime i end_) primes sieve) (es_primes e, sieve) ;;
  Ok (ES (es_on e) (es_stop e) (es_l1 e) primes, sieve).

(** *** Buckets *)
(** lib/primesieve/include/primesieve/Bucket.hpp:95-148, config.hpp:28 —
    SIEVING_PRIMES_SIZE = (8192 - 16) / 8 *)
Definition bucket_size : Z := 1022.
(** lib/primesieve/include/primesieve/Bucket.hpp:32, 95 — a chain of buckets *)
Definition chain := list (list sprime).
(** lib/primesieve/src/EratMedium.cpp:39-41, 70-73, src/EratBig.cpp:66-69, 126-129,
    src/MemoryPool.cpp:31-52 — if (isFull(b)) addBucket(b); b++->set(...) *)
Definition push (s : sprime) (c : chain) : chain :=
  match c with
  | b :: c' => if zlen b >=? bucket_size then [s] :: c else (b ++ [s]) :: c'
  | [] => [[s]]
  end.
(** lib/primesieve/src/EratMedium.cpp:39-41, 70-73, EratBig.cpp:66-69, 126-129 — the same on
    the list i of an array of chains *)
Definition push_at (i : Z) (s : sprime) (bs : list chain) : res (list chain) :=
  c <- aget bs i ;; aset bs i (push s c).

(** *** EratMedium *)
(** lib/primesieve/include/primesieve/EratMedium.hpp:27-47 — enabled_, stop_, buckets_ *)
Record emedium := EM { em_on : bool; em_stop : Z; em_buckets : list chain }.
(** lib/primesieve/include/primesieve/EratMedium.hpp:34-37 — before init the 64 pointers
    are indeterminate: no bucket can be used *)
Definition emedium0 : emedium := EM false 0 [].
(** lib/primesieve/src/EratMedium.cpp:51-62 — EratMedium::init *)
Definition emedium_init (stop : Z) : emedium := EM true stop (amake 64 []).
(** lib/primesieve/src/EratMedium.cpp:65-74 — storeSievingPrime, called at Wheel.hpp:97 *)
Definition emedium_add (prime low : Z) (e : emedium) : res emedium :=
  r <- first_multiple 30 8 wheel30_init (em_stop e) prime low ;;
  match r with
  | None => Ok e
  | Some (mi, wi) =>
      bs <- push_at wi (sp_set (prime / 30) mi wi) (em_buckets e) ;;
      Ok (EM (em_on e) (em_stop e) bs)
  end.
(** lib/primesieve/src/EratMedium.cpp:129-155 etc. — one sieving prime of a bucket;
    [wi] is the wheelIndex of the bucket *)
Definition medium_prime (size wi : Z) (s : sprime) (st : list chain * list Z) : res (list chain * list Z) :=
  let '(bs, sieve) := st in
  let sp := sp_sp s in
  ' (sieve, (mi, wi')) <- loop (fun '(sieve, p, w) => line medium_rows sp size sieve p w) (sieve, sp_mi s, wi) ;;
  bs <- push_at wi' (sp_set sp mi wi') bs ;;
  Ok (bs, sieve).
(** lib/primesieve/src/EratMedium.cpp:123-412 — crossOff_7 to crossOff_31 for one bucket:
    [k] is the number of the function, the switch has the cases 8 k to 8 k + 7 *)
Definition medium_bucket (size k : Z) (b : list sprime) (st : list chain * list Z) : res (list chain * list Z) :=
  s0 <- aget b 0 ;;
  let wi := sp_wi s0 in
  if wi / 8 =? k then each (medium_prime size wi) b st else Fail UB.
(** lib/primesieve/src/EratMedium.cpp:76-120 — EratMedium::crossOff *)
Definition emedium_cross (sieve : list Z) (sieve_size : Z) (e : emedium) : res (emedium * list Z) :=
  ' (bs, sieve) <- for_ 0 64 (fun i st =>
      c <- aget (em_buckets e) i ;;
      each (medium_bucket sieve_size (i / 8)) c st) (amake 64 [], sieve) ;;
  Ok (EM (em_on e) (em_stop e) bs, sieve).

(** *** EratBig *)
(** lib/primesieve/include/primesieve/EratBig.hpp:27-42 — enabled_, stop_,
    log2SieveSize_, moduloSieveSize_, buckets_ *)
Record ebig := EB { eb_on : bool; eb_stop : Z; eb_log2 : Z; eb_mod : Z; eb_buckets : list chain }.
(** lib/primesieve/include/primesieve/EratBig.hpp:34-39 — the initial values *)
Definition ebig0 : ebig := EB false 0 0 0 [].
(** lib/primesieve/include/primesieve/Wheel.hpp:105-108 — getMaxFactor: wheel210[0] *)
Definition max_factor : Z := 10.
(** lib/primesieve/src/EratBig.cpp:37-56 — EratBig::init *)
Definition ebig_init (stop sieve_size max_prime : Z) : ebig :=
  let log2 := ilog2 sieve_size in
  let max_next := max_prime / 30 * max_factor + max_factor in
  let size := Z.shiftr (sieve_size - 1 + max_next) log2 + 1 in
  EB true stop log2 (sieve_size - 1) (amake size []).
(** lib/primesieve/src/EratBig.cpp:59-70, 123-129 — the prime goes to the chain of the
    segment of its next multiple *)
Definition big_store (sp mi wi : Z) (e : ebig) (bs : list chain) : res (list chain) :=
  push_at (Z.shiftr mi (eb_log2 e)) (sp_set sp (Z.land mi (eb_mod e)) wi) bs.
(** lib/primesieve/src/EratBig.cpp:59-70 — storeSievingPrime, called at Wheel.hpp:97 *)
Definition ebig_add (prime low : Z) (e : ebig) : res ebig :=
  r <- first_multiple 210 48 wheel210_init (eb_stop e) prime low ;;
  match r with
  | None => Ok e
  | Some (mi, wi) =>
      bs <- big_store (prime / 30) mi wi e (eb_buckets e) ;;
      Ok (EB (eb_on e) (eb_stop e) (eb_log2 e) (eb_mod e) bs)
  end.
(** lib/primesieve/include/primesieve/Wheel.hpp:113-122 — unsetBit *)
Definition unset_bit (sp : Z) (sieve : list Z) (mi wi : Z) : res (list Z * (Z * Z)) :=
  we <- aget wheel210 wi ;;
  sieve <- clear sieve mi (we_unset we) ;;
  Ok (sieve, (uwrap 64 (mi + we_factor we * sp + we_correct we), wi + we_next we)).
(** lib/primesieve/src/EratBig.cpp:108-131 — crossOff of one sieving prime of a bucket *)
Definition big_prime (e : ebig) (s : sprime) (st : list chain * list Z) : res (list chain * list Z) :=
  let '(bs, sieve) := st in
  ' (sieve, (mi, wi)) <- unset_bit (sp_sp s) sieve (sp_mi s) (sp_wi s) ;;
  bs <- big_store (sp_sp s) mi wi e bs ;;
  Ok (bs, sieve).
(** lib/primesieve/src/EratBig.cpp:96-98 — rotate left by one *)
Definition rotate1 {A} (l : list A) : list A := match l with [] => [] | a :: l => l ++ [a] end.
(** lib/primesieve/src/EratBig.cpp:76-99 — EratBig::crossOff *)
Definition ebig_cross (sieve : list Z) (e : ebig) : res (ebig * list Z) :=
  ' (bs, sieve) <- loop (fun '((bs, sieve) : list chain * list Z) =>
      c <- aget bs 0 ;;
      match c with
      | [] => Ok (inr (bs, sieve))
      | _ =>
          bs <- aset bs 0 [] ;;
          st <- each (fun b st => each (big_prime e) b st) c (bs, sieve) ;;
          Ok (inl st)
      end) (eb_buckets e, sieve) ;;
  Ok (EB (eb_on e) (eb_stop e) (eb_log2 e) (eb_mod e) (rotate1 bs), sieve).

(** *** PreSieve *)
(** lib/primesieve/include/primesieve/PreSieve.hpp:44-47 — maxPrime_, primeProduct_, size_, buffer_ *)
Record presieve := PS { ps_max : Z; ps_prod : Z; ps_size : Z; ps_buf : list Z }.
(** lib/primesieve/include/primesieve/PreSieve.hpp:44-47 — the initial values *)
Definition presieve0 : presieve := PS 0 0 0 [].
(** lib/primesieve/src/PreSieve.cpp:74-94 — PreSieve::initBuffer *)
Definition presieve_buffer (max_prime prod : Z) : res presieve :=
  let size := prod / 30 in
  let e := esmall_init (prod * 2) size esmall0 in
  e <- each (fun p e => if p <=? max_prime then esmall_add p prod e else Ok e) pre_primes e ;;
  ' (e, buf) <- esmall_cross (amake size 255) size e ;;
  Ok (PS max_prime prod size buf).
(** lib/primesieve/src/PreSieve.cpp:64-65 — lower_bound over the first four products: the
    number of leading ones below the threshold (the array is sorted) *)
Definition lower_bound_count (l : list Z) (t : Z) : Z := zlen (filter (fun x => x <? t) l).
(** lib/primesieve/src/PreSieve.cpp:55-69 — PreSieve::init *)
Definition presieve_init (start stop : Z) (ps : presieve) : res presieve :=
  let threshold := Z.max (uwrap 64 (stop - start)) (Z.sqrt stop) / 100 in
  let i := lower_bound_count (removelast pre_products) threshold in
  p <- aget pre_primes i ;;
  if p >? ps_max ps then prod <- aget pre_products i ;; presieve_buffer p prod else Ok ps.
(** lib/primesieve/src/PreSieve.cpp:97-122 — PreSieve::copy *)
Definition presieve_copy (sieve : list Z) (sieve_size low : Z) (ps : presieve) : res (list Z) :=
  if ps_prod ps =? 0 then Fail UB else
  let i := low mod ps_prod ps / 30 in
  let left := ps_size ps - i in
  if sieve_size <=? left then acopy (ps_buf ps) i sieve_size sieve 0 else
  sieve <- acopy (ps_buf ps) i left sieve 0 ;;
  ' (i, sieve) <- loop (fun '(i, sieve) =>
      if i + ps_size ps <? sieve_size then
        sieve <- acopy (ps_buf ps) 0 (ps_size ps) sieve i ;; Ok (inl (i + ps_size ps, sieve))
      else Ok (inr (i, sieve))) (left, sieve) ;;
  acopy (ps_buf ps) 0 (sieve_size - i) sieve i.

(** *** Erat *)
(** lib/primesieve/include/primesieve/Erat.hpp:94-122 — the members of class Erat; preSieve_
    is passed to the functions that use it *)
Record erat := ER {
  e_start : Z; e_stop : Z; e_size : Z; e_low : Z; e_high : Z; e_sieve : list Z;
  e_maxpre : Z; e_maxsmall : Z; e_maxmedium : Z;
  e_small : esmall; e_medium : emedium; e_big : ebig }.
(** lib/primesieve/src/Erat.cpp:55-60, include/primesieve/Erat.hpp:94-122 — constructors *)
Definition erat0 (start stop : Z) : erat := ER start stop 0 (umax 64) 0 [] 0 0 0 esmall0 emedium0 ebig0.
(** lib/primesieve/src/Erat.cpp:150-155 — byteRemainder *)
Definition byte_remainder (n : Z) : Z := let n := n mod 30 in if n <=? 6 then n + 30 else n.
(** What the processor and the floating-point unit contribute: the L1 cache size if known
    (lib/primesieve/src/Erat.cpp:132-135) and (uint64_t) (l1CacheSize * 0.175) (line 112) *)
Record cpu := CPU { cpu_l1 : option Z; cpu_small : Z -> Z }.
(** lib/primesieve/src/Erat.cpp:130-143 — getL1CacheSize *)
Definition l1_cache_size (c : cpu) (sieve_size : Z) : Z :=
  match cpu_l1 c with
  | None => sieve_size
  | Some l1 => in_between 8192 (Z.min l1 sieve_size) 4194304
  end.
(** lib/primesieve/src/Erat.cpp:97-105 — initSieve: sieveSize_ *)
Definition sieve_bytes (sieve_size : Z) : Z := in_between 8 (floor_pow2 sieve_size) 4096 * 1024.
(** lib/primesieve/src/Erat.cpp:67-121 — init, initSieve, initErat; sieveSize_ * 5.0 is exact *)
Definition erat_init (c : cpu) (start stop sieve_size : Z) (e : erat) (ps : presieve) : res (erat * presieve) :=
  if start >? stop then Ok (e, ps) else
  ps <- presieve_init start stop ps ;;
  let maxpre := ps_max ps in
  let size := sieve_bytes sieve_size in
  let low := start - byte_remainder start in
  let high := Z.min (checked_add low (size * 30 + 6)) stop in
  let sq := Z.sqrt stop in
  let l1 := l1_cache_size c size in
  let maxsmall := cpu_small c l1 in
  let maxmedium := size * 5 in
  let small := if sq >? maxpre then esmall_init stop l1 (e_small e) else e_small e in
  let medium := if sq >? maxsmall then emedium_init stop else e_medium e in
  let big := if sq >? maxmedium then ebig_init stop size sq else e_big e in
  Ok (ER start stop size low high (amake size 0) maxpre maxsmall maxmedium small medium big, ps).
(** lib/primesieve/include/primesieve/Erat.hpp:151-156 — addSievingPrime *)
Definition erat_add (prime : Z) (e : erat) : res erat :=
  let '(ER st sp sz lo hi sv mp ms mm s m b) := e in
  if prime >? mm then b <- ebig_add prime lo b ;; Ok (ER st sp sz lo hi sv mp ms mm s m b)
  else if prime >? ms then m <- emedium_add prime lo m ;; Ok (ER st sp sz lo hi sv mp ms mm s m b)
  else s <- esmall_add prime lo s ;; Ok (ER st sp sz lo hi sv mp ms mm s m b).
(** lib/primesieve/src/Erat.cpp:160-172 — preSieve *)
Definition erat_presieve (e : erat) (ps : presieve) : res (list Z) :=
  sieve <- presieve_copy (e_sieve e) (e_size e) (e_low e) ps ;;
  if e_low e <=? e_start e then
    sieve <- (if e_start e <=? e_maxpre e then aset sieve 0 255 else Ok sieve) ;;
    m <- aget unset_smaller (byte_remainder (e_start e)) ;;
    clear sieve 0 m
  else Ok sieve.
(** lib/primesieve/src/Erat.cpp:174-182 — crossOff *)
Definition erat_cross (sieve : list Z) (e : erat) : res (esmall * emedium * ebig * list Z) :=
  ' (s, sieve) <- (if es_on (e_small e) then esmall_cross sieve (e_size e) (e_small e) else Ok (e_small e, sieve)) ;;
  ' (m, sieve) <- (if em_on (e_medium e) then emedium_cross sieve (e_size e) (e_medium e) else Ok (e_medium e, sieve)) ;;
  ' (b, sieve) <- (if eb_on (e_big e) then ebig_cross sieve (e_big e) else Ok (e_big e, sieve)) ;;
  Ok (s, m, b, sieve).
(** lib/primesieve/src/Erat.cpp:145-148 — hasNextSegment *)
Definition erat_has_next (e : erat) : bool := e_low e <? e_stop e.
(** lib/primesieve/src/Erat.cpp:184-218 — sieveSegment, sieveLastSegment *)
Definition erat_segment (e : erat) (ps : presieve) : res erat :=
  let '(ER st sp sz lo hi sv mp ms mm s m b) := e in
  if hi =? sp then
    let rem := byte_remainder sp in
    let sz := uwrap 64 (uwrap 64 (sp - rem) - lo) / 30 + 1 in
    let e := ER st sp sz lo hi sv mp ms mm s m b in
    sieve <- erat_presieve e ps ;;
    ' (s, m, b, sieve) <- erat_cross sieve e ;;
    mask <- aget unset_larger rem ;;
    sieve <- clear sieve (sz - 1) mask ;;
    let bytes := (8 - sz mod 8) mod 8 in
    sieve <- for_ 0 bytes (fun i sieve => aset sieve (sz + i) 0) sieve ;;
    Ok (ER st sp sz sp hi sieve mp ms mm s m b)
  else
    sieve <- erat_presieve e ps ;;
    ' (s, m, b, sieve) <- erat_cross sieve e ;;
    let dist := sz * 30 in
    let lo := checked_add lo dist in
    let hi := Z.min (checked_add hi dist) sp in
    Ok (ER st sp sz lo hi sieve mp ms mm s m b).

(** lib/primesieve/include/primesieve/Erat.hpp:135-140 — nextPrime with a CTZ instruction;
    [ctz] is its result *)
Definition next_prime_ctz (ctz : Z -> Z) (bits low : Z) : res Z :=
  v <- aget bit_values (ctz bits) ;; Ok (uwrap 64 (low + v)).
(** lib/primesieve/include/primesieve/Erat.hpp:142-147 — nextPrime with a De Bruijn sequence *)
Definition next_prime_bruijn (bits low : Z) : res Z :=
  let debruijn := 0x3F08A4C6ACB9DBD in
  let hash := Z.shiftr (uwrap 64 (Z.lxor bits (uwrap 64 (bits - 1)) * debruijn)) 58 in
  v <- aget bruijn_bit_values hash ;; Ok (uwrap 64 (low + v)).
