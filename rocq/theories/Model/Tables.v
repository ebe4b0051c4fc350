(** Model of src/generate.cpp and of the tables of include/generate.hpp.
    isqrt is replaced by Z.sqrt, which it equals by C28. *)
From Coq Require Import ZArith List Bool Lia.
From Verif.Base Require Import Res Word Zl.
From Verif.Model Require Import Primesieve.
Import ListNotations.
Open Scope Z_scope.

(** src/generate.cpp:45-66 — generate_pi.  sieve: vector<char>, pi: vector<int32_t> *)
Definition generate_pi (max : Z) : res (list Z) :=
  let sqrt := Z.sqrt max in
  let size := max + 1 in
  sieve <- for_ 2 (sqrt + 1) (fun i sieve =>
    s <- aget sieve i ;;
    if negb (s =? 0) then
      for_step (i * i) size i (fun j sieve => aset sieve j 0) sieve
    else Ok sieve) (amake size 1) ;;
  r <- for_ 2 size (fun i (st : list Z * Z) =>
    let '(pi, pix) := st in
    s <- aget sieve i ;;
    pix <- schk 32 (pix + s) ;;
    pi <- aset pi i pix ;;
    Ok (pi, pix)) (amake size 0, 0) ;;
  Ok (fst r).

(** src/generate.cpp:72-102 — generate_moebius, int32_t arithmetic checked *)
Definition generate_moebius (max : Z) : res (list Z) :=
  let sqrt := Z.sqrt max in
  let size := max + 1 in
  mu <- for_ 2 (sqrt + 1) (fun i mu =>
    m <- aget mu i ;;
    if m =? 1 then
      mu <- for_step i size i (fun j mu =>
              v <- aget mu j ;; w <- schk 32 (v * swrap 32 (- i)) ;; aset mu j w) mu ;;
      for_step (i * i) size (i * i) (fun j mu => aset mu j 0) mu
    else Ok mu) (amake size 1) ;;
  for_ 2 size (fun i mu =>
    v <- aget mu i ;;
    if v =? i then aset mu i 1
    else if v =? - i then aset mu i (-1)
    else if v <? 0 then aset mu i 1
    else if v >? 0 then aset mu i (-1)
    else Ok mu) mu.

(** src/generate.cpp:107-130 — generate_lpf *)
Definition generate_lpf (max : Z) : res (list Z) :=
  let sqrt := Z.sqrt max in
  let size := max + 1 in
  lpf <- for_ 2 (sqrt + 1) (fun i lpf =>
    v <- aget lpf i ;;
    if v =? 1 then
      for_step (i * i) size i (fun j lpf =>
        w <- aget lpf j ;;
        if w =? 1 then aset lpf j (swrap 32 i) else Ok lpf) lpf
    else Ok lpf) (amake size 1) ;;
  lpf <- for_ 2 size (fun i lpf =>
    v <- aget lpf i ;;
    if v =? 1 then aset lpf i (swrap 32 i) else Ok lpf) lpf ;;
  if zlen lpf >? 1 then aset lpf 1 (smax 32) else Ok lpf.

(** include/generate.hpp:34-44 — generate_prime_sums<T> *)
Definition generate_prime_sums (max : Z) : res (list Z) :=
  let primes := generate_primes max in
  for_ 1 (zlen primes) (fun i l =>
    a <- aget l i ;; b <- aget l (i - 1) ;; aset l i (a + b)) primes.
