(** Model of include/FactorTable.hpp and src/FactorTable.cpp.

    [tmax] is numeric_limits<T>::max() of the element type (2^16 - 1 or 2^32 - 1).
    The int64_t products and sums of the constructor and of next_multiple are checked.
    Simplifications: get_index and get_number compute in Z (their uint64_t values are
    at most their int64_t arguments); ++i on indices is unbounded; isqrt is Z.sqrt (equal by C28); the threads of the parallel loop run one after
    the other in an arbitrary order (they touch disjoint sets of elements: thread t
    only reads and writes numbers in (1 + d*t, 1 + d*(t+1)]). *)
From Coq Require Import ZArith List Bool.
From Verif.Base Require Import Res Word Zl IType.
From Verif.Model Require Import Imath Primesieve.
Import ListNotations.
Open Scope Z_scope.

(** src/FactorTable.cpp:16-26 — numbers_ *)
Definition ft_numbers : list Z :=
  [1; 11; 13; 17; 19; 23; 29; 31; 37; 41; 43; 47; 53; 59; 61; 67;
   71; 73; 79; 83; 89; 97; 101; 103; 107; 109; 113; 121; 127; 131; 137; 139;
   143; 149; 151; 157; 163; 167; 169; 173; 179; 181; 187; 191; 193; 197; 199; 209].
(** src/FactorTable.cpp:28-57 — indexes_ *)
Definition ft_indexes : list Z :=
  [(-1); 0; 0; 0; 0; 0; 0; 0; 0; 0; 0; 1; 1; 2; 2; 2;
   2; 3; 3; 4; 4; 4; 4; 5; 5; 5; 5; 5; 5; 6; 6; 7;
   7; 7; 7; 7; 7; 8; 8; 8; 8; 9; 9; 10; 10; 10; 10; 11;
   11; 11; 11; 11; 11; 12; 12; 12; 12; 12; 12; 13; 13; 14; 14; 14;
   14; 14; 14; 15; 15; 15; 15; 16; 16; 17; 17; 17; 17; 17; 17; 18;
   18; 18; 18; 19; 19; 19; 19; 19; 19; 20; 20; 20; 20; 20; 20; 20;
   20; 21; 21; 21; 21; 22; 22; 23; 23; 23; 23; 24; 24; 25; 25; 25;
   25; 26; 26; 26; 26; 26; 26; 26; 26; 27; 27; 27; 27; 27; 27; 28;
   28; 28; 28; 29; 29; 29; 29; 29; 29; 30; 30; 31; 31; 31; 31; 32;
   32; 32; 32; 32; 32; 33; 33; 34; 34; 34; 34; 34; 34; 35; 35; 35;
   35; 35; 35; 36; 36; 36; 36; 37; 37; 38; 38; 38; 38; 39; 39; 39;
   39; 39; 39; 40; 40; 41; 41; 41; 41; 41; 41; 42; 42; 42; 42; 43;
   43; 44; 44; 44; 44; 45; 45; 46; 46; 46; 46; 46; 46; 46; 46; 46;
   46; 47].

(** include/FactorTable.hpp:62-68 — get_index *)
Definition get_index (number : Z) : res Z :=
  assert_ (0 <? number) Abort ;;;
  i <- aget ft_indexes (Z.rem number 210) ;;
  Ok (48 * Z.quot number 210 + i).
(** include/FactorTable.hpp:70-75 — get_number *)
Definition get_number (index : Z) : res Z :=
  n <- aget ft_numbers (Z.rem index 48) ;;
  Ok (210 * Z.quot index 48 + n).

(** include/FactorTable.hpp:182-195 — next_multiple: the multiple and the new index *)
Definition next_multiple (prime low index : Z) : res (Z * Z) :=
  quotient <- ceil_div i64 low prime ;;
  gi <- get_index quotient ;;
  loop (fun '(i, multiple) =>
    if multiple <=? low then
      n <- get_number i ;; m <- schk 64 (prime * n) ;; Ok (inl (i + 1, m))
    else Ok (inr (multiple, i))) (Z.max index gi, 0).

(** include/FactorTable.hpp:119-131, 138-140 — the loops
    for (; multiple <= high; multiple = d * get_number(i++)) body(multiple) *)
Definition ft_walk (d high multiple i : Z) (body : Z -> list Z -> res (list Z)) (factor : list Z) : res (list Z) :=
  loop (fun '(multiple, i, factor) =>
    if multiple <=? high then
      factor <- body multiple factor ;;
      n <- get_number i ;;
      m <- schk 64 (d * n) ;;
      Ok (inl (m, i + 1, factor))
    else Ok (inr factor)) (multiple, i, factor).

(** include/FactorTable.hpp:102-142 — one iteration of the parallel loop *)
Definition ft_thread (tmax y sqrty thread_distance t : Z) (factor : list Z) : res (list Z) :=
  off <- schk 64 (thread_distance * t) ;;
  low <- schk 64 (1 + off) ;;
  lim <- schk 64 (low + thread_distance) ;;
  let high := Z.min lim y in
  g1 <- get_number 1 ;;
  loop (fun '(it, factor) =>
    let prime := next_prime it in
    ' (multiple, i) <- next_multiple prime low 1 ;;
    min_m <- schk 64 (prime * g1) ;;
    if min_m >? high then Ok (inr factor)
    else
      factor <- ft_walk prime high multiple i (fun m factor =>
        mi <- get_index m ;;
        v <- aget factor mi ;;
        if v =? tmax then aset factor mi (Z.land prime tmax)
        else if negb (v =? 0) then aset factor mi (Z.lxor v 1)
        else Ok factor) factor ;;
      factor <- (if prime <=? sqrty then
        square <- schk 64 (prime * prime) ;;
        ' (multiple, j) <- next_multiple square low 0 ;;
        ft_walk square high multiple j (fun m factor => mi <- get_index m ;; aset factor mi 0) factor
      else Ok factor) ;;
      Ok (inl (prime, factor))) (g1 - 1, factor).

(** include/FactorTable.hpp:171-175 — max() *)
Definition ft_max (tmax : Z) : Z := (tmax - 1) ^ 2 - 1.

(** include/FactorTable.hpp:87-144 — the constructor; [order n] is the order in which
    the iterations 0 .. n-1 of the parallel loop run *)
Definition FactorTable (tmax y threads : Z) (order : Z -> list Z) : res (list Z) :=
  if y >? ft_max tmax then Fail Throw
  else
    let y := Z.max 8 y in
    gi <- get_index y ;;
    let sqrty := Z.sqrt y in
    let threads := ideal_num_threads threads y (10 ^ 7) in
    thread_distance <- ceil_div i64 y threads ;;
    fold_left (fun f t => factor <- f ;; ft_thread tmax y sqrty thread_distance t factor)
      (order threads) (Ok (amake (gi + 1) tmax)).

(** include/FactorTable.hpp:156-159 — lpf *)
Definition ft_lpf (factor : list Z) (index : Z) : res Z := aget factor index.
(** include/FactorTable.hpp:165-169 — mu *)
Definition ft_mu (factor : list Z) (index : Z) : res Z :=
  v <- aget factor index ;;
  assert_ (negb (v =? 0)) Abort ;;;
  Ok (if Z.land v 1 =? 0 then 1 else -1).
