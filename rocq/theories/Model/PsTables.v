(** Tables of lib/primesieve: bit masks, wheels, and the constants of the
    unrolled loops that cross off multiples. *)
From Coq Require Import ZArith List.
Import ListNotations.
Open Scope Z_scope.

(** lib/primesieve/include/primesieve/bits.hpp:14-24 — BIT0 .. BIT7 *)
Definition BIT0 : Z := 254.
(** lib/primesieve/include/primesieve/bits.hpp:16 *)
Definition BIT1 : Z := 253.
(** lib/primesieve/include/primesieve/bits.hpp:17 *)
Definition BIT2 : Z := 251.
(** lib/primesieve/include/primesieve/bits.hpp:18 *)
Definition BIT3 : Z := 247.
(** lib/primesieve/include/primesieve/bits.hpp:19 *)
Definition BIT4 : Z := 239.
(** lib/primesieve/include/primesieve/bits.hpp:20 *)
Definition BIT5 : Z := 223.
(** lib/primesieve/include/primesieve/bits.hpp:21 *)
Definition BIT6 : Z := 191.
(** lib/primesieve/include/primesieve/bits.hpp:22 *)
Definition BIT7 : Z := 127.

(** lib/primesieve/src/LookupTables.cpp:28-38 — bitValues *)
Definition bit_values : list Z :=
  [
   7; 11; 13; 17; 19; 23; 29; 31; 37; 41; 43; 47; 49; 53; 59; 61;
   67; 71; 73; 77; 79; 83; 89; 91; 97; 101; 103; 107; 109; 113; 119; 121;
   127; 131; 133; 137; 139; 143; 149; 151; 157; 161; 163; 167; 169; 173; 179; 181;
   187; 191; 193; 197; 199; 203; 209; 211; 217; 221; 223; 227; 229; 233; 239; 241
  ].

(** lib/primesieve/src/LookupTables.cpp:46-56 — bruijnBitValues *)
Definition bruijn_bit_values : list Z :=
  [
   7; 47; 11; 49; 67; 113; 13; 53; 89; 71; 161; 101; 119; 187; 17; 233;
   59; 79; 91; 73; 133; 139; 163; 103; 149; 121; 203; 169; 191; 217; 19; 239;
   43; 61; 109; 83; 157; 97; 181; 229; 77; 131; 137; 143; 199; 167; 211; 41;
   107; 151; 179; 227; 127; 197; 209; 37; 173; 223; 193; 31; 221; 29; 23; 241
  ].

(** lib/primesieve/src/LookupTables.cpp:61-67 — wheel30Init: (nextMultipleFactor, wheelIndex) *)
Definition wheel30_init : list (Z * Z) :=
  [
   (1, 0); (0, 0); (5, 1); (4, 1); (3, 1); (2, 1); (1, 1); (0, 1); (3, 2); (2, 2);
   (1, 2); (0, 2); (1, 3); (0, 3); (3, 4); (2, 4); (1, 4); (0, 4); (1, 5); (0, 5);
   (3, 6); (2, 6); (1, 6); (0, 6); (5, 7); (4, 7); (3, 7); (2, 7); (1, 7); (0, 7)
  ].

(** lib/primesieve/src/LookupTables.cpp:72-101 — wheel210Init: (nextMultipleFactor, wheelIndex) *)
Definition wheel210_init : list (Z * Z) :=
  [
   (1, 0); (0, 0); (9, 1); (8, 1); (7, 1); (6, 1); (5, 1); (4, 1); (3, 1); (2, 1);
   (1, 1); (0, 1); (1, 2); (0, 2); (3, 3); (2, 3); (1, 3); (0, 3); (1, 4); (0, 4);
   (3, 5); (2, 5); (1, 5); (0, 5); (5, 6); (4, 6); (3, 6); (2, 6); (1, 6); (0, 6);
   (1, 7); (0, 7); (5, 8); (4, 8); (3, 8); (2, 8); (1, 8); (0, 8); (3, 9); (2, 9);
   (1, 9); (0, 9); (1, 10); (0, 10); (3, 11); (2, 11); (1, 11); (0, 11); (5, 12); (4, 12);
   (3, 12); (2, 12); (1, 12); (0, 12); (5, 13); (4, 13); (3, 13); (2, 13); (1, 13); (0, 13);
   (1, 14); (0, 14); (5, 15); (4, 15); (3, 15); (2, 15); (1, 15); (0, 15); (3, 16); (2, 16);
   (1, 16); (0, 16); (1, 17); (0, 17); (5, 18); (4, 18); (3, 18); (2, 18); (1, 18); (0, 18);
   (3, 19); (2, 19); (1, 19); (0, 19); (5, 20); (4, 20); (3, 20); (2, 20); (1, 20); (0, 20);
   (7, 21); (6, 21); (5, 21); (4, 21); (3, 21); (2, 21); (1, 21); (0, 21); (3, 22); (2, 22);
   (1, 22); (0, 22); (1, 23); (0, 23); (3, 24); (2, 24); (1, 24); (0, 24); (1, 25); (0, 25);
   (3, 26); (2, 26); (1, 26); (0, 26); (7, 27); (6, 27); (5, 27); (4, 27); (3, 27); (2, 27);
   (1, 27); (0, 27); (5, 28); (4, 28); (3, 28); (2, 28); (1, 28); (0, 28); (3, 29); (2, 29);
   (1, 29); (0, 29); (5, 30); (4, 30); (3, 30); (2, 30); (1, 30); (0, 30); (1, 31); (0, 31);
   (3, 32); (2, 32); (1, 32); (0, 32); (5, 33); (4, 33); (3, 33); (2, 33); (1, 33); (0, 33);
   (1, 34); (0, 34); (5, 35); (4, 35); (3, 35); (2, 35); (1, 35); (0, 35); (5, 36); (4, 36);
   (3, 36); (2, 36); (1, 36); (0, 36); (3, 37); (2, 37); (1, 37); (0, 37); (1, 38); (0, 38);
   (3, 39); (2, 39); (1, 39); (0, 39); (5, 40); (4, 40); (3, 40); (2, 40); (1, 40); (0, 40);
   (1, 41); (0, 41); (5, 42); (4, 42); (3, 42); (2, 42); (1, 42); (0, 42); (3, 43); (2, 43);
   (1, 43); (0, 43); (1, 44); (0, 44); (3, 45); (2, 45); (1, 45); (0, 45); (1, 46); (0, 46);
   (9, 47); (8, 47); (7, 47); (6, 47); (5, 47); (4, 47); (3, 47); (2, 47); (1, 47); (0, 47)
  ].

(** lib/primesieve/include/primesieve/Wheel.hpp:35-49 — WheelElement *)
Record wheel_element := WE { we_unset : Z; we_factor : Z; we_correct : Z; we_next : Z }.

(** lib/primesieve/src/LookupTables.cpp:103-121 — wheel30 *)
Definition wheel30 : list wheel_element :=
  [
   WE BIT0 6 1 1; WE BIT4 4 1 1; WE BIT3 2 0 1; WE BIT7 4 1 1; WE BIT6 2 1 1; WE BIT2 4 1 1; WE BIT1 6 1 1; WE BIT5 2 1 (-7);
   WE BIT1 6 2 1; WE BIT3 4 1 1; WE BIT7 2 1 1; WE BIT5 4 2 1; WE BIT0 2 0 1; WE BIT6 4 2 1; WE BIT2 6 2 1; WE BIT4 2 1 (-7);
   WE BIT2 6 2 1; WE BIT7 4 2 1; WE BIT5 2 1 1; WE BIT4 4 2 1; WE BIT1 2 1 1; WE BIT0 4 1 1; WE BIT6 6 3 1; WE BIT3 2 1 (-7);
   WE BIT3 6 3 1; WE BIT6 4 3 1; WE BIT0 2 1 1; WE BIT1 4 2 1; WE BIT4 2 1 1; WE BIT5 4 2 1; WE BIT7 6 4 1; WE BIT2 2 1 (-7);
   WE BIT4 6 4 1; WE BIT2 4 2 1; WE BIT6 2 2 1; WE BIT0 4 2 1; WE BIT5 2 1 1; WE BIT7 4 3 1; WE BIT3 6 4 1; WE BIT1 2 1 (-7);
   WE BIT5 6 5 1; WE BIT1 4 3 1; WE BIT2 2 1 1; WE BIT6 4 3 1; WE BIT7 2 2 1; WE BIT3 4 3 1; WE BIT4 6 5 1; WE BIT0 2 1 (-7);
   WE BIT6 6 6 1; WE BIT5 4 4 1; WE BIT4 2 2 1; WE BIT3 4 4 1; WE BIT2 2 2 1; WE BIT1 4 4 1; WE BIT0 6 5 1; WE BIT7 2 2 (-7);
   WE BIT7 6 1 1; WE BIT0 4 0 1; WE BIT1 2 0 1; WE BIT2 4 0 1; WE BIT3 2 0 1; WE BIT4 4 0 1; WE BIT5 6 0 1; WE BIT6 2 0 (-7)
  ].

(** lib/primesieve/src/LookupTables.cpp:123-221 — wheel210 *)
Definition wheel210 : list wheel_element :=
  [
   WE BIT0 10 2 1; WE BIT3 2 0 1; WE BIT7 4 1 1; WE BIT6 2 1 1; WE BIT2 4 1 1; WE BIT1 6 1 1; WE BIT5 2 1 1; WE BIT0 6 1 1;
   WE BIT4 4 1 1; WE BIT3 2 0 1; WE BIT7 4 1 1; WE BIT6 6 2 1; WE BIT1 6 1 1; WE BIT5 2 1 1; WE BIT0 6 1 1; WE BIT4 4 1 1;
   WE BIT3 2 0 1; WE BIT7 6 2 1; WE BIT2 4 1 1; WE BIT1 6 1 1; WE BIT5 8 2 1; WE BIT4 4 1 1; WE BIT3 2 0 1; WE BIT7 4 1 1;
   WE BIT6 2 1 1; WE BIT2 4 1 1; WE BIT1 8 2 1; WE BIT0 6 1 1; WE BIT4 4 1 1; WE BIT3 6 1 1; WE BIT6 2 1 1; WE BIT2 4 1 1;
   WE BIT1 6 1 1; WE BIT5 2 1 1; WE BIT0 6 1 1; WE BIT4 6 1 1; WE BIT7 4 1 1; WE BIT6 2 1 1; WE BIT2 4 1 1; WE BIT1 6 1 1;
   WE BIT5 2 1 1; WE BIT0 6 1 1; WE BIT4 4 1 1; WE BIT3 2 0 1; WE BIT7 4 1 1; WE BIT6 2 1 1; WE BIT2 10 2 1; WE BIT5 2 1 (-47);
   WE BIT1 10 3 1; WE BIT7 2 1 1; WE BIT5 4 2 1; WE BIT0 2 0 1; WE BIT6 4 2 1; WE BIT2 6 2 1; WE BIT4 2 1 1; WE BIT1 6 2 1;
   WE BIT3 4 1 1; WE BIT7 2 1 1; WE BIT5 4 2 1; WE BIT0 6 2 1; WE BIT2 6 2 1; WE BIT4 2 1 1; WE BIT1 6 2 1; WE BIT3 4 1 1;
   WE BIT7 2 1 1; WE BIT5 6 2 1; WE BIT6 4 2 1; WE BIT2 6 2 1; WE BIT4 8 3 1; WE BIT3 4 1 1; WE BIT7 2 1 1; WE BIT5 4 2 1;
   WE BIT0 2 0 1; WE BIT6 4 2 1; WE BIT2 8 3 1; WE BIT1 6 2 1; WE BIT3 4 1 1; WE BIT7 6 3 1; WE BIT0 2 0 1; WE BIT6 4 2 1;
   WE BIT2 6 2 1; WE BIT4 2 1 1; WE BIT1 6 2 1; WE BIT3 6 2 1; WE BIT5 4 2 1; WE BIT0 2 0 1; WE BIT6 4 2 1; WE BIT2 6 2 1;
   WE BIT4 2 1 1; WE BIT1 6 2 1; WE BIT3 4 1 1; WE BIT7 2 1 1; WE BIT5 4 2 1; WE BIT0 2 0 1; WE BIT6 10 4 1; WE BIT4 2 1 (-47);
   WE BIT2 10 4 1; WE BIT5 2 1 1; WE BIT4 4 2 1; WE BIT1 2 1 1; WE BIT0 4 1 1; WE BIT6 6 3 1; WE BIT3 2 1 1; WE BIT2 6 2 1;
   WE BIT7 4 2 1; WE BIT5 2 1 1; WE BIT4 4 2 1; WE BIT1 6 2 1; WE BIT6 6 3 1; WE BIT3 2 1 1; WE BIT2 6 2 1; WE BIT7 4 2 1;
   WE BIT5 2 1 1; WE BIT4 6 3 1; WE BIT0 4 1 1; WE BIT6 6 3 1; WE BIT3 8 3 1; WE BIT7 4 2 1; WE BIT5 2 1 1; WE BIT4 4 2 1;
   WE BIT1 2 1 1; WE BIT0 4 1 1; WE BIT6 8 4 1; WE BIT2 6 2 1; WE BIT7 4 2 1; WE BIT5 6 3 1; WE BIT1 2 1 1; WE BIT0 4 1 1;
   WE BIT6 6 3 1; WE BIT3 2 1 1; WE BIT2 6 2 1; WE BIT7 6 3 1; WE BIT4 4 2 1; WE BIT1 2 1 1; WE BIT0 4 1 1; WE BIT6 6 3 1;
   WE BIT3 2 1 1; WE BIT2 6 2 1; WE BIT7 4 2 1; WE BIT5 2 1 1; WE BIT4 4 2 1; WE BIT1 2 1 1; WE BIT0 10 4 1; WE BIT3 2 1 (-47);
   WE BIT3 10 6 1; WE BIT0 2 1 1; WE BIT1 4 2 1; WE BIT4 2 1 1; WE BIT5 4 2 1; WE BIT7 6 4 1; WE BIT2 2 1 1; WE BIT3 6 3 1;
   WE BIT6 4 3 1; WE BIT0 2 1 1; WE BIT1 4 2 1; WE BIT4 6 3 1; WE BIT7 6 4 1; WE BIT2 2 1 1; WE BIT3 6 3 1; WE BIT6 4 3 1;
   WE BIT0 2 1 1; WE BIT1 6 3 1; WE BIT5 4 2 1; WE BIT7 6 4 1; WE BIT2 8 4 1; WE BIT6 4 3 1; WE BIT0 2 1 1; WE BIT1 4 2 1;
   WE BIT4 2 1 1; WE BIT5 4 2 1; WE BIT7 8 5 1; WE BIT3 6 3 1; WE BIT6 4 3 1; WE BIT0 6 3 1; WE BIT4 2 1 1; WE BIT5 4 2 1;
   WE BIT7 6 4 1; WE BIT2 2 1 1; WE BIT3 6 3 1; WE BIT6 6 4 1; WE BIT1 4 2 1; WE BIT4 2 1 1; WE BIT5 4 2 1; WE BIT7 6 4 1;
   WE BIT2 2 1 1; WE BIT3 6 3 1; WE BIT6 4 3 1; WE BIT0 2 1 1; WE BIT1 4 2 1; WE BIT4 2 1 1; WE BIT5 10 6 1; WE BIT2 2 1 (-47);
   WE BIT4 10 6 1; WE BIT6 2 2 1; WE BIT0 4 2 1; WE BIT5 2 1 1; WE BIT7 4 3 1; WE BIT3 6 4 1; WE BIT1 2 1 1; WE BIT4 6 4 1;
   WE BIT2 4 2 1; WE BIT6 2 2 1; WE BIT0 4 2 1; WE BIT5 6 4 1; WE BIT3 6 4 1; WE BIT1 2 1 1; WE BIT4 6 4 1; WE BIT2 4 2 1;
   WE BIT6 2 2 1; WE BIT0 6 3 1; WE BIT7 4 3 1; WE BIT3 6 4 1; WE BIT1 8 5 1; WE BIT2 4 2 1; WE BIT6 2 2 1; WE BIT0 4 2 1;
   WE BIT5 2 1 1; WE BIT7 4 3 1; WE BIT3 8 5 1; WE BIT4 6 4 1; WE BIT2 4 2 1; WE BIT6 6 4 1; WE BIT5 2 1 1; WE BIT7 4 3 1;
   WE BIT3 6 4 1; WE BIT1 2 1 1; WE BIT4 6 4 1; WE BIT2 6 4 1; WE BIT0 4 2 1; WE BIT5 2 1 1; WE BIT7 4 3 1; WE BIT3 6 4 1;
   WE BIT1 2 1 1; WE BIT4 6 4 1; WE BIT2 4 2 1; WE BIT6 2 2 1; WE BIT0 4 2 1; WE BIT5 2 1 1; WE BIT7 10 7 1; WE BIT1 2 1 (-47);
   WE BIT5 10 8 1; WE BIT2 2 1 1; WE BIT6 4 3 1; WE BIT7 2 2 1; WE BIT3 4 3 1; WE BIT4 6 5 1; WE BIT0 2 1 1; WE BIT5 6 5 1;
   WE BIT1 4 3 1; WE BIT2 2 1 1; WE BIT6 4 3 1; WE BIT7 6 5 1; WE BIT4 6 5 1; WE BIT0 2 1 1; WE BIT5 6 5 1; WE BIT1 4 3 1;
   WE BIT2 2 1 1; WE BIT6 6 5 1; WE BIT3 4 3 1; WE BIT4 6 5 1; WE BIT0 8 6 1; WE BIT1 4 3 1; WE BIT2 2 1 1; WE BIT6 4 3 1;
   WE BIT7 2 2 1; WE BIT3 4 3 1; WE BIT4 8 6 1; WE BIT5 6 5 1; WE BIT1 4 3 1; WE BIT2 6 4 1; WE BIT7 2 2 1; WE BIT3 4 3 1;
   WE BIT4 6 5 1; WE BIT0 2 1 1; WE BIT5 6 5 1; WE BIT1 6 4 1; WE BIT6 4 3 1; WE BIT7 2 2 1; WE BIT3 4 3 1; WE BIT4 6 5 1;
   WE BIT0 2 1 1; WE BIT5 6 5 1; WE BIT1 4 3 1; WE BIT2 2 1 1; WE BIT6 4 3 1; WE BIT7 2 2 1; WE BIT3 10 8 1; WE BIT0 2 1 (-47);
   WE BIT6 10 10 1; WE BIT4 2 2 1; WE BIT3 4 4 1; WE BIT2 2 2 1; WE BIT1 4 4 1; WE BIT0 6 5 1; WE BIT7 2 2 1; WE BIT6 6 6 1;
   WE BIT5 4 4 1; WE BIT4 2 2 1; WE BIT3 4 4 1; WE BIT2 6 6 1; WE BIT0 6 5 1; WE BIT7 2 2 1; WE BIT6 6 6 1; WE BIT5 4 4 1;
   WE BIT4 2 2 1; WE BIT3 6 6 1; WE BIT1 4 4 1; WE BIT0 6 5 1; WE BIT7 8 8 1; WE BIT5 4 4 1; WE BIT4 2 2 1; WE BIT3 4 4 1;
   WE BIT2 2 2 1; WE BIT1 4 4 1; WE BIT0 8 7 1; WE BIT6 6 6 1; WE BIT5 4 4 1; WE BIT4 6 6 1; WE BIT2 2 2 1; WE BIT1 4 4 1;
   WE BIT0 6 5 1; WE BIT7 2 2 1; WE BIT6 6 6 1; WE BIT5 6 6 1; WE BIT3 4 4 1; WE BIT2 2 2 1; WE BIT1 4 4 1; WE BIT0 6 5 1;
   WE BIT7 2 2 1; WE BIT6 6 6 1; WE BIT5 4 4 1; WE BIT4 2 2 1; WE BIT3 4 4 1; WE BIT2 2 2 1; WE BIT1 10 9 1; WE BIT7 2 2 (-47);
   WE BIT7 10 1 1; WE BIT1 2 0 1; WE BIT2 4 0 1; WE BIT3 2 0 1; WE BIT4 4 0 1; WE BIT5 6 0 1; WE BIT6 2 0 1; WE BIT7 6 1 1;
   WE BIT0 4 0 1; WE BIT1 2 0 1; WE BIT2 4 0 1; WE BIT3 6 0 1; WE BIT5 6 0 1; WE BIT6 2 0 1; WE BIT7 6 1 1; WE BIT0 4 0 1;
   WE BIT1 2 0 1; WE BIT2 6 0 1; WE BIT4 4 0 1; WE BIT5 6 0 1; WE BIT6 8 1 1; WE BIT0 4 0 1; WE BIT1 2 0 1; WE BIT2 4 0 1;
   WE BIT3 2 0 1; WE BIT4 4 0 1; WE BIT5 8 0 1; WE BIT7 6 1 1; WE BIT0 4 0 1; WE BIT1 6 0 1; WE BIT3 2 0 1; WE BIT4 4 0 1;
   WE BIT5 6 0 1; WE BIT6 2 0 1; WE BIT7 6 1 1; WE BIT0 6 0 1; WE BIT2 4 0 1; WE BIT3 2 0 1; WE BIT4 4 0 1; WE BIT5 6 0 1;
   WE BIT6 2 0 1; WE BIT7 6 1 1; WE BIT0 4 0 1; WE BIT1 2 0 1; WE BIT2 4 0 1; WE BIT3 2 0 1; WE BIT4 10 0 1; WE BIT6 2 0 (-47)
  ].

(** lib/primesieve/include/primesieve/Wheel.hpp:130-137 — wheelOffsets_, divided by SIZE *)
Definition wheel_offsets : list Z :=
  [0; 7; 0; 0; 0; 0; 0; 0; 0; 0; 0; 1; 0; 2; 0; 0; 0; 3; 0; 4; 0; 0; 0; 5; 0; 0; 0; 0; 0; 6].

(** lib/primesieve/src/Erat.cpp:32-39 — unsetSmaller *)
Definition unset_smaller : list Z :=
  [
   255; 255; 255; 255; 255; 255; 255; 255; 254; 254; 254; 254; 252; 252; 248; 248;
   248; 248; 240; 240; 224; 224; 224; 224; 192; 192; 192; 192; 192; 192; 128; 128;
   0; 0; 0; 0; 0
  ].

(** lib/primesieve/src/Erat.cpp:42-49 — unsetLarger *)
Definition unset_larger : list Z :=
  [
   0; 0; 0; 0; 0; 0; 0; 1; 1; 1; 1; 3; 3; 7; 7; 7;
   7; 15; 15; 31; 31; 31; 31; 63; 63; 63; 63; 63; 63; 127; 127; 255;
   255; 255; 255; 255; 255
  ].

(** lib/primesieve/src/EratSmall.cpp:112-307 — the lines CHECK_FINISHED(w); *p &= BIT; p += sievingPrime * f + c,
    as (BIT, f, c), by w *)
Definition small_rows : list (Z * Z * Z) :=
  [
   (BIT0, 6, 1); (BIT4, 4, 1); (BIT3, 2, 0); (BIT7, 4, 1); (BIT6, 2, 1); (BIT2, 4, 1); (BIT1, 6, 1); (BIT5, 2, 1);
   (BIT1, 6, 2); (BIT3, 4, 1); (BIT7, 2, 1); (BIT5, 4, 2); (BIT0, 2, 0); (BIT6, 4, 2); (BIT2, 6, 2); (BIT4, 2, 1);
   (BIT2, 6, 2); (BIT7, 4, 2); (BIT5, 2, 1); (BIT4, 4, 2); (BIT1, 2, 1); (BIT0, 4, 1); (BIT6, 6, 3); (BIT3, 2, 1);
   (BIT3, 6, 3); (BIT6, 4, 3); (BIT0, 2, 1); (BIT1, 4, 2); (BIT4, 2, 1); (BIT5, 4, 2); (BIT7, 6, 4); (BIT2, 2, 1);
   (BIT4, 6, 4); (BIT2, 4, 2); (BIT6, 2, 2); (BIT0, 4, 2); (BIT5, 2, 1); (BIT7, 4, 3); (BIT3, 6, 4); (BIT1, 2, 1);
   (BIT5, 6, 5); (BIT1, 4, 3); (BIT2, 2, 1); (BIT6, 4, 3); (BIT7, 2, 2); (BIT3, 4, 3); (BIT4, 6, 5); (BIT0, 2, 1);
   (BIT6, 6, 6); (BIT5, 4, 4); (BIT4, 2, 2); (BIT3, 4, 4); (BIT2, 2, 2); (BIT1, 4, 4); (BIT0, 6, 5); (BIT7, 2, 2);
   (BIT7, 6, 1); (BIT0, 4, 0); (BIT1, 2, 0); (BIT2, 4, 0); (BIT3, 2, 0); (BIT4, 4, 0); (BIT5, 6, 0); (BIT6, 2, 0)
  ].

(** lib/primesieve/src/EratSmall.cpp:112-307 — the inner loops of the cases w = 0, 8, ..., 56: c of the increment
    p += sievingPrime * 30 + c and the lines p[sievingPrime * f + c] &= BIT as (f, c, BIT), by w / 8 *)
Definition small_unrolled : list (Z * list (Z * Z * Z)) :=
  [
   (7, [(0, 0, BIT0); (6, 1, BIT4); (10, 2, BIT3); (12, 2, BIT7); (16, 3, BIT6); (18, 4, BIT2); (22, 5, BIT1); (28, 6, BIT5)]);
   (11, [(0, 0, BIT1); (6, 2, BIT3); (10, 3, BIT7); (12, 4, BIT5); (16, 6, BIT0); (18, 6, BIT6); (22, 8, BIT2); (28, 10, BIT4)]);
   (13, [(0, 0, BIT2); (6, 2, BIT7); (10, 4, BIT5); (12, 5, BIT4); (16, 7, BIT1); (18, 8, BIT0); (22, 9, BIT6); (28, 12, BIT3)]);
   (17, [(0, 0, BIT3); (6, 3, BIT6); (10, 6, BIT0); (12, 7, BIT1); (16, 9, BIT4); (18, 10, BIT5); (22, 12, BIT7); (28, 16, BIT2)]);
   (19, [(0, 0, BIT4); (6, 4, BIT2); (10, 6, BIT6); (12, 8, BIT0); (16, 10, BIT5); (18, 11, BIT7); (22, 14, BIT3); (28, 18, BIT1)]);
   (23, [(0, 0, BIT5); (6, 5, BIT1); (10, 8, BIT2); (12, 9, BIT6); (16, 12, BIT7); (18, 14, BIT3); (22, 17, BIT4); (28, 22, BIT0)]);
   (29, [(0, 0, BIT6); (6, 6, BIT5); (10, 10, BIT4); (12, 12, BIT3); (16, 16, BIT2); (18, 18, BIT1); (22, 22, BIT0); (28, 27, BIT7)]);
   (1, [(0, 0, BIT7); (6, 1, BIT0); (10, 1, BIT1); (12, 1, BIT2); (16, 1, BIT3); (18, 1, BIT4); (22, 1, BIT5); (28, 1, BIT6)])
  ].

(** lib/primesieve/src/EratMedium.cpp:123-408 — the lines CHECK_FINISHED(w); *p &= BIT; p += dist of crossOff_7 to
    crossOff_31, as (BIT, f, c) with dist = sievingPrime * f + c, by w *)
Definition medium_rows : list (Z * Z * Z) :=
  [
   (BIT0, 6, 1); (BIT4, 4, 1); (BIT3, 2, 0); (BIT7, 4, 1); (BIT6, 2, 1); (BIT2, 4, 1); (BIT1, 6, 1); (BIT5, 2, 1);
   (BIT1, 6, 2); (BIT3, 4, 1); (BIT7, 2, 1); (BIT5, 4, 2); (BIT0, 2, 0); (BIT6, 4, 2); (BIT2, 6, 2); (BIT4, 2, 1);
   (BIT2, 6, 2); (BIT7, 4, 2); (BIT5, 2, 1); (BIT4, 4, 2); (BIT1, 2, 1); (BIT0, 4, 1); (BIT6, 6, 3); (BIT3, 2, 1);
   (BIT3, 6, 3); (BIT6, 4, 3); (BIT0, 2, 1); (BIT1, 4, 2); (BIT4, 2, 1); (BIT5, 4, 2); (BIT7, 6, 4); (BIT2, 2, 1);
   (BIT4, 6, 4); (BIT2, 4, 2); (BIT6, 2, 2); (BIT0, 4, 2); (BIT5, 2, 1); (BIT7, 4, 3); (BIT3, 6, 4); (BIT1, 2, 1);
   (BIT5, 6, 5); (BIT1, 4, 3); (BIT2, 2, 1); (BIT6, 4, 3); (BIT7, 2, 2); (BIT3, 4, 3); (BIT4, 6, 5); (BIT0, 2, 1);
   (BIT6, 6, 6); (BIT5, 4, 4); (BIT4, 2, 2); (BIT3, 4, 4); (BIT2, 2, 2); (BIT1, 4, 4); (BIT0, 6, 5); (BIT7, 2, 2);
   (BIT7, 6, 1); (BIT0, 4, 0); (BIT1, 2, 0); (BIT2, 4, 0); (BIT3, 2, 0); (BIT4, 4, 0); (BIT5, 6, 0); (BIT6, 2, 0)
  ].

(** lib/primesieve/src/PreSieve.cpp:46 and 49 — primes, primeProducts *)
Definition pre_primes : list Z := [7; 11; 13; 17; 19].
(** lib/primesieve/src/PreSieve.cpp:49 — primeProducts *)
Definition pre_products : list Z := [210; 2310; 30030; 510510; 9699690].
