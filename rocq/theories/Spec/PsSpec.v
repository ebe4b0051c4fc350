(** What the sieve arrays of lib/primesieve are meant to hold. *)
From Coq Require Import ZArith List Bool.
From Verif.Base Require Import Res Zl.
Import ListNotations.
Open Scope Z_scope.

(** Bit j of byte i of the array of the segment at [low] stands for the number
    low + 30 i + off j. *)
Definition offsets : list Z := [7; 11; 13; 17; 19; 23; 29; 31].
Definition off (j : Z) : Z := nth (Z.to_nat j) offsets 0.

(** The array is the set B. *)
Definition holds (sieve : list Z) (low : Z) (B : Z -> bool) : Prop :=
  forall i, 0 <= i < zlen sieve ->
    exists b, aget sieve i = Ok b /\ 0 <= b < 256 /\
      forall j, 0 <= j < 8 -> Z.testbit b j = B (low + 30 * i + off j).

(** q has no factor in common with the wheel's modulus. *)
Definition cop (m q : Z) : bool := Z.gcd q m =? 1.

(** n = p q with q >= p and q coprime to the wheel: what crossing off with p removes. *)
Definition strikes (m p n : Z) : bool := (n mod p =? 0) && cop m (n / p) && (p <=? n / p).
(** Some member of the list strikes n. *)
Definition struck (m : Z) (l : list Z) (n : Z) : bool := existsb (fun p => strikes m p n) l.

(** n has no prime factor among 7, 11, 13, 17 and 19 up to [mx]: what pre-sieving leaves. *)
Definition presieved (mx n : Z) : bool := forallb (fun p => (mx <? p) || negb (n mod p =? 0)) [7; 11; 13; 17; 19].

(** Bit k is the lowest set bit of the word. *)
Definition lowest (bits k : Z) : Prop := 0 <= k /\ Z.testbit bits k = true /\ forall j, 0 <= j < k -> Z.testbit bits j = false.
