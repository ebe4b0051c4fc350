(** Histories of the objects of lib/primesieve: what has been called on them so far. *)
From Coq Require Import ZArith List Bool Znumtheory.
From Verif.Base Require Import Res Word Zl.
From Verif.Spec Require Import Primes PsSpec.
From Verif.Model Require Import PsTables PsMath PsErat.
Import ListNotations.
Open Scope Z_scope.

(** n steps along a wheel table, as unsetBit (Wheel.hpp:113-122) makes them *)
Fixpoint wheel_walk (tbl : list wheel_element) (sp : Z) (n : nat) (mi wi : Z) : res (Z * Z) :=
  match n with
  | O => Ok (mi, wi)
  | S n => we <- aget tbl wi ;; wheel_walk tbl sp n (mi + we_factor we * sp + we_correct we) (wi + we_next we)
  end.
(** q is a quotient to remove: p q behind low + 6, q >= p and coprime to the wheel *)
Definition eligible (M L p q : Z) : bool := cop M q && (p <=? q) && (L + 6 <? p * q).
(** number of smaller ones *)
Definition rank (M L p q : Z) : Z := zlen (filter (eligible M L p) (zrange p q)).

(** The walk from (mi, wi) is at the n-th such product p q after n steps: the byte mi', and
    the mask of the table's row clears its bit and no other. *)
Definition walk_ok (M : Z) (tbl : list wheel_element) (L p : Z) (mi wi : Z) : Prop :=
  forall n, exists mi' wi' we q j, wheel_walk tbl (p / 30) n mi wi = Ok (mi', wi') /\ aget tbl wi' = Ok we /\ 0 <= j < 8 /\
    we_unset we = 255 - 2 ^ j /\ p * q = L + 30 * mi' + off j /\ eligible M L p q = true /\ rank M L p q = Z.of_nat n.

(** EratSmall after init at the segment L0, additions and sieved segments of S bytes: now
    at the segment L, with the primes ps added. *)
Inductive small_run (stop l1 L0 S : Z) : Z -> list Z -> esmall -> Prop :=
| sr_init : small_run stop l1 L0 S L0 [] (esmall_init stop l1 esmall0)
| sr_add L ps e p e' : small_run stop l1 L0 S L ps e -> prime p -> 7 <= p <= 5 * 2 ^ 22 -> p * p <= L + 30 * S + 6 -> L + 6 < 2 ^ 64 ->
    esmall_add p L e = Ok e' -> small_run stop l1 L0 S L (ps ++ [p]) e'
| sr_cross L ps e sieve e' sieve' : small_run stop l1 L0 S L ps e -> L < 2 ^ 64 -> zlen sieve = S -> (exists B, holds sieve L B) ->
    esmall_cross sieve S e = Ok (e', sieve') -> small_run stop l1 L0 S (L + 30 * S) ps e'.
(** The same for EratMedium *)
Inductive medium_run (stop L0 S : Z) : Z -> list Z -> emedium -> Prop :=
| mr_init : medium_run stop L0 S L0 [] (emedium_init stop)
| mr_add L ps e p e' : medium_run stop L0 S L ps e -> prime p -> 7 <= p <= 5 * 2 ^ 22 -> p * p <= L + 30 * S + 6 -> L + 6 < 2 ^ 64 ->
    emedium_add p L e = Ok e' -> medium_run stop L0 S L (ps ++ [p]) e'
| mr_cross L ps e sieve e' sieve' : medium_run stop L0 S L ps e -> L < 2 ^ 64 -> zlen sieve = S -> (exists B, holds sieve L B) ->
    emedium_cross sieve S e = Ok (e', sieve') -> medium_run stop L0 S (L + 30 * S) ps e'.
(** The same for EratBig, where the sieve size is 2^k and primes up to mx are announced *)
Inductive big_run (stop L0 k mx : Z) : Z -> list Z -> ebig -> Prop :=
| br_init : big_run stop L0 k mx L0 [] (ebig_init stop (2 ^ k) mx)
| br_add L ps e p e' : big_run stop L0 k mx L ps e -> prime p -> 30 < p <= mx -> p * p <= L + 30 * 2 ^ k + 6 -> L + 6 < 2 ^ 64 ->
    ebig_add p L e = Ok e' -> big_run stop L0 k mx L (ps ++ [p]) e'
| br_cross L ps e sieve e' sieve' : big_run stop L0 k mx L ps e -> L < 2 ^ 64 -> zlen sieve = 2 ^ k -> (exists B, holds sieve L B) ->
    ebig_cross sieve e = Ok (e', sieve') -> big_run stop L0 k mx (L + 30 * 2 ^ k) ps e'.

(** What crossing off must do with the array of the set B: remove the multiples of the
    primes ps in the first size bytes, up to stop, and nothing but multiples. *)
Definition crossed (M L size stop : Z) (ps : list Z) (B : Z -> bool) (sieve' : list Z) : Prop :=
  exists B', holds sieve' L B' /\
    forall m, cop 30 m = true -> L + 6 < m ->
      (m < L + 30 * size + 7 -> m <= stop -> B' m = B m && negb (struck M ps m)) /\
      (L + 30 * size + 7 <= m -> B' m = B m) /\ (B m = true -> B' m = false -> struck M ps m = true) /\ (B m = false -> B' m = false).

(** A PreSieve object: fresh, or initialised any number of times. *)
Inductive pre_made : presieve -> Prop :=
| pm_new : pre_made presieve0
| pm_init start stop ps ps' : pre_made ps -> presieve_init start stop ps = Ok ps' -> pre_made ps'.

(** A segment's bytes hold the primes of [start, stop]. *)
Definition shows_primes (sieve : list Z) (n low start stop : Z) : Prop :=
  forall i, 0 <= i < n -> exists b, aget sieve i = Ok b /\ 0 <= b < 256 /\
    forall j, 0 <= j < 8 -> let m := low + 30 * i + off j in Z.testbit b j = primeb m && (start <=? m) && (m <=? stop).

(** An Erat object after init, additions and sieved segments; [added] are the primes added.
    Primes are added as the code does it, as soon as their square is within the segment. *)
Inductive erat_run (c : cpu) (start stop sieve_size : Z) (ps0 : presieve) : erat -> presieve -> list Z -> Prop :=
| er_init e ps : erat_init c start stop sieve_size (erat0 start stop) ps0 = Ok (e, ps) -> erat_run c start stop sieve_size ps0 e ps []
| er_add e ps l p e' : erat_run c start stop sieve_size ps0 e ps l -> prime p -> e_maxpre e < p -> p * p <= e_high e ->
    erat_add p e = Ok e' -> erat_run c start stop sieve_size ps0 e' ps (l ++ [p])
| er_segment e ps l e' : erat_run c start stop sieve_size ps0 e ps l ->
    (forall p, prime p -> e_maxpre e < p -> p * p <= e_high e -> In p l) -> e_high e < stop ->
    erat_segment e ps = Ok e' -> erat_run c start stop sieve_size ps0 e' ps l.
