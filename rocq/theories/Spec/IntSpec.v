(** Specification side of the 256-bit integers: which integer does a pair of
    128-bit words denote. *)
From Coq Require Import ZArith List Bool Ascii Lia.
From Verif.Base Require Import Res Word.
From Verif.Model Require Import Int256.
Import ListNotations.
Open Scope Z_scope.

(** Unsigned reading. *)
Definition uval (a : i256) : Z := low a + 2 ^ 128 * high a.
(** Two's complement reading. *)
Definition sval (a : i256) : Z := swrap 256 (uval a).

(** The pair of words that denotes z modulo 2^256. *)
Definition of_Z256 (z : Z) : i256 :=
  mk256 (z mod 2 ^ 128) (z / 2 ^ 128 mod 2 ^ 128).

(** Truncated division (quotient toward zero), as in C++. *)
Definition trunc_div (a b q r : Z) : Prop :=
  a = b * q + r /\ Z.abs r < Z.abs b /\ (r = 0 \/ Z.sgn r = Z.sgn a).

(** Reading back decimal text. *)
Definition digit_val (c : ascii) : option Z :=
  let n := Z.of_N (N_of_ascii c) in
  if (48 <=? n) && (n <=? 57) then Some (n - 48) else None.

Fixpoint read_digits (acc : Z) (s : list ascii) : option Z :=
  match s with
  | [] => Some acc
  | c :: t => match digit_val c with
              | Some d => read_digits (10 * acc + d) t
              | None => None
              end
  end.

Definition read_dec (s : list ascii) : option Z :=
  match s with
  | [] => None
  | c :: t =>
      if Ascii.eqb c "-" then
        match t with [] => None | _ => option_map Z.opp (read_digits 0 t) end
      else read_digits 0 s
  end.

(** Canonical decimal notation: "0", or an optional "-" followed by digits that
    do not start with "0". *)
Definition canonical_dec (s : list ascii) : Prop :=
  s = ["0"%char] \/
  exists c t, (s = c :: t \/ s = "-"%char :: c :: t) /\
    (forall d, In d (c :: t) -> digit_val d <> None) /\ c <> "0"%char.

(** s is the decimal text of z. *)
Definition decimal_of (z : Z) (s : list ascii) : Prop :=
  read_dec s = Some z /\ canonical_dec s.
