(** What a bit sieve over the odd numbers means: bit i stands for low + 2*i. *)
From Coq Require Import ZArith List Bool.
From Verif.Base Require Import Zl.
Import ListNotations.
Open Scope Z_scope.

(** sum of low + k over start <= k <= stop, k even and marked by F (k / 2) *)
Definition marked_sum (F : Z -> bool) (low start stop : Z) : Z :=
  sumr start (stop + 1) (fun k => if Z.even k && F (k / 2) then low + k else 0).

(** bit i of the words of a sieve *)
Definition sieve_bit (words : list Z) (i : Z) : bool :=
  Z.testbit (nth (Z.to_nat (i / 64)) words 0) (i mod 64).
