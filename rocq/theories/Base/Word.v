(** Fixed-width machine words as [Z].
    (Infrastructure: models no particular source line.)  *)
From Coq Require Import ZArith Lia Bool.
From Verif.Base Require Import Res.
Open Scope Z_scope.

(** Unsigned n-bit wrap-around. *)
Definition uwrap (n z : Z) : Z := z mod 2 ^ n.
(** Two's complement reading of the low n bits. *)
Definition swrap (n z : Z) : Z :=
  let u := z mod 2 ^ n in if u <? 2 ^ (n - 1) then u else u - 2 ^ n.

Definition smin (n : Z) : Z := - 2 ^ (n - 1).
Definition smax (n : Z) : Z := 2 ^ (n - 1) - 1.
Definition umax (n : Z) : Z := 2 ^ n - 1.
Definition in_s (n z : Z) : Prop := smin n <= z <= smax n.
Definition in_u (n z : Z) : Prop := 0 <= z <= umax n.
Definition in_sb (n z : Z) : bool := (smin n <=? z) && (z <=? smax n).

(** Signed n-bit result; overflow is undefined behaviour. *)
Definition schk (n z : Z) : res Z := if in_sb n z then Ok z else Fail UB.

(** Shifts of an unsigned n-bit word; a shift count outside [0,n) is undefined. *)
Definition ushl (n x k : Z) : res Z :=
  if (0 <=? k) && (k <? n) then Ok (uwrap n (Z.shiftl x k)) else Fail UB.
Definition ushr (n x k : Z) : res Z :=
  if (0 <=? k) && (k <? n) then Ok (Z.shiftr x k) else Fail UB.

Lemma schk_ok n z : in_s n z -> schk n z = Ok z.
Proof.
  unfold schk, in_sb, in_s. intros [H1 H2].
  apply Z.leb_le in H1. apply Z.leb_le in H2. now rewrite H1, H2.
Qed.
Lemma schk_inv n z v : schk n z = Ok v -> v = z /\ in_s n z.
Proof.
  unfold schk, in_sb, in_s. destruct (Z.leb_spec (smin n) z); simpl; [|discriminate].
  destruct (Z.leb_spec z (smax n)); simpl; [|discriminate].
  intros E; inversion E; subst; lia.
Qed.

Lemma swrap_id n z : 0 < n -> in_s n z -> swrap n z = z.
Proof.
  unfold swrap, in_s, smin, smax. intros Hn H.
  assert (E : 2 ^ n = 2 * 2 ^ (n - 1)).
  { replace n with (Z.succ (n - 1)) at 1 by lia. rewrite Z.pow_succ_r by lia. reflexivity. }
  assert (0 < 2 ^ (n - 1)) by (apply Z.pow_pos_nonneg; lia).
  destruct (Z.lt_ge_cases z 0) as [Hz|Hz].
  - replace (z mod 2 ^ n) with (z + 2 ^ n).
    + destruct (Z.ltb_spec (z + 2 ^ n) (2 ^ (n - 1))); lia.
    + apply Z.mod_unique with (q := -1); lia.
  - rewrite Z.mod_small by lia. destruct (Z.ltb_spec z (2 ^ (n - 1))); lia.
Qed.

Lemma swrap_range n z : 0 < n -> in_s n (swrap n z).
Proof.
  unfold swrap, in_s, smin, smax. intros Hn.
  assert (E : 2 ^ n = 2 * 2 ^ (n - 1)).
  { replace n with (Z.succ (n - 1)) at 1 by lia. rewrite Z.pow_succ_r by lia. reflexivity. }
  assert (0 < 2 ^ (n - 1)) by (apply Z.pow_pos_nonneg; lia).
  pose proof (Z.mod_pos_bound z (2 ^ n) ltac:(lia)).
  destruct (Z.ltb_spec (z mod 2 ^ n) (2 ^ (n - 1))); lia.
Qed.

Lemma swrap_mod n z : 0 <= n -> swrap n z mod 2 ^ n = z mod 2 ^ n.
Proof.
  intros Hn. assert (0 < 2 ^ n) by (apply Z.pow_pos_nonneg; lia).
  unfold swrap. destruct (Z.ltb_spec (z mod 2 ^ n) (2 ^ (n - 1))).
  - apply Z.mod_mod. lia.
  - replace (z mod 2 ^ n - 2 ^ n) with (z mod 2 ^ n + (-1) * 2 ^ n) by ring.
    rewrite Z.mod_add by lia. apply Z.mod_mod. lia.
Qed.

Lemma swrap_congr n a b : a mod 2 ^ n = b mod 2 ^ n -> swrap n a = swrap n b.
Proof. unfold swrap. now intros ->. Qed.
