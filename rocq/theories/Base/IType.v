(** Integer types of fixed width, signed or unsigned.
    (Infrastructure: models no particular source line.)  *)
From Coq Require Import ZArith Lia Bool.
From Verif.Base Require Import Res Word.
Open Scope Z_scope.

Record ity := mkT { signed : bool; bits : Z }.
Definition i32 := mkT true 32.   Definition u32 := mkT false 32.
Definition i64 := mkT true 64.   Definition u64 := mkT false 64.
Definition i128 := mkT true 128. Definition u128 := mkT false 128.

(** std::numeric_limits<T>::digits, max, min *)
Definition tdigits (t : ity) : Z := if signed t then bits t - 1 else bits t.
Definition tmax (t : ity) : Z := 2 ^ tdigits t - 1.
Definition tmin (t : ity) : Z := if signed t then - 2 ^ tdigits t else 0.
Definition in_t (t : ity) (z : Z) : Prop := tmin t <= z <= tmax t.

(** Result of +, -, * at type T (no promotion: at least 32 bits): signed
    overflow is undefined, unsigned arithmetic wraps. *)
Definition tar (t : ity) (z : Z) : res Z :=
  if signed t then schk (bits t) z else Ok (uwrap (bits t) z).
(** Conversion to T (modular, as all supported compilers do). *)
Definition tcast (t : ity) (z : Z) : Z :=
  if signed t then swrap (bits t) z else uwrap (bits t) z.

Definition std_width (t : ity) : Prop := bits t = 32 \/ bits t = 64 \/ bits t = 128.

Lemma in_t_eq t z : in_t t z -> 0 < bits t ->
  if signed t then in_s (bits t) z else in_u (bits t) z.
Proof.
  unfold in_t, tmin, tmax, tdigits, in_s, in_u, smin, smax, umax. destruct (signed t); intros; lia.
Qed.
Lemma tar_ok t z : 0 < bits t -> in_t t z -> tar t z = Ok z.
Proof.
  intros Hb H. apply in_t_eq in H; auto. unfold tar. destruct (signed t).
  - now apply schk_ok.
  - unfold in_u, umax in H. unfold uwrap. rewrite Z.mod_small by lia. reflexivity.
Qed.
Lemma tcast_id t z : 0 < bits t -> in_t t z -> tcast t z = z.
Proof.
  intros Hb H. apply in_t_eq in H; auto. unfold tcast. destruct (signed t).
  - now apply swrap_id.
  - unfold in_u, umax in H. unfold uwrap. rewrite Z.mod_small by lia. reflexivity.
Qed.
