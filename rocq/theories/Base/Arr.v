(** Arrays described by a function, and update loops over them.
    (Infrastructure: models no particular source line.) *)
From Coq Require Import ZArith List Lia Bool.
From Verif.Base Require Import Res Zl.
Import ListNotations.
Open Scope Z_scope.

Section Arr.
  Context {A : Type}.
  (** [l] has n elements and element k is F k. *)
  Definition arr (l : list A) (n : Z) (F : Z -> A) : Prop :=
    zlen l = n /\ forall k, 0 <= k < n -> aget l k = Ok (F k).

  Lemma arr_get l n F k : arr l n F -> 0 <= k < n -> aget l k = Ok (F k).
  Proof. intros [_ H]. apply H. Qed.
  Lemma arr_len l n F : arr l n F -> zlen l = n.
  Proof. intros [H _]. exact H. Qed.
  Lemma arr_ext l n F G : arr l n F -> (forall k, 0 <= k < n -> F k = G k) -> arr l n G.
  Proof. intros [H1 H2] E. split; auto. intros k Hk. rewrite H2, E; auto. Qed.
  Lemma arr_make n v : 0 <= n -> arr (amake n v) n (fun _ => v).
  Proof. intros H. split; [now apply amake_len|]. intros k Hk. now apply amake_get. Qed.
  Lemma arr_set l n F i v (Q : list A -> Prop) : arr l n F -> 0 <= i < n ->
    (forall l', arr l' n (fun k => if k =? i then v else F k) -> Q l') -> wp (aset l i v) Q.
  Proof.
    intros [H1 H2] Hi HQ. apply wp_aset; [lia|]. intros l' Hl Hg. apply HQ. split; [congruence|].
    intros k Hk. rewrite Hg. destruct (k =? i); auto.
  Qed.
  Lemma arr_nth l d : arr l (zlen l) (fun k => nth (Z.to_nat k) l d).
  Proof. split; auto. intros. now apply aget_ok. Qed.

  Lemma aset_same (l : list A) j v : aget l j = Ok v -> aset l j v = Ok l.
  Proof.
    intros Ev. pose proof (aget_range _ _ _ Ev) as R.
    destruct (aset_ok l j v R) as (l2 & E2 & L2 & G2). rewrite E2. f_equal.
    apply list_ext; auto. intros q Hq. rewrite G2. destruct (Z.eqb_spec q j); congruence.
  Qed.

  (** Positions lo, lo+d, lo+2d, ... below hi. *)
  Definition hit (lo hi d k : Z) : bool := (lo <=? k) && (k <? hi) && ((k - lo) mod d =? 0).

  (** A strided loop whose body replaces element j by g j (element j). *)
  Lemma arr_for_step l n F lo hi d (g : Z -> A -> res A) G (body : Z -> list A -> res (list A)) (Q : list A -> Prop) :
    arr l n F -> 0 <= lo -> hi <= n -> 0 < d -> n < 2 ^ 400 ->
    (forall k, lo <= k < hi -> (k - lo) mod d = 0 -> g k (F k) = Ok (G k)) ->
    (forall j l v, lo <= j < hi -> aget l j = Ok v -> body j l = (v' <- g j v ;; aset l j v')) ->
    (forall l', arr l' n (fun k => if hit lo hi d k then G k else F k) -> Q l') ->
    wp (for_step lo hi d body l) Q.
  Proof.
    intros Ha Hlo Hhi Hd Hf Hg Hb HQ.
    apply (for_step_rule lo hi d body (fun i l => arr l n (fun k => if hit lo i d k then G k else F k))); auto; try lia.
    - eapply arr_ext; [exact Ha|]. intros k Hk. unfold hit.
      destruct (Z.leb_spec lo k), (Z.ltb_spec k lo); simpl; auto; lia.
    - intros i l1 Hi Hdv Ha1.
      pose proof (arr_get _ _ _ i Ha1 ltac:(lia)) as E. unfold hit at 1 in E.
      replace (i <? i) with false in E by (symmetry; apply Z.ltb_irrefl).
      rewrite andb_false_r in E. cbn [andb] in E.
      rewrite (Hb i l1 _ Hi E).
      assert (Hm : (i - lo) mod d = 0) by (apply Z.mod_divide; auto; lia).
      rewrite Hg by (auto; lia). cbn [bind]. eapply arr_set; [exact Ha1|lia|].
      intros l2 H2. eapply arr_ext; [exact H2|]. intros k Hk. unfold hit.
      destruct (Z.eqb_spec k i) as [->|Nk].
      + destruct (Z.leb_spec lo i), (Z.ltb_spec i (i + d)); try lia. simpl. rewrite Hm. reflexivity.
      + destruct (Z.leb_spec lo k); simpl; auto.
        destruct (Z.eqb_spec ((k - lo) mod d) 0) as [Ek|Ek]; [|now rewrite !andb_false_r].
        rewrite !andb_true_r. destruct (Z.ltb_spec k i), (Z.ltb_spec k (i + d)); auto; try lia.
        exfalso. apply Z.mod_divide in Ek; [|lia].
        destruct Hdv as [u Hu], Ek as [w Hw]. assert (u < w < u + 1) by nia. lia.
    - intros i l1 Hi1 Hi2 Hdv Hub Ha1. apply HQ. eapply arr_ext; [exact Ha1|].
      intros k Hk. unfold hit. destruct (Z.leb_spec lo k); simpl; auto.
      destruct (Z.eqb_spec ((k - lo) mod d) 0) as [Ek|Ek]; [|now rewrite !andb_false_r].
      rewrite !andb_true_r. destruct (Z.ltb_spec k i), (Z.ltb_spec k hi); auto; try lia.
      exfalso. apply Z.mod_divide in Ek; [|lia].
      destruct Hdv as [u Hu], Ek as [w Hw].
      assert (Hi3 : i < k + d) by lia.
      assert (w < u < w + 1) by nia. lia.
  Qed.

  (** The same with stride 1. *)
  Lemma arr_for l n F lo hi (g : Z -> A -> res A) G (body : Z -> list A -> res (list A)) (Q : list A -> Prop) :
    arr l n F -> 0 <= lo -> hi <= n -> n < 2 ^ 400 ->
    (forall k, lo <= k < hi -> g k (F k) = Ok (G k)) ->
    (forall j l v, lo <= j < hi -> aget l j = Ok v -> body j l = (v' <- g j v ;; aset l j v')) ->
    (forall l', arr l' n (fun k => if (lo <=? k) && (k <? hi) then G k else F k) -> Q l') ->
    wp (for_ lo hi body l) Q.
  Proof.
    intros Ha Hlo Hhi Hf Hg Hb HQ. unfold for_.
    change (wp (for_step lo hi 1 body l) Q).
    eapply (arr_for_step l n F lo hi 1 g G); eauto; try lia.
    intros l' H'. apply HQ. eapply arr_ext; [exact H'|]. intros k Hk. unfold hit.
    rewrite Z.mod_1_r. now rewrite andb_true_r.
  Qed.
End Arr.

(** multiples of d from lo on *)
Lemma hit_multiple lo hi d k : 0 < d -> (d | lo) -> hit lo hi d k = ((lo <=? k) && (k <? hi) && (k mod d =? 0)).
Proof.
  intros Hd [u Hu]. unfold hit. f_equal. f_equal. subst lo.
  rewrite Zminus_mod, Z.mod_mul, Z.sub_0_r, Z.mod_mod by lia. reflexivity.
Qed.
