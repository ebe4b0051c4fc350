(** Ranges, finite sums and checked arrays over [Z] indices.
    (Infrastructure: models no particular source line.)  *)
From Coq Require Import ZArith List Lia Bool Permutation Sorted.
From Verif.Base Require Import Res.
Import ListNotations.
Open Scope Z_scope.

(** Half-open range [lo, hi). *)
Definition zrange (lo hi : Z) : list Z :=
  map (fun k => lo + Z.of_nat k) (seq 0 (Z.to_nat (hi - lo))).

(** Sum of [f] over a list. *)
Definition lsum {A} (f : A -> Z) (l : list A) : Z :=
  fold_right (fun x acc => f x + acc) 0 l.

(** Sum over lo <= i < hi. *)
Definition sumr (lo hi : Z) (f : Z -> Z) : Z := lsum f (zrange lo hi).

Lemma in_zrange lo hi x : In x (zrange lo hi) <-> lo <= x < hi.
Proof.
  unfold zrange. rewrite in_map_iff. split.
  - intros (k & <- & Hk). apply in_seq in Hk. lia.
  - intros H. exists (Z.to_nat (x - lo)). split; [lia|]. apply in_seq. lia.
Qed.

Lemma zrange_empty lo hi : hi <= lo -> zrange lo hi = [].
Proof. intros. unfold zrange. replace (Z.to_nat (hi - lo)) with 0%nat by lia. reflexivity. Qed.

Lemma zrange_cons lo hi : lo < hi -> zrange lo hi = lo :: zrange (lo + 1) hi.
Proof.
  intros. unfold zrange.
  replace (Z.to_nat (hi - lo)) with (S (Z.to_nat (hi - (lo + 1)))) by lia.
  cbn [seq map]. f_equal; [lia|].
  rewrite <- seq_shift, map_map. apply map_ext. intros; lia.
Qed.

Lemma zrange_app lo mid hi : lo <= mid <= hi -> zrange lo hi = zrange lo mid ++ zrange mid hi.
Proof.
  intros. unfold zrange.
  replace (Z.to_nat (hi - lo)) with (Z.to_nat (mid - lo) + Z.to_nat (hi - mid))%nat by lia.
  rewrite seq_app, map_app. f_equal.
  rewrite Nat.add_0_l.
  rewrite <- (Nat.add_0_r (Z.to_nat (mid - lo))) at 1.
  generalize (Z.to_nat (hi - mid)) as n.
  intros n.
  assert (E : forall a b, seq (Z.to_nat (mid - lo) + a) b = map (fun k => (Z.to_nat (mid - lo) + k)%nat) (seq a b)).
  { intros a b; revert a; induction b; intros a; simpl; auto. f_equal. rewrite <- IHb.
    f_equal. lia. }
  rewrite E, map_map. apply map_ext. intros; lia.
Qed.

Lemma zrange_snoc lo hi : lo <= hi -> zrange lo (hi + 1) = zrange lo hi ++ [hi].
Proof.
  intros. rewrite (zrange_app lo hi (hi + 1)) by lia. f_equal.
  rewrite zrange_cons by lia. rewrite zrange_empty by lia. reflexivity.
Qed.

Lemma zrange_NoDup lo hi : NoDup (zrange lo hi).
Proof.
  unfold zrange. apply FinFun.Injective_map_NoDup; [|apply seq_NoDup].
  intros a b; lia.
Qed.

Lemma zrange_length lo hi : length (zrange lo hi) = Z.to_nat (hi - lo).
Proof. unfold zrange. now rewrite map_length, seq_length. Qed.

Lemma zrange_shift lo hi d : zrange (lo + d) (hi + d) = map (fun x => x + d) (zrange lo hi).
Proof.
  unfold zrange. rewrite map_map. replace (hi + d - (lo + d)) with (hi - lo) by ring.
  apply map_ext; intros; lia.
Qed.

Lemma zrange_sorted lo hi : StronglySorted Z.lt (zrange lo hi).
Proof.
  unfold zrange. generalize (Z.to_nat (hi - lo)) as n. generalize 0%nat as a.
  intros a n; revert a; induction n; intros a; simpl; constructor; auto.
  apply Forall_forall. intros x Hx. apply in_map_iff in Hx. destruct Hx as (k & <- & Hk).
  apply in_seq in Hk. lia.
Qed.

(** ** lsum *)
Section LSum.
  Context {A : Type}.
  Implicit Types (f g : A -> Z) (l : list A).

  Lemma lsum_nil f : lsum f [] = 0. Proof. reflexivity. Qed.
  Lemma lsum_cons f x l : lsum f (x :: l) = f x + lsum f l. Proof. reflexivity. Qed.
  Lemma lsum_app f l1 l2 : lsum f (l1 ++ l2) = lsum f l1 + lsum f l2.
  Proof. induction l1; simpl; auto. rewrite IHl1; lia. Qed.
  Lemma lsum_ext_in f g l : (forall x, In x l -> f x = g x) -> lsum f l = lsum g l.
  Proof. induction l; simpl; auto. intros H. rewrite H, IHl; auto. Qed.
  Lemma lsum_ext f g l : (forall x, f x = g x) -> lsum f l = lsum g l.
  Proof. intros; apply lsum_ext_in; auto. Qed.
  Lemma lsum_add f g l : lsum (fun x => f x + g x) l = lsum f l + lsum g l.
  Proof. induction l; simpl; auto. rewrite IHl; lia. Qed.
  Lemma lsum_sub f g l : lsum (fun x => f x - g x) l = lsum f l - lsum g l.
  Proof. induction l; simpl; auto. rewrite IHl; lia. Qed.
  Lemma lsum_opp f l : lsum (fun x => - f x) l = - lsum f l.
  Proof. induction l; simpl; auto. rewrite IHl; lia. Qed.
  Lemma lsum_scal c f l : lsum (fun x => c * f x) l = c * lsum f l.
  Proof. induction l; simpl; [lia|]. rewrite IHl; lia. Qed.
  Lemma lsum_scal_r c f l : lsum (fun x => f x * c) l = lsum f l * c.
  Proof. induction l; simpl; [lia|]. rewrite IHl; lia. Qed.
  Lemma lsum_zero f l : (forall x, In x l -> f x = 0) -> lsum f l = 0.
  Proof. induction l; simpl; auto. intros H. rewrite H, IHl; auto. Qed.
  Lemma lsum_const c l : lsum (fun _ => c) l = c * Z.of_nat (length l).
  Proof. induction l; cbn [lsum fold_right length]; [lia|]. fold (lsum (fun _ : A => c) l). rewrite IHl. lia. Qed.
  Lemma lsum_perm f l1 l2 : Permutation l1 l2 -> lsum f l1 = lsum f l2.
  Proof. induction 1; simpl; lia. Qed.
  Lemma lsum_filter f (P : A -> bool) l :
    lsum f (filter P l) = lsum (fun x => if P x then f x else 0) l.
  Proof. induction l; simpl; auto. destruct (P a); simpl; rewrite IHl; auto. Qed.
  Lemma lsum_nonneg f l : (forall x, In x l -> 0 <= f x) -> 0 <= lsum f l.
  Proof. induction l; simpl; intros H; [lia|]. pose proof (H a (or_introl eq_refl)).
    assert (0 <= lsum f l) by (apply IHl; auto). lia. Qed.
  Lemma lsum_le f g l : (forall x, In x l -> f x <= g x) -> lsum f l <= lsum g l.
  Proof. induction l; simpl; intros H; [lia|]. pose proof (H a (or_introl eq_refl)).
    assert (lsum f l <= lsum g l) by (apply IHl; auto). lia. Qed.
  Lemma lsum_same_elements f l1 l2 :
    NoDup l1 -> NoDup l2 -> (forall x, In x l1 <-> In x l2) -> lsum f l1 = lsum f l2.
  Proof. intros. apply lsum_perm. now apply NoDup_Permutation. Qed.
  Lemma lsum_filter_split f (P : A -> bool) l :
    lsum f l = lsum f (filter P l) + lsum f (filter (fun x => negb (P x)) l).
  Proof. induction l; simpl; auto. destruct (P a); simpl; lia. Qed.
End LSum.

Lemma lsum_map {A B} (f : B -> Z) (g : A -> B) l : lsum f (map g l) = lsum (fun x => f (g x)) l.
Proof. induction l; simpl; auto. rewrite IHl; auto. Qed.

Lemma lsum_swap {A B} (F : A -> B -> Z) la lb :
  lsum (fun a => lsum (F a) lb) la = lsum (fun b => lsum (fun a => F a b) la) lb.
Proof.
  induction la as [|a la IH]; simpl.
  - symmetry. apply lsum_zero; auto.
  - rewrite IH, <- lsum_add. apply lsum_ext; auto.
Qed.

Lemma lsum_flat_map {A B} (f : B -> Z) (g : A -> list B) l :
  lsum f (flat_map g l) = lsum (fun a => lsum f (g a)) l.
Proof. induction l; simpl; auto. rewrite lsum_app, IHl; auto. Qed.

Lemma lsum_concat {A} (f : A -> Z) ls : lsum f (concat ls) = lsum (lsum f) ls.
Proof. induction ls; simpl; auto. rewrite lsum_app, IHls; auto. Qed.

(** ** sumr *)
Lemma sumr_empty lo hi f : hi <= lo -> sumr lo hi f = 0.
Proof. intros. unfold sumr. now rewrite zrange_empty. Qed.
Lemma sumr_cons lo hi f : lo < hi -> sumr lo hi f = f lo + sumr (lo + 1) hi f.
Proof. intros. unfold sumr. now rewrite zrange_cons. Qed.
Lemma sumr_snoc lo hi f : lo <= hi -> sumr lo (hi + 1) f = sumr lo hi f + f hi.
Proof. intros. unfold sumr. rewrite zrange_snoc by auto. rewrite lsum_app; simpl; lia. Qed.
Lemma sumr_split lo mid hi f : lo <= mid <= hi -> sumr lo hi f = sumr lo mid f + sumr mid hi f.
Proof. intros. unfold sumr. rewrite (zrange_app lo mid hi) by auto. apply lsum_app. Qed.
Lemma sumr_ext lo hi f g : (forall i, lo <= i < hi -> f i = g i) -> sumr lo hi f = sumr lo hi g.
Proof. intros H. apply lsum_ext_in. intros x Hx. apply H. now apply in_zrange. Qed.
Lemma sumr_add lo hi f g : sumr lo hi (fun i => f i + g i) = sumr lo hi f + sumr lo hi g.
Proof. apply lsum_add. Qed.
Lemma sumr_sub lo hi f g : sumr lo hi (fun i => f i - g i) = sumr lo hi f - sumr lo hi g.
Proof. apply lsum_sub. Qed.
Lemma sumr_scal lo hi c f : sumr lo hi (fun i => c * f i) = c * sumr lo hi f.
Proof. apply lsum_scal. Qed.
Lemma sumr_opp lo hi f : sumr lo hi (fun i => - f i) = - sumr lo hi f.
Proof. apply lsum_opp. Qed.
Lemma sumr_zero lo hi f : (forall i, lo <= i < hi -> f i = 0) -> sumr lo hi f = 0.
Proof. intros H. apply lsum_zero. intros x Hx. apply H. now apply in_zrange. Qed.
Lemma sumr_nonneg lo hi f : (forall i, lo <= i < hi -> 0 <= f i) -> 0 <= sumr lo hi f.
Proof. intros H. apply lsum_nonneg. intros x Hx. apply H. now apply in_zrange. Qed.
Lemma sumr_le lo hi f g : (forall i, lo <= i < hi -> f i <= g i) -> sumr lo hi f <= sumr lo hi g.
Proof. intros H. apply lsum_le. intros x Hx. apply H. now apply in_zrange. Qed.
Lemma sumr_shift lo hi d f : sumr (lo + d) (hi + d) f = sumr lo hi (fun i => f (i + d)).
Proof. unfold sumr. rewrite zrange_shift, lsum_map. reflexivity. Qed.
Lemma sumr_const lo hi c : lo <= hi -> sumr lo hi (fun _ => c) = c * (hi - lo).
Proof. intros. unfold sumr. rewrite lsum_const, zrange_length. f_equal. lia. Qed.
Lemma sumr_single lo hi k f : lo <= k < hi -> (forall i, lo <= i < hi -> i <> k -> f i = 0) ->
  sumr lo hi f = f k.
Proof.
  intros Hk H. rewrite (sumr_split lo k hi) by lia. rewrite (sumr_cons k hi) by lia.
  rewrite (sumr_zero lo k), (sumr_zero (k + 1) hi); [lia| |]; intros; apply H; lia.
Qed.

(** Reindexing of the multiples of p. *)
Lemma sumr_multiples p y g : 0 < p ->
  sumr 1 (y + 1) (fun n => if n mod p =? 0 then g n else 0) = sumr 1 (y / p + 1) (fun m => g (p * m)).
Proof.
  intros Hp. unfold sumr.
  rewrite <- (lsum_filter g (fun n => n mod p =? 0)).
  rewrite <- (lsum_map g (fun m => p * m)).
  apply lsum_same_elements.
  - apply NoDup_filter, zrange_NoDup.
  - apply FinFun.Injective_map_NoDup; [|apply zrange_NoDup]. intros a b; nia.
  - intros n. rewrite filter_In, in_zrange, in_map_iff. split.
    + intros [Hn Hm]. apply Z.eqb_eq in Hm.
      exists (n / p). pose proof (Z.div_mod n p ltac:(lia)). split; [lia|].
      apply in_zrange. assert (n / p <= y / p) by (apply Z.div_le_mono; lia).
      assert (0 < n / p) by nia. lia.
    + intros (m & <- & Hm). apply in_zrange in Hm. split.
      * assert (m <= y / p) by lia. pose proof (Z.mul_div_le y p Hp). nia.
      * apply Z.eqb_eq. rewrite Z.mul_comm. apply Z.mod_mul. lia.
Qed.

(** ** Checked arrays *)
Section Arr.
  Context {A : Type}.
  Definition zlen (l : list A) : Z := Z.of_nat (length l).

  (** [v[i]]; undefined behaviour when out of range. *)
  Definition aget (l : list A) (i : Z) : res A :=
    if i <? 0 then Fail UB else
    match nth_error l (Z.to_nat i) with Some a => Ok a | None => Fail UB end.

  Fixpoint upd (l : list A) (n : nat) (v : A) : list A :=
    match l, n with
    | [], _ => []
    | _ :: t, O => v :: t
    | h :: t, S n' => h :: upd t n' v
    end.

  (** [v[i] = a]; undefined behaviour when out of range. *)
  Definition aset (l : list A) (i : Z) (v : A) : res (list A) :=
    if (0 <=? i) && (i <? zlen l) then Ok (upd l (Z.to_nat i) v) else Fail UB.

  Lemma upd_length l n v : length (upd l n v) = length l.
  Proof. revert n; induction l; destruct n; simpl; auto. Qed.

  Lemma nth_error_upd l n v k : (n < length l)%nat ->
    nth_error (upd l n v) k = if Nat.eqb k n then Some v else nth_error l k.
  Proof.
    revert n k; induction l; intros n k H; simpl in H; [lia|].
    destruct n, k; simpl; auto. apply IHl. lia.
  Qed.

  Lemma aget_ok l i d : 0 <= i < zlen l -> aget l i = Ok (nth (Z.to_nat i) l d).
  Proof.
    unfold zlen, aget. intros H. destruct (Z.ltb_spec i 0); [lia|].
    rewrite (nth_error_nth' l d) by lia. reflexivity.
  Qed.

  Lemma aget_range l i v : aget l i = Ok v -> 0 <= i < zlen l.
  Proof.
    unfold aget, zlen. destruct (Z.ltb_spec i 0); [discriminate|].
    destruct (nth_error l (Z.to_nat i)) eqn:E; [|discriminate].
    intros _. assert (nth_error l (Z.to_nat i) <> None) by congruence.
    apply nth_error_Some in H0. lia.
  Qed.

  Lemma aget_ex l i : 0 <= i < zlen l -> exists v, aget l i = Ok v.
  Proof.
    unfold zlen, aget. intros H. destruct (Z.ltb_spec i 0); [lia|].
    destruct (nth_error l (Z.to_nat i)) eqn:E; eauto.
    apply nth_error_None in E. lia.
  Qed.

  Lemma aget_In l i v : aget l i = Ok v -> In v l.
  Proof.
    unfold aget. destruct (i <? 0); [discriminate|].
    destruct (nth_error l (Z.to_nat i)) eqn:E; [|discriminate].
    intros H; inversion H; subst. eapply nth_error_In; eauto.
  Qed.

  Lemma aset_ok l i v : 0 <= i < zlen l -> exists l', aset l i v = Ok l' /\ zlen l' = zlen l /\
    (forall j, aget l' j = if j =? i then Ok v else aget l j).
  Proof.
    unfold aset. intros H. destruct (Z.leb_spec 0 i); [|lia]. destruct (Z.ltb_spec i (zlen l)); [|lia].
    simpl. eexists; split; [reflexivity|]. split; [unfold zlen; now rewrite upd_length|].
    intros j. unfold aget. destruct (Z.ltb_spec j 0).
    - destruct (Z.eqb_spec j i); [lia|auto].
    - unfold zlen in *. rewrite nth_error_upd by lia.
      destruct (Z.eqb_spec j i).
      + subst. now rewrite Nat.eqb_refl.
      + destruct (Nat.eqb_spec (Z.to_nat j) (Z.to_nat i)); [lia|]. reflexivity.
  Qed.

  Lemma wp_aget l i (Q : A -> Prop) : 0 <= i < zlen l -> (forall v, aget l i = Ok v -> Q v) -> wp (aget l i) Q.
  Proof. intros H HQ. destruct (aget_ex l i H) as [v E]. rewrite E. simpl; auto. Qed.

  Lemma wp_aset l i v (Q : list A -> Prop) : 0 <= i < zlen l ->
    (forall l', zlen l' = zlen l -> (forall j, aget l' j = if j =? i then Ok v else aget l j) -> Q l') ->
    wp (aset l i v) Q.
  Proof. intros H HQ. destruct (aset_ok l i v H) as (l' & E & Hl & Hg). rewrite E. simpl; auto. Qed.

  (** Initial array: n copies of v. *)
  Definition amake (n : Z) (v : A) : list A := repeat v (Z.to_nat n).

  Lemma amake_len n v : 0 <= n -> zlen (amake n v) = n.
  Proof. intros. unfold zlen, amake. rewrite repeat_length. lia. Qed.

  Lemma amake_get n v i : 0 <= i < n -> aget (amake n v) i = Ok v.
  Proof.
    intros. rewrite (aget_ok _ _ v) by (rewrite amake_len; lia). f_equal.
    apply nth_repeat.
  Qed.

  Lemma nth_error_ext' (l1 l2 : list A) : (forall n, nth_error l1 n = nth_error l2 n) -> l1 = l2.
  Proof.
    revert l2; induction l1 as [|a l1 IH]; intros [|b l2] H; auto.
    - specialize (H 0%nat); discriminate.
    - specialize (H 0%nat); discriminate.
    - f_equal; [specialize (H 0%nat); simpl in H; congruence|].
      apply IH. intros n. exact (H (S n)).
  Qed.

  Lemma list_ext (l1 l2 : list A) : zlen l1 = zlen l2 -> (forall i, 0 <= i < zlen l1 -> aget l1 i = aget l2 i) -> l1 = l2.
  Proof.
    intros Hl H. apply nth_error_ext'. intros n.
    unfold zlen in *.
    destruct (Nat.lt_ge_cases n (length l1)) as [Hn|Hn].
    - specialize (H (Z.of_nat n) ltac:(lia)). unfold aget in H.
      destruct (Z.ltb_spec (Z.of_nat n) 0); [lia|]. rewrite Nat2Z.id in H.
      destruct (nth_error l1 n), (nth_error l2 n); congruence.
    - rewrite (proj2 (nth_error_None l1 n)) by auto. symmetry. apply nth_error_None. lia.
  Qed.

  Lemma zlen_nonneg (l : list A) : 0 <= zlen l.
  Proof. unfold zlen; lia. Qed.
  Lemma zlen_cons x l : zlen (x :: l) = zlen l + 1.
  Proof. unfold zlen; cbn [length]; lia. Qed.
  Lemma zlen_app l1 l2 : zlen (l1 ++ l2) = zlen l1 + zlen l2.
  Proof. unfold zlen; rewrite app_length; lia. Qed.
  Lemma aget_cons x l i : aget (x :: l) i = if i =? 0 then Ok x else aget l (i - 1).
  Proof.
    unfold aget. destruct (Z.ltb_spec i 0), (Z.eqb_spec i 0); try lia.
    - destruct (Z.ltb_spec (i - 1) 0); [auto|lia].
    - subst; reflexivity.
    - destruct (Z.ltb_spec (i - 1) 0); [lia|].
      replace (Z.to_nat i) with (S (Z.to_nat (i - 1))) by lia. reflexivity.
  Qed.
  Lemma aget_app l1 l2 i : aget (l1 ++ l2) i = if i <? zlen l1 then aget l1 i else aget l2 (i - zlen l1).
  Proof.
    unfold aget, zlen. destruct (Z.ltb_spec i 0).
    - destruct (Z.ltb_spec i (Z.of_nat (length l1))); auto. lia.
    - destruct (Z.ltb_spec i (Z.of_nat (length l1))).
      + rewrite nth_error_app1 by lia. auto.
      + destruct (Z.ltb_spec (i - Z.of_nat (length l1)) 0); [lia|].
        rewrite nth_error_app2 by lia. replace (Z.to_nat (i - Z.of_nat (length l1))) with (Z.to_nat i - length l1)%nat by lia. auto.
  Qed.
End Arr.

Lemma aget_map {A B} (f : A -> B) l i : aget (map f l) i = (x <- aget l i ;; Ok (f x)).
Proof.
  unfold aget. destruct (i <? 0); auto. rewrite nth_error_map.
  destruct (nth_error l (Z.to_nat i)); auto.
Qed.

Lemma zlen_map {A B} (f : A -> B) l : zlen (map f l) = zlen l.
Proof. unfold zlen; now rewrite map_length. Qed.

Lemma zlen_zrange lo hi : lo <= hi -> zlen (zrange lo hi) = hi - lo.
Proof. intros; unfold zlen. rewrite zrange_length. lia. Qed.

Lemma aget_zrange lo hi i : 0 <= i < hi - lo -> aget (zrange lo hi) i = Ok (lo + i).
Proof.
  intros H. unfold zrange. rewrite aget_map.
  unfold aget. destruct (Z.ltb_spec i 0); [lia|].
  assert (E : nth_error (seq 0 (Z.to_nat (hi - lo))) (Z.to_nat i) = Some (Z.to_nat i)).
  { rewrite (nth_error_nth' _ 0%nat) by (rewrite seq_length; lia). rewrite seq_nth by lia. f_equal. }
  rewrite E. simpl. f_equal. lia.
Qed.
