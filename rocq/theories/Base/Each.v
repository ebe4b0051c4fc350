(** Loops over the elements of a list, and copies between arrays.
    (Infrastructure: models no particular source line.) *)
From Coq Require Import ZArith List Lia Bool.
From Verif.Base Require Import Res Zl.
Import ListNotations.
Open Scope Z_scope.

(** [for (auto& a : l) s = f(a, s)] *)
Fixpoint each {A S} (f : A -> S -> res S) (l : list A) (s : S) : res S :=
  match l with
  | [] => Ok s
  | a :: l => s <- f a s ;; each f l s
  end.
(** The same with a loop that replaces every element *)
Fixpoint each_map {A S} (f : A -> S -> res (A * S)) (l : list A) (s : S) : res (list A * S) :=
  match l with
  | [] => Ok ([], s)
  | a :: l =>
      ' (a, s) <- f a s ;;
      ' (l, s) <- each_map f l s ;;
      Ok (a :: l, s)
  end.

Lemma each_rule {A S} (f : A -> S -> res S) (Inv : list A -> S -> Prop) l s (Q : S -> Prop) :
  Inv [] s -> (forall done a s, (exists rest, l = done ++ a :: rest) -> Inv done s -> wp (f a s) (Inv (done ++ [a]))) ->
  (forall s, Inv l s -> Q s) -> wp (each f l s) Q.
Proof.
  intros H0 HS HQ. enough (G : forall rest done s, l = done ++ rest -> Inv done s -> wp (each f rest s) Q) by (apply (G l []); auto).
  clear s H0. induction rest as [|a rest IH]; intros done s E I; cbn [each].
  - apply HQ. now rewrite E, app_nil_r.
  - apply wp_bind. eapply wp_mono; [apply (HS done a s); eauto|]. intros s' I'. apply (IH (done ++ [a])); auto. now rewrite <- app_assoc.
Qed.

Lemma each_map_rule {A S} (f : A -> S -> res (A * S)) (Inv : list A -> list A -> S -> Prop) l s (Q : list A * S -> Prop) :
  Inv [] [] s ->
  (forall done done' a s, (exists rest, l = done ++ a :: rest) -> Inv done done' s -> wp (f a s) (fun '(a', s') => Inv (done ++ [a]) (done' ++ [a']) s')) ->
  (forall l' s, Inv l l' s -> Q (l', s)) -> wp (each_map f l s) Q.
Proof.
  intros H0 HS HQ.
  enough (G : forall rest done done' s, l = done ++ rest -> Inv done done' s -> wp (each_map f rest s) (fun '(r, s') => Q (done' ++ r, s'))).
  { eapply wp_mono; [apply (G l [] []); auto|]. now intros [r s']. }
  clear s H0. induction rest as [|a rest IH]; intros done done' s E I; cbn [each_map].
  - cbn [wp]. rewrite app_nil_r in *. subst. auto.
  - apply wp_bind. eapply wp_mono; [apply (HS done done' a s); eauto|]. intros [a' s'] I'. apply wp_bind.
    eapply wp_mono; [apply (IH (done ++ [a]) (done' ++ [a'])); auto; now rewrite <- app_assoc|].
    intros [r s''] HQ'. cbn [wp]. now rewrite <- app_assoc in HQ'.
Qed.

(** [std::copy_n(&src[si], n, &dst[di])] *)
Definition acopy {A} (src : list A) (si n : Z) (dst : list A) (di : Z) : res (list A) :=
  if (0 <=? si) && (0 <=? n) && (si + n <=? zlen src) && (0 <=? di) && (di + n <=? zlen dst)
  then Ok (firstn (Z.to_nat di) dst ++ firstn (Z.to_nat n) (skipn (Z.to_nat si) src) ++ skipn (Z.to_nat (di + n)) dst)
  else Fail UB.

Lemma zlen_firstn {A} (l : list A) n : 0 <= n <= zlen l -> zlen (firstn (Z.to_nat n) l) = n.
Proof. unfold zlen. intros H. rewrite firstn_length. lia. Qed.
Lemma zlen_skipn {A} (l : list A) n : 0 <= n <= zlen l -> zlen (skipn (Z.to_nat n) l) = zlen l - n.
Proof. unfold zlen. intros H. rewrite skipn_length. lia. Qed.
Lemma aget_firstn {A} (l : list A) n i : 0 <= i < n -> n <= zlen l -> aget (firstn (Z.to_nat n) l) i = aget l i.
Proof.
  intros Hi Hn. rewrite <- (firstn_skipn (Z.to_nat n) l) at 2. rewrite aget_app, zlen_firstn by lia.
  destruct (Z.ltb_spec i n); [reflexivity|lia].
Qed.
Lemma aget_skipn {A} (l : list A) n i : 0 <= n <= zlen l -> 0 <= i -> aget (skipn (Z.to_nat n) l) i = aget l (n + i).
Proof.
  intros Hn Hi. rewrite <- (firstn_skipn (Z.to_nat n) l) at 2. rewrite aget_app, zlen_firstn by lia.
  destruct (Z.ltb_spec (n + i) n); [lia|]. f_equal. lia.
Qed.

Lemma acopy_ok {A} (src : list A) si n dst di (Q : list A -> Prop) :
  0 <= si -> 0 <= n -> si + n <= zlen src -> 0 <= di -> di + n <= zlen dst ->
  (forall l, zlen l = zlen dst ->
     (forall k, 0 <= k < zlen dst -> aget l k = if (di <=? k) && (k <? di + n) then aget src (si + (k - di)) else aget dst k) -> Q l) ->
  wp (acopy src si n dst di) Q.
Proof.
  intros H1 H2 H3 H4 H5 HQ. unfold acopy.
  replace ((0 <=? si) && (0 <=? n) && (si + n <=? zlen src) && (0 <=? di) && (di + n <=? zlen dst)) with true by (symmetry; rewrite !andb_true_iff, !Z.leb_le; lia).
  cbn [wp]. apply HQ.
  - rewrite !zlen_app, zlen_firstn, zlen_firstn, zlen_skipn; try lia. rewrite zlen_skipn; lia.
  - intros k Hk. rewrite aget_app, zlen_firstn by lia. destruct (Z.leb_spec di k), (Z.ltb_spec k di); try lia.
    + rewrite aget_app, zlen_firstn by (rewrite zlen_skipn; lia). cbn [andb].
      destruct (Z.ltb_spec (k - di) n), (Z.ltb_spec k (di + n)); try lia.
      * rewrite aget_firstn by (rewrite ?zlen_skipn; lia). rewrite aget_skipn by lia. reflexivity.
      * rewrite aget_skipn by lia. f_equal. lia.
    + cbn [andb]. rewrite aget_firstn by lia. reflexivity.
Qed.

(** Loop rule with a measure that is not a function of the state. *)
Section LoopGhost.
  Context {S R : Type} (f : S -> res (S + R)) (Inv : Z -> S -> Prop) (Q : R -> Prop).
  Hypothesis step : forall n s, Inv n s ->
    wp (f s) (fun x => match x with inl s' => exists n', 0 <= n' < n /\ Inv n' s' | inr r => Q r end).
  Lemma loopP_ghost p : forall n s, Inv n s ->
    wp (loopP f p s) (fun x => match x with inl s' => exists n', 0 <= n' <= n - Zpos p /\ Inv n' s' | inr r => Q r end).
  Proof.
    induction p as [q IH|q IH|]; intros n s Hs; cbn [loopP].
    - specialize (step n s Hs). destruct (f s) as [[s'|r]|e]; simpl in *; auto.
      destruct step as (n' & Hn & Hs'). specialize (IH n' s' Hs') as IH1.
      destruct (loopP f q s') as [[s2|r]|e]; simpl in *; auto.
      destruct IH1 as (n2 & H2 & H1). specialize (IH n2 s2 H1) as IH2.
      eapply wp_mono; [exact IH2|]. intros [s3|r3]; auto. intros (n3 & H3 & H4). exists n3. split; auto. lia.
    - specialize (IH n s Hs) as IH1.
      destruct (loopP f q s) as [[s2|r]|e]; simpl in *; auto.
      destruct IH1 as (n2 & H2 & H1). specialize (IH n2 s2 H1) as IH2.
      eapply wp_mono; [exact IH2|]. intros [s3|r3]; auto. intros (n3 & H3 & H4). exists n3. split; auto. lia.
    - eapply wp_mono; [exact (step n s Hs)|]. intros [s3|r3]; auto. intros (n3 & H3 & H4). exists n3. split; auto. lia.
  Qed.
  #[local] Transparent loop.
  Lemma loop_ghost n s : Inv n s -> n < 2 ^ 400 -> wp (loop f s) Q.
  Proof.
    intros Hs Hm. unfold loop. pose proof (loopP_ghost fuel400 n s Hs) as H.
    destruct (loopP f fuel400 s) as [[s'|r]|e]; simpl in *; auto.
    destruct H as (n' & H & _). change (Z.pos fuel400) with (2^400) in H. lia.
  Qed.
  #[local] Opaque loop.
End LoopGhost.
