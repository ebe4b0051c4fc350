(** Result monad and loop combinator used by all models.
    (Infrastructure: models no particular source line.)  *)
From Coq Require Import ZArith List Lia Bool.
Import ListNotations.
Open Scope Z_scope.

(** Ways in which a C++ computation does not deliver a value:
    [UB]    undefined behaviour (out-of-bounds access, bad shift, overflow, ...)
    [Throw] a C++ exception is thrown
    [Abort] std::abort() / exit
    [Fuel]  artefact: the loop fuel of the model is exhausted. *)
Inductive err := UB | Throw | Abort | Fuel.

Inductive res (A : Type) := Ok (a : A) | Fail (e : err).
Arguments Ok {A}. Arguments Fail {A}.

Definition bind {A B} (m : res A) (f : A -> res B) : res B :=
  match m with Ok a => f a | Fail e => Fail e end.

Notation "x <- m ;; k" := (bind m (fun x => k))
  (at level 61, m at next level, right associativity).
Notation "' p <- m ;; k" := (bind m (fun x => let p := x in k))
  (at level 61, p pattern, m at next level, right associativity).
Notation "m ;;; k" := (bind m (fun _ => k)) (at level 61, right associativity).

Definition assert_ (b : bool) (e : err) : res unit := if b then Ok tt else Fail e.

(** Weakest precondition (total correctness). *)
Definition wp {A} (m : res A) (Q : A -> Prop) : Prop :=
  match m with Ok a => Q a | Fail _ => False end.

Lemma wp_ok {A} (a : A) (Q : A -> Prop) : Q a -> wp (Ok a) Q.
Proof. auto. Qed.

Lemma wp_bind {A B} (m : res A) (f : A -> res B) Q :
  wp m (fun a => wp (f a) Q) -> wp (bind m f) Q.
Proof. destruct m; simpl; auto. Qed.

Lemma wp_mono {A} (m : res A) (P Q : A -> Prop) :
  wp m P -> (forall a, P a -> Q a) -> wp m Q.
Proof. destruct m; simpl; auto. Qed.

Lemma wp_eq {A} (m : res A) v : wp m (fun a => a = v) <-> m = Ok v.
Proof.
  destruct m; simpl; split; intros H; try contradiction; try discriminate.
  - now subst. - now inversion H.
Qed.

Lemma wp_inv {A} (m : res A) Q : wp m Q -> exists a, m = Ok a /\ Q a.
Proof. destruct m; simpl; intros; [eauto|contradiction]. Qed.

Lemma wp_of_eq {A} (m : res A) v (Q : A -> Prop) : m = Ok v -> Q v -> wp m Q.
Proof. intros ->; auto. Qed.

Lemma wp_assert b e (Q : unit -> Prop) : b = true -> Q tt -> wp (assert_ b e) Q.
Proof. intros ->; auto. Qed.

(** [loopP f p s] runs at most [p] steps of [f] from [s]; a step either
    continues with a new state ([inl]) or leaves the loop ([inr]). *)
Fixpoint loopP {S R} (f : S -> res (S + R)) (p : positive) (s : S) : res (S + R) :=
  match p with
  | xH => f s
  | xO q =>
      match loopP f q s with
      | Ok (inl s') => loopP f q s'
      | r => r
      end
  | xI q =>
      match f s with
      | Ok (inl s') =>
          match loopP f q s' with
          | Ok (inl s'') => loopP f q s''
          | r => r
          end
      | r => r
      end
  end.

(** 2^400: more iterations than any terminating execution on 128-bit data. *)
Definition fuel400 : positive := Eval vm_compute in (2 ^ 400)%positive.

Definition loop {S R} (f : S -> res (S + R)) (s : S) : res R :=
  match loopP f fuel400 s with
  | Ok (inr r) => Ok r
  | Ok (inl _) => Fail Fuel
  | Fail e => Fail e
  end.

Section LoopRule.
  Context {S R : Type} (f : S -> res (S + R)) (Inv : S -> Prop) (m : S -> Z)
          (Q : R -> Prop).
  Hypothesis step : forall s, Inv s ->
    wp (f s) (fun x => match x with
                       | inl s' => Inv s' /\ 0 <= m s' < m s
                       | inr r => Q r end).

  Lemma loopP_rule p : forall s, Inv s ->
    wp (loopP f p s) (fun x => match x with
                       | inl s' => Inv s' /\ 0 <= m s' <= m s - Zpos p
                       | inr r => Q r end).
  Proof.
    induction p as [q IH|q IH|]; intros s Hs; cbn [loopP].
    - specialize (step s Hs). destruct (f s) as [[s'|r]|e]; simpl in *; auto.
      destruct step as [Hs' Hm].
      specialize (IH s' Hs') as IH1.
      destruct (loopP f q s') as [[s2|r]|e]; simpl in *; auto.
      destruct IH1 as [H1 H2]. specialize (IH s2 H1) as IH2.
      eapply wp_mono; [exact IH2|]. intros [s3|r3]; auto.
      intros [H3 H4]; split; auto. lia.
    - specialize (IH s Hs) as IH1.
      destruct (loopP f q s) as [[s2|r]|e]; simpl in *; auto.
      destruct IH1 as [H1 H2]. specialize (IH s2 H1) as IH2.
      eapply wp_mono; [exact IH2|]. intros [s3|r3]; auto.
      intros [H3 H4]; split; auto. lia.
    - eapply wp_mono; [exact (step s Hs)|].
      intros [s3|r3]; auto. intros [H3 H4]; split; auto. lia.
  Qed.

  Lemma loop_rule s : Inv s -> m s < 2 ^ 400 -> wp (loop f s) Q.
  Proof.
    intros Hs Hm. unfold loop.
    pose proof (loopP_rule fuel400 s Hs) as H.
    destruct (loopP f fuel400 s) as [[s'|r]|e]; simpl in *; auto.
    destruct H as [_ H]. change (Z.pos fuel400) with (2^400) in H. lia.
  Qed.
End LoopRule.

(** Partial rule: whatever the loop returns satisfies [Q] (no termination claim). *)
Section LoopPartial.
  Context {S R : Type} (f : S -> res (S + R)) (Inv : S -> Prop) (Q : R -> Prop).
  Hypothesis step : forall s, Inv s ->
    match f s with
    | Ok (inl s') => Inv s' | Ok (inr r) => Q r | Fail _ => True end.
  Lemma loopP_partial p : forall s, Inv s ->
    match loopP f p s with
    | Ok (inl s') => Inv s' | Ok (inr r) => Q r | Fail _ => True end.
  Proof.
    induction p as [q IH|q IH|]; intros s Hs; cbn [loopP].
    - specialize (step s Hs). destruct (f s) as [[s'|r]|e]; auto.
      specialize (IH s' step) as IH1.
      destruct (loopP f q s') as [[s2|r]|e]; auto. now apply IH.
    - specialize (IH s Hs) as IH1.
      destruct (loopP f q s) as [[s2|r]|e]; auto. now apply IH.
    - now apply step.
  Qed.
  Lemma loop_partial s r : Inv s -> loop f s = Ok r -> Q r.
  Proof.
    unfold loop. intros Hs. pose proof (loopP_partial fuel400 s Hs) as H.
    destruct (loopP f fuel400 s) as [[s'|r']|e]; intros E; inversion E; subst; auto.
  Qed.
End LoopPartial.

(** [for (i = lo; i < hi; i++) s = body i s] *)
Definition for_ {S} (lo hi : Z) (body : Z -> S -> res S) (s : S) : res S :=
  loop (fun st : Z * S =>
          let '(i, s) := st in
          if i <? hi then s' <- body i s ;; Ok (inl (i + 1, s')) else Ok (inr s))
       (lo, s).

(** [for (i = hi; i > lo; i--) s = body i s] *)
Definition for_down {S} (hi lo : Z) (body : Z -> S -> res S) (s : S) : res S :=
  loop (fun st : Z * S =>
          let '(i, s) := st in
          if i >? lo then s' <- body i s ;; Ok (inl (i - 1, s')) else Ok (inr s))
       (hi, s).

(** [for (i = lo; i < hi; i += d) s = body i s] *)
Definition for_step {S} (lo hi d : Z) (body : Z -> S -> res S) (s : S) : res S :=
  loop (fun st : Z * S =>
          let '(i, s) := st in
          if i <? hi then s' <- body i s ;; Ok (inl (i + d, s')) else Ok (inr s))
       (lo, s).

Lemma for_rule {S} lo hi (body : Z -> S -> res S) (Inv : Z -> S -> Prop) s (Q : S -> Prop) :
  hi - lo < 2 ^ 400 ->
  Inv lo s ->
  (forall i s, lo <= i < hi -> Inv i s -> wp (body i s) (Inv (i + 1))) ->
  (forall s, Inv (Z.max lo hi) s -> Q s) ->
  wp (for_ lo hi body s) Q.
Proof.
  intros Hf H0 Hstep HQ. unfold for_.
  apply (loop_rule _ (fun st => lo <= fst st <= Z.max lo hi /\ Inv (fst st) (snd st))
                     (fun st => Z.max 0 (hi - fst st))).
  - intros [i s1] [Hi Hinv]. cbn [fst snd] in *.
    destruct (Z.ltb_spec i hi) as [Hlt|Hge].
    + apply wp_bind. eapply wp_mono; [apply Hstep; [lia|exact Hinv]|].
      intros s2 H2. simpl. split; [split; [lia|exact H2]|lia].
    + simpl. apply HQ. replace (Z.max lo hi) with i by lia. exact Hinv.
  - simpl. split; [lia|exact H0].
  - simpl. lia.
Qed.

Lemma for_down_rule {S} hi lo (body : Z -> S -> res S) (Inv : Z -> S -> Prop) s (Q : S -> Prop) :
  hi - lo < 2 ^ 400 ->
  Inv hi s ->
  (forall i s, lo < i <= hi -> Inv i s -> wp (body i s) (Inv (i - 1))) ->
  (forall s, Inv (Z.min lo hi) s -> Q s) ->
  wp (for_down hi lo body s) Q.
Proof.
  intros Hf H0 Hstep HQ. unfold for_down.
  apply (loop_rule _ (fun st => Z.min lo hi <= fst st <= hi /\ Inv (fst st) (snd st))
                     (fun st => Z.max 0 (fst st - lo))).
  - intros [i s1] [Hi Hinv]. cbn [fst snd] in *.
    destruct (Z.gtb_spec i lo) as [Hlt|Hge].
    + apply wp_bind. eapply wp_mono; [apply Hstep; [lia|exact Hinv]|].
      intros s2 H2. simpl. split; [split; [lia|exact H2]|lia].
    + simpl. apply HQ. replace (Z.min lo hi) with i by lia. exact Hinv.
  - simpl. split; [lia|exact H0].
  - simpl. lia.
Qed.

(** For-loop with stride: the invariant is indexed by the number of iterations done. *)
Lemma for_step_rule {S} lo hi d (body : Z -> S -> res S) (Inv : Z -> S -> Prop) s (Q : S -> Prop) :
  0 < d -> hi - lo < 2 ^ 400 ->
  Inv lo s ->
  (forall i s, lo <= i < hi -> (d | i - lo) -> Inv i s -> wp (body i s) (Inv (i + d))) ->
  (forall i s, lo <= i -> hi <= i -> (d | i - lo) -> i < Z.max (lo + d) (hi + d) -> Inv i s -> Q s) ->
  wp (for_step lo hi d body s) Q.
Proof.
  intros Hd Hf H0 Hstep HQ. unfold for_step.
  apply (loop_rule _ (fun st => lo <= fst st /\ (d | fst st - lo) /\
                       fst st < Z.max (lo + d) (hi + d) /\ Inv (fst st) (snd st))
                     (fun st => Z.max 0 (hi - fst st))).
  - intros [i s1] (Hi & Hdv & Hub & Hinv). cbn [fst snd] in *.
    destruct (Z.ltb_spec i hi) as [Hlt|Hge].
    + apply wp_bind. eapply wp_mono; [apply Hstep; [lia|exact Hdv|exact Hinv]|].
      intros s2 H2. simpl. split; [|lia].
      repeat split; try lia; auto.
      replace (i + d - lo) with ((i - lo) + d) by ring.
      apply Z.divide_add_r; [exact Hdv|apply Z.divide_refl].
    + simpl. eapply HQ; eauto.
  - simpl. repeat split; try lia; auto. replace (lo - lo) with 0 by ring. apply Z.divide_0_r.
  - simpl. lia.
Qed.

Lemma for_empty {S} lo hi (body : Z -> S -> res S) s : hi <= lo -> for_ lo hi body s = Ok s.
Proof.
  intros H. apply wp_eq. apply (for_rule lo hi body (fun i t => t = s)); auto; try lia.
Qed.

Lemma loopP_done {S R} (f : S -> res (S + R)) p s r :
  f s = Ok (inr r) -> loopP f p s = Ok (inr r).
Proof.
  intros H. induction p; cbn [loopP]; rewrite ?H, ?IHp; auto.
Qed.
Lemma loopP_fail {S R} (f : S -> res (S + R)) p s e :
  f s = Fail e -> loopP f p s = Fail e.
Proof.
  intros H. induction p; cbn [loopP]; rewrite ?H, ?IHp; auto.
Qed.
Lemma loop_done {S R} (f : S -> res (S + R)) s r :
  f s = Ok (inr r) -> loop f s = Ok r.
Proof. intros H. unfold loop. now rewrite (loopP_done _ _ _ _ H). Qed.
Lemma loop_fail {S R} (f : S -> res (S + R)) s e :
  f s = Fail e -> loop f s = Fail e.
Proof. intros H. unfold loop. now rewrite (loopP_fail _ _ _ _ H). Qed.

Global Opaque loop fuel400.
