(** A rule for loops that covers failing runs as well. *)
From Coq Require Import ZArith Lia.
From Verif.Base Require Import Res.
Open Scope Z_scope.

Section LoopRes.
  Context {S R : Type} (f : S -> res (S + R)) (Inv : S -> Prop) (m : S -> Z)
          (Q : res R -> Prop).
  Hypothesis step : forall s, Inv s ->
    match f s with
    | Ok (inl s') => Inv s' /\ 0 <= m s' < m s
    | Ok (inr r) => Q (Ok r)
    | Fail e => Q (Fail e)
    end.

  Lemma loopP_res p : forall s, Inv s ->
    match loopP f p s with
    | Ok (inl s') => Inv s' /\ 0 <= m s' <= m s - Zpos p
    | Ok (inr r) => Q (Ok r)
    | Fail e => Q (Fail e)
    end.
  Proof.
    induction p as [q IH|q IH|]; intros s Hs; cbn [loopP].
    - specialize (step s Hs). destruct (f s) as [[s'|r]|e]; auto.
      destruct step as [Hs' Hm]. specialize (IH s' Hs') as IH1.
      destruct (loopP f q s') as [[s2|r]|e]; auto.
      destruct IH1 as [H1 H2]. specialize (IH s2 H1) as IH2.
      destruct (loopP f q s2) as [[s3|r]|e]; auto. destruct IH2. split; auto. lia.
    - specialize (IH s Hs) as IH1.
      destruct (loopP f q s) as [[s2|r]|e]; auto.
      destruct IH1 as [H1 H2]. specialize (IH s2 H1) as IH2.
      destruct (loopP f q s2) as [[s3|r]|e]; auto. destruct IH2. split; auto. lia.
    - specialize (step s Hs). destruct (f s) as [[s'|r]|e]; auto. destruct step. split; auto. lia.
  Qed.

  Local Transparent loop fuel400.
  Lemma loop_res s : Inv s -> m s < 2 ^ 400 -> Q (loop f s).
  Proof.
    intros Hs Hm. unfold loop.
    pose proof (loopP_res fuel400 s Hs) as H.
    destruct (loopP f fuel400 s) as [[s'|r]|e]; auto.
    destruct H as [_ H]. change (Z.pos fuel400) with (2^400) in H. lia.
  Qed.
End LoopRes.
