(** Parallel loops with a sum reduction.
    (Infrastructure: models "#pragma omp parallel for ... reduction(+: sum)".)
    A schedule lists, for each thread, the iterations it runs, in order; it is
    valid for a range when every iteration occurs exactly once.  Every thread
    starts from its own copy of the private state and from sum 0; the partial
    sums are added to the initial value at the end. *)
From Coq Require Import ZArith List Lia Permutation.
From Verif.Base Require Import Res Word Zl.
Import ListNotations.
Open Scope Z_scope.

Definition schedule_of (sch : list (list Z)) (lo hi : Z) : Prop := Permutation (concat sch) (zrange lo hi).
(** A scheduler that is valid for every range. *)
Definition valid_sched (sched : Z -> Z -> list (list Z)) : Prop :=
  forall lo hi, schedule_of (sched lo hi) lo hi.

Section Par.
  Context {S : Type} (chk : Z -> res Z) (body : Z -> S -> res (Z * S)).
  (** one thread *)
  Fixpoint run_thread (its : list Z) (sum : Z) (st : S) : res Z :=
    match its with
    | [] => Ok sum
    | i :: its =>
        r <- body i st ;;
        sum <- chk (sum + fst r) ;;
        run_thread its sum (snd r)
    end.
  Fixpoint par_sum (sch : list (list Z)) (st : S) (sum : Z) : res Z :=
    match sch with
    | [] => Ok sum
    | its :: sch =>
        v <- run_thread its 0 st ;;
        sum <- chk (sum + v) ;;
        par_sum sch st sum
    end.

  Context (Inv : S -> Prop) (f : Z -> Z) (good : Z -> Prop).
  Hypothesis chk_good : forall z, good z -> chk z = Ok z.

  Lemma run_thread_ok its : forall sum st, Inv st ->
    (forall i s, In i its -> Inv s -> wp (body i s) (fun r => fst r = f i /\ Inv (snd r))) ->
    (forall l1 l2, its = l1 ++ l2 -> good (sum + lsum f l1)) ->
    run_thread its sum st = Ok (sum + lsum f its).
  Proof.
    induction its as [|i its IH]; intros sum st Hst Hb Hg; cbn [run_thread].
    - rewrite lsum_nil. f_equal. lia.
    - destruct (wp_inv _ _ (Hb i st (or_introl eq_refl) Hst)) as ([v s'] & E & Ev & Hs'). rewrite E.
      cbn [fst snd bind] in *. rewrite Ev.
      assert (G1 : good (sum + f i)).
      { specialize (Hg [i] its eq_refl). rewrite lsum_cons, lsum_nil in Hg. now rewrite Z.add_0_r in Hg. }
      rewrite (chk_good _ G1). cbn [bind]. rewrite IH; auto.
      + rewrite lsum_cons. f_equal. lia.
      + intros j s Hj. apply Hb. now right.
      + intros l1 l2 ->. specialize (Hg (i :: l1) l2 eq_refl). rewrite lsum_cons in Hg. now rewrite <- Z.add_assoc.
  Qed.

  Lemma par_sum_gen s0 sch : forall dn st, Inv st ->
    (forall i s, In i (concat sch) -> Inv s -> wp (body i s) (fun r => fst r = f i /\ Inv (snd r))) ->
    (forall l1 l2, Permutation (l1 ++ l2) (dn ++ concat sch) -> good (lsum f l1) /\ good (s0 + lsum f l1)) ->
    par_sum sch st (s0 + lsum f dn) = Ok (s0 + lsum f (dn ++ concat sch)).
  Proof.
    induction sch as [|its sch IH]; intros dn st Hst Hb Hg; cbn [par_sum concat].
    - now rewrite app_nil_r.
    - rewrite run_thread_ok; auto.
      + cbn [bind]. rewrite Z.add_0_l. cbn [concat] in Hg.
        assert (G : good (s0 + lsum f dn + lsum f its)).
        { rewrite <- Z.add_assoc, <- lsum_app. apply (Hg (dn ++ its) (concat sch)). now rewrite app_assoc. }
        rewrite (chk_good _ G). cbn [bind]. rewrite <- Z.add_assoc, <- lsum_app.
        rewrite IH; auto.
        * now rewrite app_assoc.
        * intros i s Hi. apply Hb. simpl. apply in_or_app. now right.
        * intros l1 l2 P. apply (Hg l1 l2). now rewrite P, app_assoc.
      + intros i s Hi. apply Hb. simpl. apply in_or_app. now left.
      + intros l1 l2 ->. rewrite Z.add_0_l. apply (Hg l1 (dn ++ l2 ++ concat sch)). simpl.
        rewrite !app_assoc. do 2 apply Permutation_app_tail. apply Permutation_app_comm.
  Qed.

  Lemma par_sum_ok lo hi sch st s0 : schedule_of sch lo hi -> Inv st ->
    (forall i s, lo <= i < hi -> Inv s -> wp (body i s) (fun r => fst r = f i /\ Inv (snd r))) ->
    (forall l1 l2, Permutation (l1 ++ l2) (zrange lo hi) -> good (lsum f l1) /\ good (s0 + lsum f l1)) ->
    par_sum sch st s0 = Ok (s0 + sumr lo hi f).
  Proof.
    unfold schedule_of. intros P Hst Hb Hg. pose proof (par_sum_gen s0 sch [] st Hst) as H. rewrite lsum_nil, Z.add_0_r in H.
    rewrite H.
    - f_equal. f_equal. simpl. unfold sumr. now apply lsum_perm.
    - intros i s Hi. apply Hb. apply in_zrange. now rewrite <- P.
    - intros l1 l2 P2. apply (Hg l1 l2). rewrite P2. exact P.
  Qed.
End Par.

(** All terms <= 0: it is enough to bound the complete sum. *)
Lemma par_sum_neg {S} n body (Inv : S -> Prop) f lo hi sch st s0 : schedule_of sch lo hi -> Inv st ->
  (forall i s, lo <= i < hi -> Inv s -> wp (body i s) (fun r => fst r = f i /\ Inv (snd r))) ->
  (forall i, lo <= i < hi -> f i <= 0) ->
  smin n <= sumr lo hi f -> in_s n s0 -> in_s n (s0 + sumr lo hi f) ->
  par_sum (schk n) body sch st s0 = Ok (s0 + sumr lo hi f).
Proof.
  intros P Hst Hb Hneg H1 H2 H3. apply (par_sum_ok (schk n) body Inv f (in_s n)); auto.
  - intros z Hz. now apply schk_ok.
  - intros l1 l2 P2.
    assert (E : sumr lo hi f = lsum f l1 + lsum f l2) by (unfold sumr; rewrite <- (lsum_perm f _ _ P2); apply lsum_app).
    assert (N : forall l, (forall i, In i l -> In i (l1 ++ l2)) -> lsum f l <= 0).
    { intros l Hl. rewrite <- (lsum_zero (fun _ => 0) l) by auto. apply lsum_le. intros i Hi. apply Hneg.
      apply in_zrange. rewrite <- P2. auto. }
    pose proof (N l1 ltac:(intros; apply in_or_app; auto)). pose proof (N l2 ltac:(intros; apply in_or_app; auto)).
    unfold in_s, smin, smax in *. pose proof (Z.pow_nonneg 2 (n - 1) ltac:(lia)). split; lia.
Qed.
(** Unbounded accumulator. *)
Lemma par_sum_Z {S} body (Inv : S -> Prop) f lo hi sch st s0 : schedule_of sch lo hi -> Inv st ->
  (forall i s, lo <= i < hi -> Inv s -> wp (body i s) (fun r => fst r = f i /\ Inv (snd r))) ->
  par_sum (@Ok Z) body sch st s0 = Ok (s0 + sumr lo hi f).
Proof. intros P Hst Hb. apply (par_sum_ok (@Ok Z) body Inv f (fun _ => True)); auto. Qed.

(** The same with a loop body that adds to the reduction variable itself; [add] combines
    the values of the threads. *)
Section Acc.
  Context {S : Type} (add : Z -> Z -> res Z) (body : Z -> Z -> S -> res (Z * S)).
  Fixpoint acc_thread (its : list Z) (sum : Z) (st : S) : res Z :=
    match its with
    | [] => Ok sum
    | i :: its => r <- body i sum st ;; acc_thread its (fst r) (snd r)
    end.
  Fixpoint par_acc (sch : list (list Z)) (st : S) (sum : Z) : res Z :=
    match sch with
    | [] => Ok sum
    | its :: sch =>
        v <- acc_thread its 0 st ;;
        sum <- add sum v ;;
        par_acc sch st sum
    end.

  (** It is enough to bound the sum of the absolute values of the terms. *)
  Context (Inv : S -> Prop) (f g : Z -> Z) (M : Z) (lo hi : Z).
  Hypothesis add_ok : forall a b, Z.abs (a + b) <= M -> add a b = Ok (a + b).
  Hypothesis body_ok : forall i sum s, lo <= i < hi -> Inv s -> Z.abs sum + g i <= M ->
    wp (body i sum s) (fun r => fst r = sum + f i /\ Inv (snd r)).
  Hypothesis f_g : forall i, lo <= i < hi -> Z.abs (f i) <= g i.

  Let all l := Forall (fun i => lo <= i < hi) l.
  Lemma acc_abs l : all l -> Z.abs (lsum f l) <= lsum g l.
  Proof.
    unfold all. induction l as [|i l IH]; intros H; [rewrite !lsum_nil; reflexivity|]. rewrite !lsum_cons.
    inversion H; subst. specialize (IH H3). pose proof (f_g i H2). lia.
  Qed.
  Lemma acc_thread_ok its : forall sum st, all its -> Inv st -> Z.abs sum + lsum g its <= M ->
    acc_thread its sum st = Ok (sum + lsum f its).
  Proof.
    induction its as [|i its IH]; intros sum st Ha Hst Hg; cbn [acc_thread].
    - rewrite lsum_nil. f_equal. lia.
    - rewrite lsum_cons in Hg. inversion Ha; subst. pose proof (acc_abs its H2). pose proof (Z.abs_nonneg (lsum f its)).
      destruct (wp_inv _ _ (body_ok i sum st H1 Hst ltac:(lia))) as ([v s'] & E & Ev & Hs'). rewrite E.
      cbn [fst snd bind] in *. subst v. pose proof (f_g i H1). rewrite IH; auto; [|lia]. rewrite lsum_cons. f_equal. lia.
  Qed.
  Lemma par_acc_gen sch : forall sum st, all (concat sch) -> Inv st -> Z.abs sum + lsum g (concat sch) <= M ->
    par_acc sch st sum = Ok (sum + lsum f (concat sch)).
  Proof.
    induction sch as [|its sch IH]; intros sum st Ha Hst Hg; cbn [par_acc concat] in *.
    - rewrite lsum_nil. f_equal. lia.
    - rewrite lsum_app in Hg. apply Forall_app in Ha. destruct Ha as [A1 A2].
      pose proof (acc_abs its A1). pose proof (acc_abs (concat sch) A2).
      rewrite acc_thread_ok; auto; [|rewrite Z.abs_0; lia]. cbn [bind]. rewrite Z.add_0_l. rewrite add_ok by lia. cbn [bind].
      rewrite IH; auto; [|lia]. rewrite lsum_app. f_equal. lia.
  Qed.
  Lemma par_acc_ok sch st s0 : schedule_of sch lo hi -> Inv st -> Z.abs s0 + sumr lo hi g <= M ->
    par_acc sch st s0 = Ok (s0 + sumr lo hi f).
  Proof.
    unfold schedule_of. intros P Hst Hg. rewrite par_acc_gen; auto.
    - f_equal. f_equal. unfold sumr. now apply lsum_perm.
    - apply Forall_forall. intros i Hi. apply in_zrange. now rewrite <- P.
    - unfold sumr in Hg. rewrite (lsum_perm g _ _ P). exact Hg.
  Qed.
End Acc.

(** The same when the values are represented up to an encoding [e] (wrapped words); [B m]:
    sums of absolute value at most m are within the range of the type. *)
Section Enc.
  Context {S : Type} (add : Z -> Z -> res Z) (body : Z -> Z -> S -> res (Z * S)).
  Context (e : Z -> Z) (B : Z -> Prop) (Inv : S -> Prop) (f g : Z -> Z) (lo hi : Z).
  Hypothesis e_0 : e 0 = 0.
  Hypothesis B_mono : forall m m', m <= m' -> B m' -> B m.
  Hypothesis add_ok : forall a b, B (Z.abs a + Z.abs b) -> add (e a) (e b) = Ok (e (a + b)).
  Hypothesis body_ok : forall i sum s, lo <= i < hi -> Inv s -> B (Z.abs sum + g i) ->
    wp (body i (e sum) s) (fun r => fst r = e (sum + f i) /\ Inv (snd r)).
  Hypothesis f_g : forall i, lo <= i < hi -> Z.abs (f i) <= g i.

  Let all l := Forall (fun i => lo <= i < hi) l.
  Lemma enc_thread_ok its : forall sum st, all its -> Inv st -> B (Z.abs sum + lsum g its) ->
    acc_thread body its (e sum) st = Ok (e (sum + lsum f its)).
  Proof.
    induction its as [|i its IH]; intros sum st Ha Hst Hg; cbn [acc_thread].
    - rewrite lsum_nil. do 2 f_equal. lia.
    - rewrite lsum_cons in Hg. inversion Ha; subst. pose proof (acc_abs f g lo hi f_g its H2). pose proof (Z.abs_nonneg (lsum f its)).
      assert (B1 : B (Z.abs sum + g i)) by (eapply B_mono; [|exact Hg]; lia).
      destruct (wp_inv _ _ (body_ok i sum st H1 Hst B1)) as ([v s'] & E & Ev & Hs'). rewrite E.
      cbn [fst snd bind] in *. subst v. pose proof (f_g i H1). rewrite IH; auto.
      + rewrite lsum_cons. do 2 f_equal. lia.
      + eapply B_mono; [|exact Hg]. lia.
  Qed.
  Lemma par_enc_gen sch : forall sum st, all (concat sch) -> Inv st -> B (Z.abs sum + lsum g (concat sch)) ->
    par_acc add body sch st (e sum) = Ok (e (sum + lsum f (concat sch))).
  Proof.
    induction sch as [|its sch IH]; intros sum st Ha Hst Hg; cbn [par_acc concat] in *.
    - rewrite lsum_nil. do 2 f_equal. lia.
    - rewrite lsum_app in Hg. apply Forall_app in Ha. destruct Ha as [A1 A2].
      pose proof (acc_abs f g lo hi f_g its A1). pose proof (acc_abs f g lo hi f_g (concat sch) A2).
      replace (acc_thread body its 0 st) with (acc_thread body its (e 0) st) by now rewrite e_0.
      rewrite enc_thread_ok; auto; [|rewrite Z.abs_0; eapply B_mono; [|exact Hg]; lia]. cbn [bind]. rewrite Z.add_0_l.
      rewrite add_ok by (eapply B_mono; [|exact Hg]; lia). cbn [bind].
      rewrite IH; auto; [|eapply B_mono; [|exact Hg]; lia]. rewrite lsum_app. do 2 f_equal. lia.
  Qed.
  Lemma par_enc_ok sch st s0 : schedule_of sch lo hi -> Inv st -> B (Z.abs s0 + sumr lo hi g) ->
    par_acc add body sch st (e s0) = Ok (e (s0 + sumr lo hi f)).
  Proof.
    unfold schedule_of. intros P Hst Hg. rewrite par_enc_gen; auto.
    - do 2 f_equal. f_equal. unfold sumr. now apply lsum_perm.
    - apply Forall_forall. intros i Hi. apply in_zrange. now rewrite <- P.
    - unfold sumr in Hg. rewrite (lsum_perm g _ _ P). exact Hg.
  Qed.
End Enc.

(** The same when the iterations also write to shared data; [Inv dn s]: the data after the
    iterations dn. *)
Section Shared.
  Context {S : Type} (add : Z -> Z -> res Z) (body : Z -> Z -> S -> res (Z * S)).
  Fixpoint accs_thread (its : list Z) (sum : Z) (st : S) : res (Z * S) :=
    match its with
    | [] => Ok (sum, st)
    | i :: its => r <- body i sum st ;; accs_thread its (fst r) (snd r)
    end.
  Fixpoint par_accs (sch : list (list Z)) (st : S) (sum : Z) : res (Z * S) :=
    match sch with
    | [] => Ok (sum, st)
    | its :: sch =>
        r <- accs_thread its 0 st ;;
        sum <- add sum (fst r) ;;
        par_accs sch (snd r) sum
    end.

  Context (Inv : list Z -> S -> Prop) (f g : Z -> Z) (M : Z) (lo hi : Z).
  Hypothesis add_ok : forall a b, Z.abs (a + b) <= M -> add a b = Ok (a + b).
  Hypothesis body_ok : forall i sum dn s, lo <= i < hi -> Inv dn s -> Z.abs sum + g i <= M ->
    wp (body i sum s) (fun r => fst r = sum + f i /\ Inv (dn ++ [i]) (snd r)).
  Hypothesis f_g : forall i, lo <= i < hi -> Z.abs (f i) <= g i.

  Let all l := Forall (fun i => lo <= i < hi) l.
  Lemma accs_thread_ok its : forall sum dn st, all its -> Inv dn st -> Z.abs sum + lsum g its <= M ->
    wp (accs_thread its sum st) (fun r => fst r = sum + lsum f its /\ Inv (dn ++ its) (snd r)).
  Proof.
    induction its as [|i its IH]; intros sum dn st Ha Hst Hg; cbn [accs_thread].
    - cbn [wp fst snd]. rewrite lsum_nil, app_nil_r. split; [lia|auto].
    - rewrite lsum_cons in Hg. inversion Ha; subst. pose proof (acc_abs f g lo hi f_g its H2). pose proof (Z.abs_nonneg (lsum f its)).
      destruct (wp_inv _ _ (body_ok i sum dn st H1 Hst ltac:(lia))) as ([v s'] & E & Ev & Hs'). rewrite E.
      cbn [fst snd bind] in *. subst v. pose proof (f_g i H1). eapply wp_mono; [apply (IH _ _ _ H2 Hs'); lia|].
      intros r (E1 & E2). rewrite lsum_cons. split; [lia|]. rewrite <- app_assoc in E2. exact E2.
  Qed.
  Lemma par_accs_gen sch : forall sum dn st, all (concat sch) -> Inv dn st -> Z.abs sum + lsum g (concat sch) <= M ->
    wp (par_accs sch st sum) (fun r => fst r = sum + lsum f (concat sch) /\ Inv (dn ++ concat sch) (snd r)).
  Proof.
    induction sch as [|its sch IH]; intros sum dn st Ha Hst Hg; cbn [par_accs concat] in *.
    - cbn [wp fst snd]. rewrite lsum_nil, app_nil_r. split; [lia|auto].
    - rewrite lsum_app in Hg. apply Forall_app in Ha. destruct Ha as [A1 A2].
      pose proof (acc_abs f g lo hi f_g its A1). pose proof (acc_abs f g lo hi f_g (concat sch) A2).
      apply wp_bind. eapply wp_mono; [apply (accs_thread_ok its 0 dn); auto; rewrite Z.abs_0; lia|].
      intros r (E1 & E2). rewrite E1, Z.add_0_l. rewrite add_ok by lia. cbn [bind].
      eapply wp_mono; [apply (IH _ _ _ A2 E2); lia|]. intros r' (E3 & E4). rewrite lsum_app. split; [lia|]. now rewrite app_assoc.
  Qed.
  Lemma par_accs_ok sch st s0 : schedule_of sch lo hi -> Inv [] st -> Z.abs s0 + sumr lo hi g <= M ->
    wp (par_accs sch st s0) (fun r => fst r = s0 + sumr lo hi f /\ Inv (concat sch) (snd r)).
  Proof.
    unfold schedule_of. intros P Hst Hg. eapply wp_mono; [apply (par_accs_gen sch s0 [] st)|]; auto.
    - apply Forall_forall. intros i Hi. apply in_zrange. now rewrite <- P.
    - unfold sumr in Hg. rewrite (lsum_perm g _ _ P). exact Hg.
    - intros r (E1 & E2). split; [|exact E2]. unfold sumr. now rewrite <- (lsum_perm f _ _ P).
  Qed.
End Shared.
