(** Correctness of the model of the wheel. *)
From Coq Require Import ZArith List Bool Lia Znumtheory.
From Verif.Base Require Import Res Word Zl IType.
From Verif.Spec Require Import WheelSpec.
From Verif.Model Require Import Imath Wheel.
From Verif.Proofs Require Import Imath Phi.
Import ListNotations.
Open Scope Z_scope.
Local Ltac Zify.zify_post_hook ::= idtac.

Lemma coprime210_mod k : coprime210 (k mod 210) = coprime210 k.
Proof. unfold coprime210. rewrite Z.gcd_mod by lia. rewrite Z.gcd_comm. reflexivity. Qed.
Lemma coprime210_add k d : coprime210 (k mod 210 + d) = coprime210 (k + d).
Proof. rewrite <- coprime210_mod, Zplus_mod_idemp_l, coprime210_mod. reflexivity. Qed.

(** position of the residue in the list of the 48 residues coprime to 210 *)
Definition res210 : list Z := filter coprime210 (zrange 0 210).

Definition init_check : bool := forallb (fun r => match aget wheel_init r with
  | Ok (f, w) => (0 <=? f) && (f <=? 10) && coprime210 (r + f) && forallb (fun d => negb (coprime210 (r + d))) (zrange 0 f) &&
      match aget res210 w with Ok v => v =? (r + f) mod 210 | _ => false end
  | _ => false end) (zrange 0 210).
Definition next_check : bool := forallb (fun w => match aget wheel_next w, aget res210 w with
  | Ok (f, w'), Ok r => (1 <=? f) && (f <=? 10) && coprime210 (r + f) && forallb (fun d => negb (coprime210 (r + d))) (zrange 1 f) &&
      match aget res210 w' with Ok v => v =? (r + f) mod 210 | _ => false end
  | _, _ => false end) (zrange 0 48).
Lemma init_check_ok : init_check = true. Proof. vm_compute. reflexivity. Qed.
Lemma next_check_ok : next_check = true. Proof. vm_compute. reflexivity. Qed.

Lemma wheel_init_spec k : 0 <= k -> exists f w, aget wheel_init (k mod 210) = Ok (f, w) /\ 0 <= f <= 10 /\
  coprime210 (k + f) = true /\ (forall d, 0 <= d < f -> coprime210 (k + d) = false) /\ aget res210 w = Ok ((k + f) mod 210).
Proof.
  intros Hk. pose proof init_check_ok as C. unfold init_check in C. rewrite forallb_forall in C.
  pose proof (Z.mod_pos_bound k 210 ltac:(lia)). specialize (C (k mod 210)). rewrite in_zrange in C. specialize (C ltac:(lia)).
  destruct (aget wheel_init (k mod 210)) as [[f w]|]; [|discriminate]. exists f, w. split; auto.
  rewrite !andb_true_iff in C. destruct C as ((((C1 & C2) & C3) & C4) & C5). rewrite coprime210_add in C3.
  split; [lia|]. split; [exact C3|]. split.
  - intros d Hd. rewrite forallb_forall in C4. specialize (C4 d). rewrite in_zrange in C4. specialize (C4 ltac:(lia)).
    rewrite coprime210_add in C4. now destruct (coprime210 (k + d)).
  - destruct (aget res210 w) as [v|]; [|discriminate]. apply Z.eqb_eq in C5. rewrite C5, Zplus_mod_idemp_l. reflexivity.
Qed.
Lemma wheel_next_spec k w : aget res210 w = Ok (k mod 210) -> exists f w', aget wheel_next w = Ok (f, w') /\ 1 <= f <= 10 /\
  coprime210 (k + f) = true /\ (forall d, 1 <= d < f -> coprime210 (k + d) = false) /\ aget res210 w' = Ok ((k + f) mod 210).
Proof.
  intros Hw. pose proof next_check_ok as C. unfold next_check in C. rewrite forallb_forall in C.
  assert (R : 0 <= w < 48). { pose proof (aget_range _ _ _ Hw) as R. change (zlen res210) with 48 in R. exact R. }
  specialize (C w). rewrite in_zrange in C. specialize (C ltac:(lia)). rewrite Hw in C.
  destruct (aget wheel_next w) as [[f w']|]; [|discriminate]. exists f, w'. split; auto.
  rewrite !andb_true_iff in C. destruct C as ((((C1 & C2) & C3) & C4) & C5). rewrite coprime210_add in C3.
  split; [lia|]. split; [exact C3|]. split.
  - intros d Hd. rewrite forallb_forall in C4. specialize (C4 d). rewrite in_zrange in C4. specialize (C4 ltac:(lia)).
    rewrite coprime210_add in C4. now destruct (coprime210 (k + d)).
  - destruct (aget res210 w') as [v|]; [|discriminate]. apply Z.eqb_eq in C5. rewrite C5, Zplus_mod_idemp_l. reflexivity.
Qed.

(** The item points at the first hit at or after low. *)
Definition item_at (p low : Z) (it : wheel_item) : Prop :=
  exists k, fst it = p * k /\ coprime210 k = true /\ low <= p * k /\ p * k <= low + 11 * p /\
    (forall n, low <= n < p * k -> wheel_hit p n = false) /\ aget res210 (snd it) = Ok (k mod 210).

Lemma wheel_hit_mul p k : 1 <= p -> wheel_hit p (p * k) = coprime210 k.
Proof. intros Hp. unfold wheel_hit. rewrite (Z.mul_comm p k), Z.mod_mul, Z.div_mul by lia. reflexivity. Qed.
(** no hit strictly between two consecutive coprime factors *)
Lemma no_hit_between p a b n : 1 <= p -> p * a <= n < p * b -> (forall k, a <= k < b -> coprime210 k = false) -> wheel_hit p n = false.
Proof.
  intros Hp Hn H. unfold wheel_hit. destruct (Z.eqb_spec (n mod p) 0) as [E|]; auto. cbn [andb].
  apply H. split; [apply Z.div_le_lower_bound; lia|apply Z.div_lt_upper_bound; lia].
Qed.
Lemma no_hit_gap p k f n : 1 <= p -> p * k < n < p * (k + f) -> (forall d, 1 <= d < f -> coprime210 (k + d) = false) -> wheel_hit p n = false.
Proof.
  intros Hp Hn H. destruct (Z.le_gt_cases (p * (k + 1)) n) as [L|L].
  - apply (no_hit_between p (k + 1) (k + f)); [lia|lia|]. intros j Hj. replace j with (k + (j - k)) by ring. apply H. lia.
  - unfold wheel_hit. destruct (Z.eqb_spec (n mod p) 0) as [E|]; auto. exfalso.
    apply Z.mod_divide in E; [|lia]. destruct E as [q ->]. assert (k < q < k + 1) by nia. lia.
Qed.

Theorem wheel_start_ok p low (Q : wheel_item -> Prop) : 1 <= p -> 1 <= low -> low + 12 * p < 2 ^ 63 ->
  (forall it, item_at p low it -> Q it) -> wp (wheel_start p low) Q.
Proof.
  intros Hp Hl Hb HQ. unfold wheel_start.
  destruct (ceil_div_all i64 low p) as (q & Eq & Q1 & Q2); [cbn; tauto|lia|lia|change (tmax i64) with (2 ^ 63 - 1); lia|].
  rewrite Eq, bind_Ok. assert (Hq : 1 <= q) by nia.
  assert (Hq2 : p * q < low + p). { specialize (Q2 (q - 1)). destruct (Z.le_gt_cases low ((q - 1) * p)); [|lia]. specialize (Q2 H). lia. }
  assert (IN : forall v, 0 <= v -> v < 2 ^ 63 -> in_s 64 v).
  { intros v H1 H2. unfold in_s. change (smin 64) with (- 2 ^ 63). change (smax 64) with (2 ^ 63 - 1). lia. }
  rewrite schk_ok by (apply IN; nia). rewrite bind_Ok. rewrite Z.rem_mod_nonneg by lia.
  destruct (wheel_init_spec q ltac:(lia)) as (f & w & E & Hf & C1 & C2 & C3). rewrite E, bind_Ok.
  rewrite schk_ok by (apply IN; nia). rewrite bind_Ok. rewrite schk_ok by (apply IN; nia). rewrite bind_Ok. cbn [wp].
  apply HQ. exists (q + f). cbn [fst snd]. split; [ring|]. split; [exact C1|]. split; [nia|]. split; [nia|]. split; [|exact C3].
  intros n Hn. destruct (Z.le_gt_cases (p * q) n) as [L|L].
  - apply (no_hit_between p q (q + f)); [lia|lia|]. intros j Hj. replace j with (q + (j - q)) by ring. apply C2. lia.
  - unfold wheel_hit. destruct (Z.eqb_spec (n mod p) 0) as [En|]; auto. exfalso.
    apply Z.mod_divide in En; [|lia]. destruct En as [k ->]. specialize (Q2 k ltac:(lia)). nia.
Qed.

(** Rule for the loop over the multiples of one prime: the invariant is indexed by
    all integers, those that are no hits are skipped. *)
Lemma skip_range {S} p (Inv : Z -> S -> Prop) s a b : a <= b ->
  (forall n, a <= n < b -> wheel_hit p n = false) ->
  (forall n s, a <= n < b -> wheel_hit p n = false -> Inv n s -> Inv (n + 1) s) -> Inv a s -> Inv b s.
Proof.
  intros Hab H1 H2 H3. cut (forall d, 0 <= d -> a + d <= b -> Inv (a + d) s).
  { intros H. replace b with (a + (b - a)) by ring. apply H; lia. }
  intros d Hd. pattern d. apply natlike_ind; [| |exact Hd].
  - intros _. now rewrite Z.add_0_r.
  - intros k Hk IH Hkb. unfold Z.succ. rewrite Z.add_assoc. apply H2; [lia|apply H1; lia|apply IH; lia].
Qed.

Theorem wheel_for_rule {S} p low high it (body : Z -> S -> res S) (Inv : Z -> S -> Prop) s (Q : S * wheel_item -> Prop) :
  1 <= p -> 0 <= low <= high -> high + 12 * p < 2 ^ 63 -> item_at p low it ->
  Inv low s ->
  (forall n s, low <= n < high -> wheel_hit p n = true -> Inv n s -> wp (body n s) (Inv (n + 1))) ->
  (forall n s, low <= n < high -> wheel_hit p n = false -> Inv n s -> Inv (n + 1) s) ->
  (forall s it, Inv high s -> item_at p high it -> Q (s, it)) ->
  wp (wheel_for p high it body s) Q.
Proof.
  intros Hp Hlh Hb (k0 & K1 & K2 & K3 & KB & K4 & K5) HI Hbody Hskip HQ. unfold wheel_for.
  assert (P400 : 2 ^ 64 < 2 ^ 400) by reflexivity.
  destruct (Z.le_gt_cases high (p * k0)) as [L0|L0].
  { (* nothing in this segment *)
    apply (loop_rule _ (fun '(m, w, s') => m = p * k0 /\ w = snd it /\ s' = s) (fun _ => 0)); [|rewrite K1; auto|lia].
    intros [[m w] s'] (-> & -> & ->). destruct (Z.ltb_spec (p * k0) high); [lia|]. cbn [wp]. apply HQ.
    - apply (skip_range p Inv s low high); [lia| |auto|exact HI]. intros n Hn. apply K4. lia.
    - exists k0. cbn [fst snd]. split; [reflexivity|]. split; [exact K2|]. split; [lia|]. split; [lia|]. split; [intros; apply K4; lia|exact K5]. }
  apply (loop_rule _ (fun '(m, w, s) => exists k, m = p * k /\ coprime210 k = true /\ low <= p * k /\ p * k <= high + 11 * p /\
      aget res210 w = Ok (k mod 210) /\
      (if m <? high then Inv m s else Inv high s /\ forall n, high <= n < p * k -> wheel_hit p n = false))
    (fun '(m, _, _) => Z.max 0 (high - m))).
  - intros [[m w] s1] (k & -> & C & Lk & Bk & Hw & HI1).
    destruct (Z.ltb_spec (p * k) high) as [L|L].
    + apply wp_bind. eapply wp_mono; [apply Hbody; [lia|now rewrite wheel_hit_mul|exact HI1]|]. intros s2 HI2.
      destruct (wheel_next_spec k w Hw) as (f & w' & E & Hf & C1 & C2 & C3). rewrite E, bind_Ok.
      assert (IN : forall v, 0 <= v -> v < 2 ^ 63 -> in_s 64 v).
      { intros v H1 H2. unfold in_s. change (smin 64) with (- 2 ^ 63). change (smax 64) with (2 ^ 63 - 1). lia. }
      assert (0 <= p * k) by lia.
      rewrite schk_ok by (apply IN; nia). rewrite bind_Ok. rewrite schk_ok by (apply IN; nia). rewrite bind_Ok. cbn [wp].
      assert (HG : forall n, p * k + 1 <= n < p * (k + f) -> wheel_hit p n = false).
      { intros n Hn. apply (no_hit_gap p k f); [lia|lia|exact C2]. }
      split; [|nia]. exists (k + f). split; [ring|]. split; [exact C1|]. split; [nia|]. split; [nia|]. split; [exact C3|].
      replace (p * k + p * f) with (p * (k + f)) by ring.
      destruct (Z.ltb_spec (p * (k + f)) high) as [L2|L2].
      * apply (skip_range p Inv s2 (p * k + 1) (p * (k + f))); [nia|exact HG| |exact HI2]. intros; apply Hskip; auto. lia.
      * split; [|intros; apply HG; lia].
        apply (skip_range p Inv s2 (p * k + 1) high); [lia|intros; apply HG; lia| |exact HI2]. intros; apply Hskip; auto. lia.
    + cbn [wp]. destruct HI1 as [HI1 HN]. apply HQ; [exact HI1|]. exists k. cbn [fst snd].
      split; [reflexivity|]. split; [exact C|]. split; [lia|]. split; [lia|]. split; [exact HN|exact Hw].
  - exists k0. split; [exact K1|]. split; [exact K2|]. split; [lia|]. split; [lia|]. split; [exact K5|].
    rewrite K1. destruct (Z.ltb_spec (p * k0) high); [|lia].
    apply (skip_range p Inv s low (p * k0)); [lia|exact K4| |exact HI]. intros; apply Hskip; auto. lia.
  - lia.
Qed.

(** *** Any sequence of segments *)
Fixpoint wheel_runs (p low : Z) (it : wheel_item) (ends : list Z) : res (list (list Z)) :=
  match ends with
  | [] => Ok []
  | h :: ends =>
      ' (l, it) <- wheel_for p h it (fun m l => Ok (l ++ [m])) [] ;;
      r <- wheel_runs p h it ends ;; Ok (l :: r)
  end.
Lemma wheel_runs_ok p ends : 1 <= p -> forall low it, 0 <= low -> segments_from low ends ->
  (forall h, In h ends -> h + 12 * p < 2 ^ 63) -> item_at p low it ->
  wheel_runs p low it ends = Ok (hits_from p low ends).
Proof.
  intros Hp. induction ends as [|h ends IH]; intros low it Hl HS HB HI; [reflexivity|]. destruct HS as [Hlh HS].
  apply wp_eq. cbn [wheel_runs hits_from]. apply wp_bind.
  eapply (wheel_for_rule p low h it _ (fun n l => l = wheel_hits p low n)); [lia|lia|apply HB; now left|exact HI| | | |].
  - unfold wheel_hits. now rewrite zrange_empty by lia.
  - intros n l Hn Hh ->. cbn [wp]. unfold wheel_hits. rewrite zrange_snoc by lia. rewrite filter_app. cbn [filter]. now rewrite Hh.
  - intros n l Hn Hh ->. unfold wheel_hits. rewrite zrange_snoc by lia. rewrite filter_app. cbn [filter]. now rewrite Hh, app_nil_r.
  - intros l it' -> HI'. rewrite IH; [reflexivity|lia|exact HS|intros; apply HB; now right|exact HI'].
Qed.
Theorem wheel_ok p low ends : 1 <= p -> 1 <= low -> low + 12 * p < 2 ^ 63 -> segments_from low ends ->
  (forall h, In h ends -> h + 12 * p < 2 ^ 63) ->
  (it <- wheel_start p low ;; wheel_runs p low it ends) = Ok (hits_from p low ends).
Proof.
  intros. apply wp_eq. apply wp_bind. apply wheel_start_ok; auto. intros it HI.
  rewrite wheel_runs_ok; auto; [reflexivity|lia].
Qed.
