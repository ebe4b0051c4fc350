(** The self test succeeds. *)
From Coq Require Import ZArith List Bool Lia.
From Verif.Base Require Import Res Word Zl Par IType.
From Verif.Spec Require Import Primes IntSpec LMOSpec PhiSumSpec.
From Verif.Model Require Import Imath Phi P2 Oracles LMO1 LMO LMOParallel DelegliseRivat SelfTest.
From Verif.Proofs Require Import Primes Accum Bounds Phi P2 LMO1 DelegliseRivat LMO25 LMOPar Main.
Import ListNotations.
Open Scope Z_scope.
Local Ltac Zify.zify_post_hook ::= idtac.

(** The environments are admissible for all arguments that occur. *)
Definition valid_test (e : test_env) : Prop :=
  (forall k n x, 0 <= x < 2 ^ 34 -> valid_par (te_lmo e k n) x) /\
  (forall n x, 0 <= x < 2 ^ 34 -> valid_dr (te_dr e n) x /\ x <= dr_limit (te_dr e n)) /\
  (forall k i, 0 <= te_rand e k i) /\
  (forall b i n, valid_sched (te_leg e b i n)) /\ valid_sched (te_sched e) /\ 1 <= te_threads e < 2 ^ 31.

Lemma check_all_ok f1 f2 g iters rand : 0 <= iters <= 1000 -> (forall i, 0 <= rand i) ->
  (forall n x, 0 <= x <= Z.max 10000 (iters * 9999001) -> f1 n x = Ok (g x) /\ f2 n x = Ok (g x)) -> check_all f1 f2 iters rand = Ok tt.
Proof.
  intros Hi Hr Hf. unfold check_all.
  assert (E1 : for_ 0 10000 (fun x _ => a <- f1 x x ;; b <- f2 x x ;; check_equal a b) tt = Ok tt).
  { apply wp_eq. apply (for_rule 0 10000 _ (fun _ s => s = tt)); [apply Z.lt_trans with (2 ^ 20); reflexivity|reflexivity| |auto].
    intros x s Hx ->. destruct (Hf x x ltac:(lia)) as [-> ->]. cbn [bind]. unfold check_equal. rewrite Z.eqb_refl. apply wp_ok. reflexivity. }
  rewrite E1. cbn [bind].
  assert (E2 : wp (for_ 0 iters (fun i x => a <- f1 (10000 + i) x ;; b <- f2 (10000 + i) x ;; _ <- check_equal a b ;; schk 64 (x + get_rand (rand i))) 0) (fun _ => True)).
  { apply (for_rule 0 iters _ (fun i x => 0 <= x <= i * 9999001)); [apply Z.le_lt_trans with 1000; [lia|reflexivity]|lia| |auto].
    intros i x Hx Hb. destruct (Hf (10000 + i) x ltac:(nia)) as [-> ->]. cbn [bind]. unfold check_equal. rewrite Z.eqb_refl. cbn [bind].
    assert (R : 1 <= get_rand (rand i) <= 9999001). { unfold get_rand. pose proof (Z.rem_bound_pos (rand i) 10000 (Hr i) ltac:(lia)). lia. }
    rewrite schk_ok.
    2: { unfold in_s. change (smin 64) with (- 2 ^ 63). change (smax 64) with (2 ^ 63 - 1). assert (i * 9999001 <= 1000 * 9999001) by lia. lia. }
    apply wp_ok. lia. }
  destruct (wp_inv _ _ E2) as (v & -> & _). reflexivity.
Qed.

(** a loop all of whose iterations go on or fail with [e] fails with [e] *)
Lemma loopP_fails {S R} (f : S -> res (S + R)) (Inv : S -> Prop) (m : S -> Z) e :
  (forall s, Inv s -> f s = Fail e \/ exists s', f s = Ok (inl s') /\ Inv s' /\ 0 <= m s' < m s) ->
  forall p s, Inv s -> loopP f p s = Fail e \/ exists s', loopP f p s = Ok (inl s') /\ Inv s' /\ 0 <= m s' <= m s - Zpos p.
Proof.
  intros step. induction p as [q IH|q IH|]; intros s Hs; cbn [loopP].
  - destruct (step s Hs) as [->|(s1 & -> & I1 & M1)]; [now left|].
    destruct (IH s1 I1) as [->|(s2 & -> & I2 & M2)]; [now left|].
    destruct (IH s2 I2) as [->|(s3 & -> & I3 & M3)]; [now left|]. right. exists s3. repeat split; auto; lia.
  - destruct (IH s Hs) as [->|(s2 & -> & I2 & M2)]; [now left|].
    destruct (IH s2 I2) as [->|(s3 & -> & I3 & M3)]; [now left|]. right. exists s3. repeat split; auto; lia.
  - destruct (step s Hs) as [->|(s1 & -> & I1 & M1)]; [now left|]. right. exists s1. repeat split; auto; lia.
Qed.
Transparent loop.
Lemma for_fails {S} lo hi (body : Z -> S -> res S) (Inv : Z -> S -> Prop) s e : lo < hi -> hi - lo < 2 ^ 400 -> Inv lo s ->
  (forall i s, lo <= i < hi -> Inv i s -> body i s = Fail e \/ exists s', body i s = Ok s' /\ i + 1 < hi /\ Inv (i + 1) s') ->
  for_ lo hi body s = Fail e.
Proof.
  intros Hlo Hf H0 step. unfold for_, loop.
  match goal with |- match loopP ?g _ _ with _ => _ end = _ =>
    destruct (loopP_fails g (fun st => lo <= fst st < hi /\ Inv (fst st) (snd st)) (fun st => hi - fst st) e) with (p := fuel400) (s := (lo, s)) as [->|(s' & -> & I & M)] end.
  - intros [i t] [Hi I]. cbn [fst snd] in *. destruct (Z.ltb_spec i hi); [|lia].
    destruct (step i t Hi I) as [->|(t' & -> & L & I')]; [now left|]. right. exists (i + 1, t'). cbn [bind fst snd]. repeat split; auto; lia.
  - cbn [fst snd]. split; [lia|exact H0].
  - reflexivity.
  - cbn [fst snd] in M. change (Z.pos fuel400) with (2 ^ 400) in M. lia.
Qed.
Opaque loop.
(** two functions that differ below 10000 are found out *)
Lemma check_all_differ f1 f2 g1 g2 iters rand x : (forall n x, 0 <= x < 10000 -> f1 n x = Ok (g1 x) /\ f2 n x = Ok (g2 x)) ->
  0 <= x < 10000 -> g1 x <> g2 x -> caught (check_all f1 f2 iters rand) = Ok false.
Proof.
  intros Hf Hx Hd. unfold check_all.
  rewrite (for_fails 0 10000 _ (fun i _ => i <= x) tt Throw); [reflexivity|reflexivity|apply Z.lt_trans with (2 ^ 20); reflexivity|lia|].
  intros i s Hi Hix. destruct (Hf i i Hi) as [-> ->]. cbn [bind]. unfold check_equal. destruct (Z.eqb_spec (g1 i) (g2 i)) as [E|E]; [|now left].
  right. exists tt. assert (i <> x) by (intros ->; contradiction). repeat split; lia.
Qed.

Lemma phi_safety_ok leg sched : (forall b i n, valid_sched (leg b i n)) -> valid_sched sched -> test_phi_thread_safety leg sched 100 = Ok tt.
Proof.
  intros HL HS. set (f := fun i => pi (10000000 + i)).
  assert (L : forall b i, 0 <= i < 100 -> pi_legendre (leg b i) (10000000 + i) = Ok (f i)).
  { intros b i Hi. apply pi_legendre_ok; [exact (HL b i)|]. apply Z.lt_trans with (2 ^ 40); [lia|reflexivity]. }
  assert (F : forall i, 0 <= i < 100 -> 0 <= f i <= 2 ^ 24).
  { intros i Hi. unfold f. split; [apply Primes.pi_nonneg|]. pose proof (PhiSum.pi_le (10000000 + i) ltac:(lia)). lia. }
  clearbody f.
  assert (SB : forall n, 0 <= n <= 100 -> 0 <= sumr 0 n f <= n * 2 ^ 24).
  { intros n Hn. split; [apply sumr_nonneg; intros; apply F; lia|]. replace (n * 2 ^ 24) with (sumr 0 n (fun _ => 2 ^ 24)) by (rewrite sumr_const by lia; ring). apply sumr_le. intros; apply F; lia. }
  assert (CK : forall z, Z.abs z <= 2 ^ 62 -> schk 64 z = Ok z).
  { intros z Hz. apply schk_ok. unfold in_s. change (smin 64) with (- 2 ^ 63). change (smax 64) with (2 ^ 63 - 1). lia. }
  unfold test_phi_thread_safety.
  assert (E1 : for_ 0 100 (fun i sum1 => v <- pi_legendre (leg false i) (10000000 + i) ;; schk 64 (sum1 + v)) 0 = Ok (sumr 0 100 f)).
  { apply wp_eq. apply (for_rule 0 100 _ (fun i s => s = sumr 0 i f)); [apply Z.lt_trans with (2 ^ 20); reflexivity|now rewrite sumr_empty by lia| |intros s ->; reflexivity].
    intros i s Hi ->. rewrite L by lia. cbn [bind]. pose proof (F i Hi). pose proof (SB i ltac:(lia)). rewrite CK by lia. apply wp_ok. rewrite sumr_snoc by lia. reflexivity. }
  rewrite E1. cbn [bind].
  rewrite (par_acc_ok (fun a b => schk 64 (a + b)) _ (fun _ : unit => True) f f (2 ^ 62) 0 100).
  - cbn [bind]. unfold check_equal. rewrite Z.add_0_l, Z.eqb_refl. reflexivity.
  - intros a b Hab. apply CK, Hab.
  - intros i sum s Hi _ Hb. rewrite L by lia. cbn [bind]. pose proof (F i Hi). rewrite CK by lia. cbn [bind]. apply wp_ok. split; [reflexivity|exact I].
  - intros i Hi. pose proof (F i Hi). rewrite Z.abs_eq; lia.
  - apply HS.
  - exact I.
  - pose proof (SB 100 ltac:(lia)). cbn [Z.abs]. lia.
Qed.

Lemma prime_sum_fits x : 0 <= x <= 6000000000 -> prime_sum x < 2 ^ 63.
Proof.
  intros Hx. pose proof (prime_sum_S6 x). pose proof (S6_bound x ltac:(lia)). assert (x * x <= 6000000000 * 6000000000) by (apply Z.mul_le_mono_nonneg; lia). lia.
Qed.

Theorem test_body_ok e : valid_test e -> test_body e = Ok tt.
Proof.
  intros (HL & HD & HR & HG & HS & HT).
  assert (B34 : forall m x, 0 <= m <= 900 -> 0 <= x <= Z.max 10000 (m * 9999001) -> 0 <= x < 2 ^ 34) by (intros; lia).
  assert (B60 : forall m x, 0 <= m <= 600 -> 0 <= x <= Z.max 10000 (m * 9999001) -> prime_sum x < 2 ^ 63) by (intros; apply prime_sum_fits; lia).
  assert (B63 : forall x, x < 2 ^ 34 -> x < 2 ^ 63) by (intros x Hx; eapply Z.lt_trans; [exact Hx|reflexivity]).
  assert (BW : forall x, x < 2 ^ 34 -> x < 52175271301331128848) by (intros x Hx; eapply Z.lt_trans; [exact Hx|reflexivity]).
  assert (L1 : forall k n x, 0 <= x < 2 ^ 34 -> pi_lmo1 (lo_base (po_lmo (te_lmo e k n))) x = Ok (prime_sum x)).
  { intros k n x Hx. apply pi_lmo1_ok; [apply (HL k n x Hx)|eapply Z.lt_trans; [apply Hx|reflexivity]|]. intros a c Ha. apply window_below; [apply BW; lia|exact Ha]. }
  assert (LF : forall k n x, 0 <= x < 2 ^ 34 -> prime_sum x < 2 ^ 63 -> pi_lmo2 (po_lmo (te_lmo e k n)) x = Ok (prime_sum x) /\
    pi_lmo3 (po_lmo (te_lmo e k n)) x = Ok (prime_sum x) /\ pi_lmo4 (po_lmo (te_lmo e k n)) x = Ok (prime_sum x) /\ pi_lmo5 (po_lmo (te_lmo e k n)) x = Ok (prime_sum x)).
  { intros k n x Hx Hp. exact (pi_lmo_fits (po_lmo (te_lmo e k n)) x (proj1 (HL k n x Hx)) (B63 x (proj2 Hx)) Hp). }
  pose proof (fun k n x H G => proj1 (LF k n x H G)) as L2.
  pose proof (fun k n x H G => proj1 (proj2 (LF k n x H G))) as L3.
  pose proof (fun k n x H G => proj1 (proj2 (proj2 (LF k n x H G)))) as L4.
  pose proof (fun k n x H G => proj2 (proj2 (proj2 (LF k n x H G)))) as L5.
  clear LF. cbv beta in L2, L3, L4, L5.
  assert (LP : forall k n x, 0 <= x < 2 ^ 34 -> pi_lmo_parallel1 (te_lmo e k n) x (te_threads e) = Ok (prime_sum x)).
  { intros k n x Hx. apply pi_lmo_parallel1_ok; [apply (HL k n x Hx)|apply B63, Hx|exact HT]. }
  assert (LD : forall n x, 0 <= x < 2 ^ 34 -> pi_deleglise_rivat_parallel1 (te_dr e n) x (te_threads e) = Ok (prime_sum x)).
  { intros n x Hx. destruct (HD n x Hx) as [V M]. apply DR_below_bad; auto. apply BW, Hx. }
  assert (LT : forall x, 0 <= x < 2 ^ 34 -> prime_sum_tiny x = Ok (prime_sum x)).
  { intros x Hx. apply prime_sum_tiny_ok; lia. }
  unfold test_body. cbv zeta. rewrite phi_safety_ok by auto. cbn [bind].
  rewrite (check_all_ok _ _ prime_sum 50); [|lia|apply HR|intros n x Hx; pose proof (B34 50 x ltac:(lia) Hx) as H; pose proof (B60 50 x ltac:(lia) Hx) as G; exact (conj (L1 1 n x H) (LT x H))]. cbn [bind].
  rewrite (check_all_ok _ _ prime_sum 100); [|lia|apply HR|intros n x Hx; pose proof (B34 100 x ltac:(lia) Hx) as H; pose proof (B60 100 x ltac:(lia) Hx) as G; exact (conj (L2 2 n x H G) (L1 3 n x H))]. cbn [bind].
  rewrite (check_all_ok _ _ prime_sum 300); [|lia|apply HR|intros n x Hx; pose proof (B34 300 x ltac:(lia) Hx) as H; pose proof (B60 300 x ltac:(lia) Hx) as G; exact (conj (L3 4 n x H G) (L2 5 n x H G))]. cbn [bind].
  rewrite (check_all_ok _ _ prime_sum 400); [|lia|apply HR|intros n x Hx; pose proof (B34 400 x ltac:(lia) Hx) as H; pose proof (B60 400 x ltac:(lia) Hx) as G; exact (conj (L4 6 n x H G) (L3 7 n x H G))]. cbn [bind].
  rewrite (check_all_ok _ _ prime_sum 600); [|lia|apply HR|intros n x Hx; pose proof (B34 600 x ltac:(lia) Hx) as H; pose proof (B60 600 x ltac:(lia) Hx) as G; exact (conj (L5 8 n x H G) (L4 9 n x H G))]. cbn [bind].
  rewrite (check_all_ok _ _ prime_sum 600); [|lia|apply HR|intros n x Hx; pose proof (B34 600 x ltac:(lia) Hx) as H; pose proof (B60 600 x ltac:(lia) Hx) as G; exact (conj (LP 10 n x H) (L5 11 n x H G))]. cbn [bind].
  rewrite (check_all_ok _ _ prime_sum 900); [|lia|apply HR|intros n x Hx; pose proof (B34 900 x ltac:(lia) Hx) as H; exact (conj (LD n x H) (LP 12 n x H))]. cbn [bind].
  reflexivity.
Qed.
Theorem test_ok e : valid_test e -> test e = Ok true.
Proof. intros H. unfold test. now rewrite test_body_ok. Qed.
