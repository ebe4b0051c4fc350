(** The calls of SievingPrimes and PrimeGenerator, store_primes and store_n_primes. *)
From Coq Require Import ZArith List Lia Bool Znumtheory Sorted.
From Verif.Base Require Import Res Word Zl Each.
From Verif.Model Require Import PsTables PsMath PsErat PsCache PsGen Primesieve.
From Verif.Spec Require Import PsSpec PsRunSpec PsGenSpec Primes.
From Verif.Proofs Require Import Primes NT Primesieve PsPre PsErat PsSeg PsWord PsSvp PsGenP PsIter.
Import ListNotations.
Open Scope Z_scope.
Local Ltac Zify.zify_post_hook ::= idtac.

(** *** SievingPrimes *)
Lemma svp_calls_ok g ps T n : genv_ok g -> forall v R, svinv ps T v R -> svp_calls g ps n v = Ok (firstn n (R ++ repeat (2 ^ 64 - 1) n)).
Proof.
  intros HG. induction n as [|n IH]; intros v R HV; [reflexivity|]. cbn [svp_calls].
  assert (W : wp (svp_next g v ps) (fun '(r, v') => match R with [] => r = umax 64 /\ svinv ps T v' [] | x :: R' => r = x /\ svinv ps T v' R' end)).
  { eapply svp_next_rule; eauto; [intros v' r R' -> H|intros v' -> H]; auto. }
  destruct (svp_next g v ps) as [[r v']|]; [|destruct W]. cbn [wp] in W. cbn [bind]. destruct R as [|x R]; destruct W as [-> W].
  - rewrite (IH _ _ W). reflexivity.
  - rewrite (IH _ _ W). cbn [bind app firstn]. do 2 f_equal. replace (repeat (2 ^ 64 - 1) (S n)) with (repeat (2 ^ 64 - 1) n ++ [2 ^ 64 - 1]) by (symmetry; apply repeat_cons).
    rewrite app_assoc, (firstn_app n (R ++ repeat _ n)). rewrite app_length, repeat_length. replace (n - (length R + n))%nat with 0%nat by lia. cbn [firstn]. now rewrite app_nil_r.
Qed.
Theorem sieving_primes_correct g start stop size e ps n : genv_ok g -> 7 <= start <= stop -> 720 <= stop < 2 ^ 64 -> 0 <= size < 2 ^ 64 ->
  erat_init (g_cpu g) start stop size (erat0 start stop) presieve0 = Ok (e, ps) ->
  exists v, svp_init g e ps svp0 = Ok (v, ps) /\ svp_calls g ps n v = Ok (firstn n (primes_in (ps_max ps + 1) (Z.sqrt stop) ++ repeat (2 ^ 64 - 1) n)).
Proof.
  intros HG Hs Hst Hsz EI.
  assert (W : wp (erat_init (g_cpu g) start stop size (erat0 start stop) presieve0) (fun '(e, ps) => e_stop e = stop /\ pre_ok ps /\ 0 <= e_size e < 2 ^ 64 /\ presieve_init start stop presieve0 = Ok ps)).
  { apply erat_init_rule; auto; [lia|]. intros e' ps' I E1 E2 _ E3 E4 E5. destruct (ei_size _ _ _ _ _ _ I) as (k & Hk & ES). pose proof (size_bound k Hk). split; auto. split; [apply (ei_pre _ _ _ _ _ _ I)|]. split; [lia|auto]. }
  rewrite EI in W. cbn [wp] in W. destruct W as (E1 & E2 & E3 & E4).
  assert (W : wp (svp_init g e ps svp0) (fun '(v, ps') => ps' = ps /\ svinv ps (Z.sqrt stop) v (primes_in (ps_max ps + 1) (Z.sqrt stop)))).
  { eapply (svp_init_rule g e ps start presieve0); auto; rewrite ?E1; auto. intros v HV. split; auto. replace 7 with (0 + 7) in HV by lia. rewrite sel_primes_in in HV; auto. destruct E2 as (X & _). lia. }
  destruct (svp_init g e ps svp0) as [[v ps']|]; [|destruct W]. cbn [wp] in W. destruct W as (-> & HV). exists v. split; auto. eapply svp_calls_ok; eauto.
Qed.

(** *** PrimeGenerator *)
Theorem fill_prev_correct g start stop l : genv_ok g -> 0 <= start <= stop -> stop < 2 ^ 64 -> pgen_fill_prev g (pgen0 start stop) l = Ok (l ++ primes_in start stop).
Proof.
  intros HG Hs Hst. assert (W : wp (pgen_fill_prev g (pgen0 start stop) l) (fun r => r = l ++ primes_in start stop)).
  { eapply pgen_fill_prev_rule; eauto; [|cbn; unfold umax; lia]. left. exists start. auto. }
  destruct (pgen_fill_prev g (pgen0 start stop) l); [|destruct W]. cbn in W. now subst.
Qed.
Lemma chunks_ok g stop : genv_ok g -> forall n p R, (length R <= n)%nat -> (forall x, In x R -> prime x) -> pgstate p stop R -> exists ls, pgen_chunks g p ls /\ concat ls = R.
Proof.
  intros HG. induction n as [|n IH]; intros p R Hn HR HP.
  all: assert (W : wp (pgen_fill_next g p) (fun '(p', l) => (l <> [] /\ zlen l <= 256 /\ exists R', R = l ++ R' /\ pgstate p' stop R') \/ (R = [] /\ (l = [2 ^ 64 - 1] \/ l = []))))
    by (eapply pgen_fill_next_rule; eauto; [intros p' l R' E1 E2 E3 E4; left; split; auto; split; auto; eauto|intros p' E1 E2; right; split; auto; destruct (stop >=? umax 64); auto]).
  all: destruct (pgen_fill_next g p) as [[p' l]|] eqn:EF; [|destruct W]; cbn [wp] in W.
  all: destruct W as [(W1 & W2 & R' & W3 & W4)|(W1 & [W2|W2])]; [|exists []; split; [eapply pc_top; rewrite EF, W2; reflexivity|now subst]|exists []; split; [eapply pc_end; rewrite EF, W2; reflexivity|now subst]].
  - exfalso. destruct l; [congruence|]. subst R. cbn in Hn. lia.
  - destruct (IH p' R') as (ls & L1 & L2); auto; [|intros x Hx; apply HR; subst R; apply in_app_iff; auto|]. { destruct l; [congruence|]. subst R. cbn in Hn. rewrite app_length in Hn. lia. }
    exists (l :: ls). split; [eapply pc_more; eauto; intros ->; apply umax_comp, HR; subst R; apply in_app_iff; left; now left|]. cbn [concat]. now rewrite L2.
Qed.
Theorem fill_next_correct g start stop : genv_ok g -> 0 <= start <= stop -> stop < 2 ^ 64 -> exists ls, pgen_chunks g (pgen0 start stop) ls /\ concat ls = primes_in start stop.
Proof. intros HG Hs Hst. eapply (chunks_ok g stop HG (length (primes_in start stop))); auto; [intros x Hx; now apply primes_in_in in Hx|]. left. exists start. auto. Qed.

(** *** store_primes *)
Lemma follows_first w r : follows w r -> r < 2 ^ 64 - 1 -> primes_in (w + 1) r = [r] /\ w < r /\ prime r.
Proof.
  intros [(P & H & A)|(E & _)] Hr; [|lia]. split; [|split; auto; lia]. apply sorted_ext; [apply primes_in_sorted|repeat constructor|]. intros y. rewrite primes_in_in. split.
  - intros (Py & Hy). specialize (A y Py). left. lia.
  - intros [<-|[]]. split; auto. lia.
Qed.
Lemma follows_up w r : 0 <= w < 2 ^ 64 - 1 -> follows w r -> w < r <= 2 ^ 64 - 1.
Proof. intros Hw [(P & H & A)|(E & _)]; lia. Qed.
Theorem store_primes_correct g cast start stop l : genv_ok g -> 0 <= start < 2 ^ 64 -> 0 <= stop < 2 ^ 64 -> store_primes g cast start stop l = Ok (l ++ map cast (primes_in start stop)).
Proof.
  intros HG Hs Hst. assert (W : wp (store_primes g cast start stop l) (fun r => r = l ++ map cast (primes_in start stop))); [|destruct (store_primes g cast start stop l); [cbn in W; now subst|destruct W]].
  unfold store_primes. rewrite umax_val. set (s := if start >? 0 then start - 1 else start). set (t := if stop =? 2 ^ 64 - 1 then stop - 1 else stop).
  assert (ES : s = Z.max 0 (start - 1)). { unfold s. rewrite Z.gtb_ltb. destruct (Z.ltb_spec 0 start); lia. }
  assert (ET : t = Z.min stop (2 ^ 64 - 2)). { unfold t. destruct (Z.eqb_spec stop (2 ^ 64 - 1)); lia. }
  clearbody s t.
  assert (EQ : primes_in start stop = primes_in (s + 1) t).
  { apply sorted_ext; [apply primes_in_sorted|apply primes_in_sorted|]. intros y. rewrite !primes_in_in. split; intros (Py & Hy); (split; [exact Py|]); pose proof (prime_ge_2 y Py).
    - assert (y <> 2 ^ 64 - 1) by (intros ->; now apply umax_comp). lia.
    - lia. }
  rewrite EQ. destruct (Z.ltb_spec s t) as [H|H].
  2: { cbn [wp]. rewrite primes_in_none; [cbn; now rewrite app_nil_r|]. intros q _ Hq. lia. }
  apply wp_bind. eapply iter_next_rule; [exact HG|apply iinv_new; lia|]. intros r it HF HI.
  apply (loop_rule _ (fun '((prime, it, l') : Z * iter * list Z) => iinv it prime /\ exists w, s <= w <= t /\ follows w prime /\ l' = l ++ map cast (primes_in (s + 1) w)) (fun '((prime, _, _) : Z * iter * list Z) => Z.max 0 (t + 1 - prime))).
  - intros [[p it'] l'] (J1 & w & J2 & J3 & J4). destruct (Z.leb_spec p t) as [Hp|Hp].
    + destruct (follows_first w p J3 ltac:(lia)) as (F1 & F2 & F3). apply wp_bind. eapply iter_next_rule; [exact HG|exact J1|]. intros r' it'' HF' HI'. cbn [wp].
      pose proof (follows_up p r' ltac:(lia) HF') as FU. split; [|lia]. split; auto. exists p. split; [lia|]. split; auto.
      rewrite J4, (primes_in_split (s + 1) w p) by lia. rewrite F1, map_app, app_assoc. reflexivity.
    + cbn [wp]. rewrite J4. do 2 f_equal. rewrite (primes_in_split (s + 1) w t) by lia. rewrite (primes_in_none (w + 1) t); [now rewrite app_nil_r|].
      intros q Pq Hq. destruct J3 as [(_ & _ & A)|(_ & A)]; specialize (A q Pq ltac:(lia)); lia.
  - split; auto. exists s. split; [lia|]. split; auto. rewrite primes_in_none; [cbn; now rewrite app_nil_r|]. intros; lia.
  - pose proof (follows_up s r ltac:(lia) HF). lia.
Qed.

(** *** store_n_primes *)
Lemma follows_hd v r : follows v r -> match primes_in (v + 1) (2 ^ 64 - 1) with [] => r = 2 ^ 64 - 1 | x :: _ => r = x end.
Proof.
  intros H. destruct (primes_in (v + 1) (2 ^ 64 - 1)) as [|x t] eqn:E.
  - destruct H as [(P & H & A)|(H & _)]; auto. pose proof (primes_in_nil _ _ E r P). lia.
  - destruct (primes_in_hd _ _ _ _ E) as (Px & Hx & Ax). destruct H as [(P & H & A)|(H & A)].
    + specialize (Ax r P). specialize (A x Px). lia.
    + specialize (A x Px). lia.
Qed.
Theorem store_n_primes_correct g cast n start l : genv_ok g -> 0 <= n < 2 ^ 64 -> 0 <= start < 2 ^ 64 ->
  store_n_primes g cast n start l = (if (n =? 0) || (n <? zlen (primes_in start (2 ^ 64 - 1))) then Ok (l ++ map cast (firstn (Z.to_nat n) (primes_in start (2 ^ 64 - 1)))) else Fail Throw).
Proof.
  intros HG Hn Hs. unfold store_n_primes. destruct (Z.eqb_spec n 0) as [->|N0]; [cbn; now rewrite app_nil_r|]. cbn [orb].
  set (s := if start >? 0 then start - 1 else start). assert (ES : s = Z.max 0 (start - 1)). { unfold s. rewrite Z.gtb_ltb. destruct (Z.ltb_spec 0 start); lia. } clearbody s.
  set (h := uwrap 64 (s + _)). assert (HH : 0 <= h < 2 ^ 64) by (unfold h, uwrap; apply Z.mod_pos_bound; lia). clearbody h.
  assert (EQ : primes_in start (2 ^ 64 - 1) = primes_in (s + 1) (2 ^ 64 - 1)).
  { apply sorted_ext; [apply primes_in_sorted|apply primes_in_sorted|]. intros y. rewrite !primes_in_in. split; intros (Py & Hy); (split; [exact Py|]); pose proof (prime_ge_2 y Py); lia. }
  set (A := primes_in start (2 ^ 64 - 1)) in *.
  set (st := fun (i : Z) '((p, it, l') : Z * iter * list Z) => iinv it p /\ ((exists a1 a2, A = a1 ++ p :: a2 /\ zlen a1 = i /\ l' = l ++ map cast a1) \/ (zlen A <= i /\ p = 2 ^ 64 - 1))).
  assert (W1 : wp (iter_next g (iter_new s h)) (fun '(p, it) => st 0 (p, it, l))).
  { eapply iter_next_rule; [exact HG|apply iinv_new; lia|]. intros r it HF HI. split; auto. pose proof (follows_hd s r HF) as FH. rewrite <- EQ in FH. destruct A as [|x t] eqn:EA.
    - right. split; auto. reflexivity.
    - left. exists [], t. subst x. split; [reflexivity|]. split; [reflexivity|]. cbn. now rewrite app_nil_r. }
  destruct (iter_next g (iter_new s h)) as [[p it]|]; [|destruct W1]. cbn [wp] in W1. cbn [bind].
  assert (W2 : wp (for_ 0 n (fun _ '((prime, it, primes) : Z * iter * list Z) => ' (prime', it) <- iter_next g it ;; Ok (prime', it, primes ++ [cast prime])) (p, it, l)) (st n)).
  { apply for_rule with (Inv := st); auto; [lia| |rewrite Z.max_r by lia; auto]. intros i [[q it'] l'] Hi (J1 & J2). apply wp_bind. eapply iter_next_rule; [exact HG|exact J1|]. intros r it'' HF HI. cbn [wp]. split; auto.
    destruct J2 as [(a1 & a2 & E1 & E2 & E3)|(E1 & E2)].
    - pose proof (primes_in_cut _ _ _ _ _ E1) as (C1 & _). pose proof (follows_hd q r HF) as FH. rewrite <- C1 in FH. destruct a2 as [|x a2]; subst r.
      + right. rewrite E1, zlen_app, zlen_cons. unfold zlen at 2. cbn [length]. lia.
      + left. exists (a1 ++ [q]), a2. split; [now rewrite <- app_assoc|]. split; [rewrite zlen_app, zlen_cons; unfold zlen at 2; cbn [length]; lia|]. rewrite E3, map_app, app_assoc. reflexivity.
    - right. split; [lia|]. destruct HF as [(P & H & _)|(H & _)]; lia. }
  destruct (for_ 0 n _ (p, it, l)) as [[[q it'] l']|]; [|destruct W2]. cbn [wp] in W2. cbn [bind]. destruct W2 as (J1 & [(a1 & a2 & E1 & E2 & E3)|(E1 & E2)]).
  - assert (IQ : In q A) by (rewrite E1; apply in_app_iff; right; now left). unfold A in IQ. apply primes_in_in in IQ. destruct IQ as [PQ _].
    rewrite umax_val. destruct (Z.eqb_spec q (2 ^ 64 - 1)) as [->|_]; [exfalso; now apply umax_comp|].
    rewrite (proj2 (Z.ltb_lt _ _)). 2: { rewrite E1, zlen_app, zlen_cons. unfold zlen at 2. lia. }
    rewrite E3. do 3 f_equal. rewrite E1. rewrite <- E2. unfold zlen. rewrite Nat2Z.id, firstn_app, Nat.sub_diag, firstn_all. cbn. now rewrite app_nil_r.
  - rewrite umax_val, E2, Z.eqb_refl. rewrite (proj2 (Z.ltb_ge _ _)) by lia. reflexivity.
Qed.

(** *** The functions used by the models of primesum *)
Lemma follows_next v r : follows v r -> next_prime v < 2 ^ 64 -> r = next_prime v.
Proof.
  intros H HN. destruct (next_prime_spec v) as (P & G & A). destruct H as [(Pr & Hr & Ar)|(_ & Ar)].
  - specialize (A r Pr). specialize (Ar _ P G). lia.
  - specialize (Ar _ P G). lia.
Qed.
Lemma primes_upto_in b : primes_upto b = primes_in 0 b.
Proof.
  apply sorted_ext; [apply sorted_filter, zrange_sorted|apply primes_in_sorted|]. intros y. rewrite in_primes_upto, primes_in_in. split; [intros (P & H); pose proof (prime_ge_2 y P); split; [auto|lia]|intuition].
Qed.
Lemma precedes_prev v r : precedes v r -> r = prev_prime v.
Proof.
  intros H. unfold prev_prime. rewrite primes_upto_in. destruct (primes_in 0 (v - 1)) as [|x t] eqn:E.
  - destruct H as [(P & H & _)|(-> & _)]; [|reflexivity]. pose proof (primes_in_nil _ _ E r P). pose proof (prime_ge_2 r P). lia.
  - destruct (snoc_split (x :: t)) as (l & y & EL); [discriminate|]. rewrite EL in E |- *. rewrite last_last. destruct (primes_in_last _ _ _ _ E) as (Py & Hy & Ay). destruct H as [(P & H & A)|(-> & A)].
    + pose proof (prime_ge_2 r P). specialize (Ay r P). specialize (A y Py). lia.
    + specialize (A y Py). lia.
Qed.
Theorem iter_model g start hint l : genv_ok g -> 0 <= start < 2 ^ 64 -> 0 <= hint < 2 ^ 64 -> (forall r, In r (calls_model l start) -> r < 2 ^ 64) ->
  iter_calls g l (iter_new start hint) = Ok (calls_model l start).
Proof.
  intros HG Hs Hh HB. destruct (iter_correct g start hint l HG Hs Hh) as (rs & E & M). rewrite E. f_equal. clear E Hs. induction M as [v|v r l rs HF M IH|v r l rs HF M IH]; [reflexivity| |]; cbn [calls_model] in *.
  - assert (ER : r = next_prime v) by (apply follows_next; auto; apply HB; now left). rewrite <- ER in *. f_equal. apply IH. intros x Hx. apply HB. now right.
  - assert (ER : r = prev_prime v) by (now apply precedes_prev). rewrite <- ER in *. f_equal. apply IH. intros x Hx. apply HB. now right.
Qed.
Theorem generate_primes_model g cast max : genv_ok g -> 0 <= max < 2 ^ 64 -> (forall p, 0 <= p <= max -> cast p = p) -> store_primes g cast 0 max [0] = Ok (generate_primes max).
Proof.
  intros HG Hm HC. rewrite store_primes_correct by (auto; lia). unfold generate_primes, prime_table. rewrite primes_upto_in. cbn [app]. do 2 f_equal.
  rewrite <- (map_id (primes_in 0 max)) at 2. apply map_ext_in. intros x Hx. apply primes_in_in in Hx. apply HC. lia.
Qed.
Lemma n_primes_firstn n : forall v, -1 <= v -> Z.of_nat n <= zlen (primes_in (v + 1) (2 ^ 64 - 1)) -> n_primes n v = firstn n (primes_in (v + 1) (2 ^ 64 - 1)).
Proof.
  induction n as [|n IH]; intros v Hv Hn; [reflexivity|]. cbn [n_primes]. destruct (primes_in (v + 1) (2 ^ 64 - 1)) as [|x t] eqn:E; [unfold zlen in Hn; cbn [length] in Hn; lia|].
  destruct (primes_in_hd _ _ _ _ E) as (Px & Hx & Ax). destruct (next_prime_spec v) as (P & G & A).
  assert (EX : next_prime v = x). { specialize (A x Px ltac:(lia)). specialize (Ax _ P ltac:(lia)). lia. }
  rewrite EX. cbn [firstn]. f_equal. destruct (primes_in_cut _ _ [] x t E) as (ET & _). rewrite ET. apply IH; [lia|]. rewrite <- ET. rewrite zlen_cons in Hn. lia.
Qed.
Lemma primes_in_len b : 0 <= b -> zlen (primes_in 0 b) <= b + 1.
Proof. intros H. unfold zlen, primes_in. pose proof (filter_len primeb (zrange 0 (b + 1))) as F. rewrite zrange_length in F. lia. Qed.
Lemma primes_in_1 b : primes_in 0 b = primes_in (0 + 1) b.
Proof. apply sorted_ext; [apply primes_in_sorted|apply primes_in_sorted|]. intros y. rewrite !primes_in_in. split; intros (P & H); pose proof (prime_ge_2 y P); (split; [auto|lia]). Qed.
Theorem generate_n_primes_model g n : genv_ok g -> 0 <= n < zlen (primes_in 0 (2 ^ 64 - 1)) -> store_n_primes g (swrap 32) n 0 [0] = Ok (generate_n_primes n).
Proof.
  intros HG Hn. pose proof (primes_in_len (2 ^ 64 - 1) ltac:(lia)) as HL.
  pose proof (n_primes_firstn (Z.to_nat n) 0 ltac:(lia)) as EN. rewrite <- primes_in_1 in EN.
  pose proof (store_n_primes_correct g (swrap 32) n 0 [0] HG) as E.
  revert Hn HL EN E. generalize (primes_in 0 (2 ^ 64 - 1)) as A. intros A Hn HL EN E.
  rewrite E by lia. assert (EB : (n <? zlen A) = true) by (apply Z.ltb_lt, Hn). rewrite EB, orb_true_r. unfold generate_n_primes.
  rewrite EN by lia. reflexivity.
Qed.
