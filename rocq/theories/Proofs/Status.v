(** Proofs about Model/Status.v. *)
From Coq Require Import ZArith List Bool Lia.
From Verif.Base Require Import Res.
From Verif.Model Require Import Imath Status.
From Verif Require Proofs.Imath.
Import ListNotations.
Open Scope Z_scope.

Section P.
  Context (eps interval : Z) (Heps : 0 < eps).

  (** *** one call at a time *)
  Definition increasing (l : list Z) : Prop := forall i j, (i < j < length l)%nat -> nth j l 0 + eps <= nth i l 0.

  Definition seq_ok (sh : shared) : Prop := increasing (sh_out sh) /\ (forall p, In p (sh_out sh) -> p <= sh_percent sh).

  Lemma increasing_cons p l : increasing l -> (forall q, In q l -> q + eps <= p) -> increasing (p :: l).
  Proof.
    intros H1 H2 i j Hij. cbn [length] in Hij. destruct j as [|j]; [lia|]. destruct i as [|i]; cbn [nth].
    - apply H2. apply nth_In. lia.
    - apply H1. lia.
  Qed.

  Lemma print_seq_ok sh c : seq_ok sh -> seq_ok (print eps interval sh c).
  Proof.
    intros [H1 H2]. unfold print. destruct (_ || _); [|now split]. rewrite Z.geb_leb. destruct (Z.leb_spec eps (c_percent c - sh_percent sh)); [|now split].
    split; cbn [sh_out sh_percent].
    - apply increasing_cons; auto. intros q Hq. specialize (H2 q Hq). lia.
    - intros p [<-|Hp]; [lia|]. specialize (H2 p Hp). lia.
  Qed.

  Lemma print_increasing calls : increasing (sh_out (fold_left (print eps interval) calls shared0)).
  Proof.
    assert (H : forall sh, seq_ok sh -> seq_ok (fold_left (print eps interval) calls sh)).
    { induction calls as [|c cs IH]; intros sh Hs; auto. cbn [fold_left]. apply IH. now apply print_seq_ok. }
    apply H. split; [intros i j Hij; cbn in Hij; lia|intros p []].
  Qed.

  (** a schedule that runs one call of one thread to its end is print *)
  Lemma run_call sh c cs : sh_lock sh = false -> exists n, run eps interval sh [(Try, c :: cs)] (repeat O n) = (print eps interval sh c, [(Try, cs)]).
  Proof.
    intros L. destruct sh as [pe ti lo ou]; cbn in L; subst lo. unfold print. cbn [sh_time sh_percent sh_out sh_lock].
    destruct ((ti =? 0) || (c_time c - ti >=? interval)) eqn:E1.
    - destruct (c_percent c - pe >=? eps) eqn:E2.
      + exists 6%nat. cbn. rewrite E1. cbn. rewrite E2. reflexivity.
      + exists 5%nat. cbn. rewrite E1. cbn. rewrite E2. reflexivity.
    - exists 2%nat. cbn. rewrite E1. reflexivity.
  Qed.

  (** *** any schedule *)
  Definition holds (t : thread) : bool := match t with (Decide, _ :: _) => true | _ => false end.
  Definition holders (ts : list thread) : nat := length (filter holds ts).
  Definition lock_ok (sh : shared) (ts : list thread) : Prop := holders ts = (if sh_lock sh then 1 else 0)%nat.

  Lemma tstep_holds sh t sh' t' : tstep eps interval sh t = (sh', t') ->
    (holds t = true -> sh_lock sh = true) -> ((if holds t' then 1 else 0) + (if sh_lock sh then 1 else 0) = (if holds t then 1 else 0) + (if sh_lock sh' then 1 else 0))%nat.
  Proof.
    destruct t as [p [|c cs]]; intros E H; [cbn in E; inversion E; subst; lia|]. destruct p; cbn in E, H; cbn [holds].
    - destruct (sh_lock sh) eqn:L; inversion E; subst; rewrite ?L; reflexivity.
    - rewrite (H eq_refl). destruct (_ || _); inversion E; subst; reflexivity.
    - inversion E; subst; cbn. lia.
    - inversion E; subst; cbn. lia.
    - destruct (_ >=? _); inversion E; subst; cbn; lia.
    - inversion E; subst; cbn. lia.
  Qed.

  Lemma sstep_lock sh ts k sh' ts' : sstep eps interval sh ts k = (sh', ts') -> (holders ts <= (if sh_lock sh then 1 else 0))%nat ->
    (holders ts' + (if sh_lock sh then 1 else 0) = holders ts + (if sh_lock sh' then 1 else 0))%nat.
  Proof.
    revert k sh' ts'; induction ts as [|t ts IH]; intros k sh' ts' E H; [destruct k; cbn in E; inversion E; subst; cbn; lia|].
    destruct k as [|k]; cbn [sstep] in E.
    - destruct (tstep eps interval sh t) as [sh1 t1] eqn:T. inversion E; subst. clear E.
      assert (H1 : holds t = true -> sh_lock sh = true). { intros Ht. destruct (sh_lock sh); auto. unfold holders in H. cbn [filter] in H. rewrite Ht in H. cbn in H. lia. }
      pose proof (tstep_holds _ _ _ _ T H1). unfold holders in *. cbn [filter]. destruct (holds t1), (holds t); cbn [length]; lia.
    - destruct (sstep eps interval sh ts k) as [sh1 ts1] eqn:T. inversion E; subst. clear E. unfold holders in *. cbn [filter] in *. destruct (holds t); cbn [length] in *.
      + specialize (IH k sh' ts1 T ltac:(lia)). lia.
      + specialize (IH k sh' ts1 T ltac:(lia)). lia.
  Qed.

  Lemma run_lock sched : forall sh ts sh' ts', lock_ok sh ts -> run eps interval sh ts sched = (sh', ts') -> lock_ok sh' ts'.
  Proof.
    induction sched as [|k sched IH]; intros sh ts sh' ts' H E; cbn [run] in E; [inversion E; now subst|].
    destruct (sstep eps interval sh ts k) as [sh1 ts1] eqn:T. apply (IH sh1 ts1); auto. unfold lock_ok in *. pose proof (sstep_lock _ _ _ _ _ T ltac:(lia)). lia.
  Qed.

  (** everything that is printed is the percentage of one of the calls *)
  Definition calls_of (ts : list thread) : list Z := map c_percent (flat_map snd ts).
  Lemma tstep_out sh t sh' t' p : tstep eps interval sh t = (sh', t') -> (In p (sh_out sh') -> In p (sh_out sh) \/ In p (map c_percent (snd t))) /\ incl (snd t') (snd t).
  Proof.
    destruct t as [q [|c cs]]; intros E; [cbn in E; inversion E; subst; split; [auto|intros x; auto]|].
    assert (I : incl cs (c :: cs)) by (intros x Hx; now right). assert (I' : incl (c :: cs) (c :: cs)) by (intros x; auto).
    destruct q; cbn in E; repeat match type of E with context [if ?b then _ else _] => destruct b end; inversion E; subst; cbn; split; auto. tauto.
  Qed.
  Lemma sstep_out sh ts k sh' ts' p : sstep eps interval sh ts k = (sh', ts') -> (In p (sh_out sh') -> In p (sh_out sh) \/ In p (calls_of ts)) /\ incl (calls_of ts') (calls_of ts).
  Proof.
    revert k sh' ts'; induction ts as [|t ts IH]; intros k sh' ts' E; [destruct k; cbn in E; inversion E; subst; (split; [auto|intros x; auto])|].
    destruct k as [|k]; cbn [sstep] in E; unfold calls_of in *; cbn [flat_map]; rewrite map_app.
    - destruct (tstep eps interval sh t) as [sh1 t1] eqn:T. inversion E; subst. destruct (tstep_out _ _ _ _ p T) as [A B]. split.
      + intros Hp. destruct (A Hp); auto. right. apply in_or_app. now left.
      + cbn [flat_map]. rewrite map_app. apply incl_app_app; [now apply incl_map|apply incl_refl].
    - destruct (sstep eps interval sh ts k) as [sh1 ts1] eqn:T. inversion E; subst. destruct (IH k sh' ts1 T) as [A B]. split.
      + intros Hp. destruct (A Hp); auto. right. apply in_or_app. now right.
      + cbn [flat_map]. rewrite map_app. apply incl_app_app; [apply incl_refl|exact B].
  Qed.
  Lemma run_out sched : forall sh ts sh' ts' p, run eps interval sh ts sched = (sh', ts') -> In p (sh_out sh') -> In p (sh_out sh) \/ In p (calls_of ts).
  Proof.
    induction sched as [|k sched IH]; intros sh ts sh' ts' p E Hp; cbn [run] in E; [inversion E; subst; auto|].
    destruct (sstep eps interval sh ts k) as [sh1 ts1] eqn:T. destruct (sstep_out _ _ _ _ _ p T) as [A B].
    destruct (IH _ _ _ _ p E Hp) as [H|H]; auto.
  Qed.
End P.

(** two threads print the same percentage, and the larger one first *)
Lemma status_duplicate : exists eps interval ts sched sh ts', 0 < eps /\ 0 < interval /\
  run eps interval shared0 ts sched = (sh, ts') /\ (forall t, In t ts -> fst t = Try) /\ sh_out sh = [7; 7].
Proof.
  exists 1, 50, [(Try, [{| c_time := 100; c_percent := 7 |}]); (Try, [{| c_time := 101; c_percent := 7 |}])], [0; 0; 1; 1; 0; 0; 1; 1; 0; 0; 1; 1]%nat.
  eexists; eexists. split; [lia|]. split; [lia|]. split; [vm_compute; reflexivity|]. split; [intros t [<-|[<-|[]]]; reflexivity|reflexivity].
Qed.
Lemma status_decreasing : exists eps interval ts sched sh ts', 0 < eps /\ 0 < interval /\
  run eps interval shared0 ts sched = (sh, ts') /\ (forall t, In t ts -> fst t = Try) /\ sh_out sh = [7; 9].
Proof.
  exists 1, 50, [(Try, [{| c_time := 100; c_percent := 7 |}]); (Try, [{| c_time := 101; c_percent := 9 |}])], [0; 0; 1; 1; 0; 0; 1; 1; 0; 1; 1; 0]%nat.
  eexists; eexists. split; [lia|]. split; [lia|]. split; [vm_compute; reflexivity|]. split; [intros t [<-|[<-|[]]]; reflexivity|reflexivity].
Qed.

Lemma precision_clamped p : 0 <= set_status_precision p <= 5 /\ (0 <= p <= 5 -> set_status_precision p = p).
Proof. unfold set_status_precision, in_between. destruct (Z.ltb_spec p 0); [lia|]. rewrite Z.gtb_ltb. destruct (Z.ltb_spec 5 p); lia. Qed.
Lemma precision_range sp x : sp = -1 \/ (exists p, sp = set_status_precision p) -> 0 <= get_status_precision sp x <= 5.
Proof.
  intros H. assert (B : -1 <= sp <= 5) by (destruct H as [->|(p & ->)]; [lia|pose proof (precision_clamped p); lia]).
  unfold get_status_precision. rewrite !Z.gtb_ltb. destruct (Z.ltb_spec 0 sp), (Z.ltb_spec sp 0), (x >=? 10 ^ 23), (x >=? 10 ^ 21); lia.
Qed.

Lemma run_lock_0 eps interval sched ts sh' ts' : (forall t, In t ts -> fst t = Try) ->
  run eps interval shared0 ts sched = (sh', ts') -> (length (filter holds ts') <= 1)%nat.
Proof.
  intros H E. assert (L : lock_ok shared0 ts).
  { unfold lock_ok, holders. cbn [sh_lock shared0]. clear E. induction ts as [|[q l] ts IH]; [reflexivity|].
    assert (Q : q = Try) by (apply (H (q, l)); now left). subst q. cbn. apply IH. intros t Ht. apply H. now right. }
  apply (run_lock eps interval _ _ _ _ _ L) in E. unfold lock_ok, holders in E. rewrite E. destruct (sh_lock sh'); lia.
Qed.

Lemma run_out_0 eps interval sched ts sh' ts' p : run eps interval shared0 ts sched = (sh', ts') ->
  In p (sh_out sh') -> exists t c, In t ts /\ In c (snd t) /\ c_percent c = p.
Proof.
  intros E Hp. destruct (run_out eps interval _ _ _ _ _ p E Hp) as [[]|H]. unfold calls_of in H. apply in_map_iff in H. destruct H as (c & <- & H).
  apply in_flat_map in H. destruct H as (t & Ht & Hc). exists t, c. auto.
Qed.

(** the precision used *)
Lemma precision_value p x : get_status_precision (set_status_precision p) x = set_status_precision p.
Proof.
  pose proof (proj1 (precision_clamped p)) as H. unfold get_status_precision. set (q := set_status_precision p) in *.
  destruct (Z.ltb_spec q 0); [lia|]. rewrite Z.gtb_ltb. destruct (Z.ltb_spec 0 q); lia.
Qed.
Lemma precision_default x : (x <= 10 ^ 21 - 2 ^ 17 -> get_status_precision (-1) x = 0) /\
  (10 ^ 21 <= x <= 10 ^ 23 - 2 ^ 25 -> get_status_precision (-1) x = 1) /\ (10 ^ 23 <= x -> get_status_precision (-1) x = 2).
Proof.
  unfold get_status_precision. change (-1 <? 0) with true. change (-1 >? 0) with false. cbv iota.
  assert (C : 10 ^ 21 < 10 ^ 23) by reflexivity. rewrite !Z.geb_leb.
  destruct (Z.leb_spec (10 ^ 23) x); destruct (Z.leb_spec (10 ^ 21) x); repeat split; intros; try reflexivity; lia.
Qed.

(** the number of threads is positive even if the machine reports none *)
Lemma num_threads_positive calls hw : (forall h n, In (h, n) calls -> 0 <= h) -> 1 <= get_num_threads hw (Proofs.Imath.threads_after calls).
Proof.
  intros Hc. unfold Proofs.Imath.threads_after. destruct calls as [|[h n] cs] using rev_ind; [unfold get_num_threads; cbn; lia|].
  rewrite fold_left_app. cbn [fold_left fst snd]. assert (H : 0 <= h) by (apply (Hc h n), in_or_app; right; now left).
  unfold get_num_threads, set_num_threads, in_between. rewrite Z.gtb_ltb.
  destruct (Z.ltb_spec n 1); [cbn; lia|]. destruct (Z.ltb_spec h n).
  - destruct (Z.eqb_spec h 0); cbn [negb]; lia.
  - destruct (Z.eqb_spec n 0); cbn [negb]; lia.
Qed.
