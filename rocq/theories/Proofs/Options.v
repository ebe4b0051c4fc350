(** Proofs about the command line: Model/Options.v against Spec/OptionSpec.v. *)
From Coq Require Import ZArith List Bool Ascii String Lia.
From Verif.Base Require Import Res Word.
From Verif.Spec Require Import Primes LMOSpec PhiSumSpec ExprSpec OptionSpec.
From Verif.Model Require Import Calculator Imath Options Oracles LMO1.
From Verif.Proofs Require Import CalcCorrect Primes Phi PhiSum LMO1.
Import ListNotations.
Open Scope Z_scope.
Local Ltac Zify.zify_post_hook ::= idtac.

Lemma text_eqb_eq a b : text_eqb a b = true <-> a = b.
Proof.
  revert b; induction a as [|c a IH]; intros [|d b]; cbn; split; intros H; try discriminate; auto.
  - apply andb_true_iff in H. destruct H as [H1 H2]. apply Ascii.eqb_eq in H1. apply IH in H2. now subst.
  - inversion H; subst. rewrite Ascii.eqb_refl. now apply IH.
Qed.

Lemma find_in_In m s o : find_in m s = Some o -> In (s, o) m.
Proof.
  induction m as [|[k p] m IH]; cbn; [discriminate|]. destruct (text_eqb s k) eqn:E; intros H.
  - apply text_eqb_eq in E. inversion H; subst. now left.
  - right; auto.
Qed.

Lemma lookup_spelled s o : lookup s = Some o <-> spelled s o.
Proof.
  split; intros H.
  - apply find_in_In in H. unfold optionMap in H. apply in_map_iff in H. destruct H as ([k p] & E & H). cbn [fst snd] in E. inversion E; subst. clear E.
    unfold spelled. rewrite string_of_list_ascii_of_string. cbn [In] in H.
    repeat (destruct H as [H|H]; [inversion H; subst; cbn; tauto|]). destruct H.
  - unfold spelled in H. assert (E : s = list_ascii_of_string (string_of_list_ascii s)) by (symmetry; apply list_ascii_of_string_of_list_ascii).
    destruct o; cbn [spellings In] in H; repeat (destruct H as [H|H]; [rewrite E, <- H; vm_compute; reflexivity|]); destruct H.
Qed.

Lemma spelled_unique s o1 o2 : spelled s o1 -> spelled s o2 -> o1 = o2.
Proof. intros H1 H2. apply lookup_spelled in H1, H2. congruence. Qed.

Lemma lookup_None s : lookup s = None <-> unspelled s.
Proof.
  split; intros H.
  - intros o Ho. apply lookup_spelled in Ho. congruence.
  - destruct (lookup s) as [o|] eqn:E; auto. apply lookup_spelled in E. destruct (H _ E).
Qed.

Lemma delim_iff c : delim c = true <-> c = eq_sign \/ digit 10 c.
Proof.
  unfold delim, digit, hexval, code. set (n := Z.of_N (N_of_ascii c)). rewrite orb_true_iff, andb_true_iff, Z.eqb_eq, !Z.leb_le. split.
  - intros [H|H].
    + left. unfold n in H. rewrite <- (ascii_N_embedding c). replace (N_of_ascii c) with 61%N by lia. reflexivity.
    + right. exists (n - 48). destruct (Z.leb_spec 48 n), (Z.leb_spec n 57); cbn; try lia. split; [reflexivity|lia].
  - intros [->|(d & H & L)]; [left; reflexivity|].
    destruct (Z.leb_spec 48 n), (Z.leb_spec n 57), (Z.leb_spec 97 n), (Z.leb_spec n 102), (Z.leb_spec 65 n), (Z.leb_spec n 70); cbn in H; inversion H; lia.
Qed.

Lemma plain_iff c : delim c = false <-> plain_char c.
Proof.
  unfold plain_char. pose proof (delim_iff c). destruct (delim c); split; intros E; try discriminate; auto.
  - destruct E as [E1 E2]. destruct (proj1 H eq_refl); contradiction.
  - split; intros F; assert (false = true) by (apply H; auto); discriminate.
Qed.

Lemma plain_compute s : forallb (fun c => negb (delim c)) s = true -> plain s.
Proof. intros H. apply Forall_forall. intros c Hc. apply plain_iff. apply (proj1 (forallb_forall _ _) H) in Hc. now apply negb_true_iff. Qed.

Lemma split_at_spec s : match split_at s with
  | Some (a, b) => s = a ++ b /\ plain a /\ exists c b', b = c :: b' /\ (c = eq_sign \/ digit 10 c)
  | None => plain s
  end.
Proof.
  induction s as [|c s IH]; cbn; [constructor|]. destruct (delim c) eqn:E.
  - split; [reflexivity|]. split; [constructor|]. exists c, s. split; auto. now apply delim_iff.
  - apply plain_iff in E. destruct (split_at s) as [[a b]|]; [|now constructor]. destruct IH as (-> & P & H). split; [reflexivity|]. split; [now constructor|exact H].
Qed.

Lemma split_at_app a c b : plain a -> (c = eq_sign \/ digit 10 c) -> split_at (a ++ c :: b) = Some (a, c :: b).
Proof.
  intros P H. induction P as [|d a Hd P IH]; cbn.
  - apply delim_iff in H. now rewrite H.
  - apply plain_iff in Hd. rewrite Hd, IH. reflexivity.
Qed.

(** option and value of makeOption *)
Definition made (a : list ascii) : option opt * list ascii := (lookup (fst (makeOption a)), snd (makeOption a)).

Lemma help_key : lookup (list_ascii_of_string "--help") = Some OPTION_HELP. Proof. reflexivity. Qed.
Lemma number_key : lookup (list_ascii_of_string "--number") = Some OPTION_NUMBER. Proof. reflexivity. Qed.
Lemma empty_key : lookup [] = None. Proof. reflexivity. Qed.

Lemma no_eq_spelled n v o : ~ spelled (n ++ eq_sign :: v) o.
Proof.
  assert (K : forall s, lookup s <> None -> ~ In eq_sign s).
  { intros s H HI. destruct (lookup s) as [p|] eqn:E; [|congruence]. apply find_in_In in E. unfold optionMap in E. apply in_map_iff in E.
    destruct E as ([k q] & E & HIn). cbn [fst snd] in E. inversion E; subst. clear E H. cbn [In] in HIn.
    repeat (destruct HIn as [HIn|HIn]; [inversion HIn; subst; cbn in HI; repeat (destruct HI as [HI|HI]; [discriminate HI|]); exact HI|]). destruct HIn. }
  intros H. apply lookup_spelled in H. apply (K (n ++ eq_sign :: v)); [congruence|]. apply in_or_app. right. now left.
Qed.

(** a spelling does not start with a digit *)
Lemma digit_unspelled d v : digit 10 d -> unspelled (d :: v).
Proof.
  intros H o Ho. apply lookup_spelled in Ho. apply find_in_In in Ho. unfold optionMap in Ho. apply in_map_iff in Ho. destruct Ho as ([k q] & E & HIn). cbn [fst snd] in E. inversion E as [[E1 E2]]. clear E.
  assert (d = "-"%char).
  { cbn [In] in HIn. repeat (destruct HIn as [HIn|HIn]; [inversion HIn; subst; cbn in E1; now inversion E1|]). destruct HIn. }
  subst d. destruct H as (x & Hx & _). discriminate Hx.
Qed.

Lemma made_reads a o v : reads a o v -> made a = (Some o, v).
Proof.
  intros H. unfold made. destruct H as [a o H|n v o P H|n d v o P H Hd U|d v Hd|c v]; unfold makeOption.
  - apply lookup_spelled in H. rewrite H. destruct a as [|c a]; [rewrite empty_key in H; discriminate|]. rewrite H. cbn [fst snd]. now rewrite H.
  - assert (E : lookup (n ++ eq_sign :: v) = None) by (apply lookup_None; intros p; apply no_eq_spelled). rewrite E, split_at_app by auto.
    rewrite Ascii.eqb_refl. apply lookup_spelled in H. destruct n as [|c n]; [rewrite empty_key in H; discriminate|]. rewrite H. cbn [fst snd]. now rewrite H.
  - apply lookup_None in U. rewrite U, split_at_app by auto. destruct (Ascii.eqb_spec d "=") as [->|_]; [destruct Hd as (x & Hx & _); discriminate Hx|].
    apply lookup_spelled in H. destruct n as [|c n]; [rewrite empty_key in H; discriminate|]. rewrite H. cbn [fst snd]. now rewrite H.
  - assert (U := digit_unspelled d v Hd). apply lookup_None in U. rewrite U. change (d :: v) with ([] ++ d :: v) at 1 3. rewrite split_at_app by (auto; constructor).
    destruct (Ascii.eqb_spec d "=") as [->|_]; [destruct Hd as (x & Hx & _); discriminate Hx|]. rewrite number_key. reflexivity.
  - assert (E : lookup (eq_sign :: c :: v) = None) by (apply lookup_None; intros p; apply (no_eq_spelled [])). rewrite E.
    change (eq_sign :: c :: v) with ([] ++ eq_sign :: c :: v). rewrite split_at_app by (auto; constructor). rewrite Ascii.eqb_refl. rewrite number_key. reflexivity.
Qed.

Definition isSome {A} (o : option A) : bool := match o with Some _ => true | None => false end.
Definition readable (a : list ascii) : bool :=
  match lookup a with
  | Some _ => true
  | None => match split_at a with
            | None => false
            | Some ([], b) => match b with c :: b' => negb (Ascii.eqb c "=") || match b' with [] => false | _ => true end | [] => false end
            | Some (n, _) => isSome (lookup n)
            end
  end.

Lemma reads_readable a o v : reads a o v -> readable a = true.
Proof.
  intros H. unfold readable. destruct (lookup a) as [p|] eqn:L; [reflexivity|]. destruct H as [a o H|n v o P H|n d v o P H Hd U|d v Hd|c v].
  - apply lookup_spelled in H. congruence.
  - rewrite split_at_app by auto. apply lookup_spelled in H. destruct n as [|c n]; [rewrite empty_key in H; discriminate|]. now rewrite H.
  - rewrite split_at_app by auto. apply lookup_spelled in H. destruct n as [|c n]; [rewrite empty_key in H; discriminate|]. now rewrite H.
  - change (d :: v) with ([] ++ d :: v). rewrite split_at_app by (auto; constructor). destruct (Ascii.eqb_spec d "=") as [->|_]; [destruct Hd as (x & Hx & _); discriminate Hx|reflexivity].
  - change (eq_sign :: c :: v) with ([] ++ eq_sign :: c :: v). rewrite split_at_app by (auto; constructor). reflexivity.
Qed.

Lemma readable_reads a : readable a = true -> exists o v, reads a o v.
Proof.
  unfold readable. destruct (lookup a) as [o|] eqn:E.
  { exists o, []. constructor. now apply lookup_spelled. }
  intros H. apply lookup_None in E. pose proof (split_at_spec a) as S. destruct (split_at a) as [[n b]|]; [|discriminate].
  destruct S as (-> & P & c & b' & -> & Hc). destruct n as [|n0 n].
  - destruct Hc as [-> |Hc].
    + destruct b' as [|c' b']; [discriminate H|]. do 2 eexists. apply R_equal_number.
    + do 2 eexists. apply R_number; exact Hc.
  - set (n' := n0 :: n) in *. destruct (lookup n') as [o|] eqn:L; [|discriminate].
    apply lookup_spelled in L. destruct Hc as [-> |Hc]; do 2 eexists; [apply R_equal; eauto|apply R_digit; eauto].
Qed.

Lemma unreadable_help a : readable a = false -> fst (made a) = Some OPTION_HELP.
Proof.
  unfold readable, made, makeOption. cbn [fst]. destruct (lookup a) as [o|] eqn:E; [discriminate|].
  destruct (split_at a) as [[n b]|].
  - destruct n as [|n0 n].
    + destruct b as [|c b']; [reflexivity|]. destruct (Ascii.eqb c "="); [|discriminate]. destruct b'; [reflexivity|discriminate].
    + destruct (lookup (n0 :: n)) as [o|] eqn:L; [discriminate|]. intros _.
      reflexivity.
  - intros _. destruct a; [reflexivity|]. rewrite E. reflexivity.
Qed.

Lemma reads_dec a : (exists o v, reads a o v /\ made a = (Some o, v)) \/ ((forall o v, ~ reads a o v) /\ fst (made a) = Some OPTION_HELP).
Proof.
  destruct (readable a) eqn:E.
  - left. destruct (readable_reads a E) as (o & v & H). exists o, v. split; auto. now apply made_reads.
  - right. split; [|now apply unreadable_help]. intros o v H. apply reads_readable in H. congruence.
Qed.

Lemma reads_unique a o1 v1 o2 v2 : reads a o1 v1 -> reads a o2 v2 -> o1 = o2 /\ v1 = v2.
Proof. intros H1 H2. apply made_reads in H1, H2. rewrite H1 in H2. now inversion H2. Qed.

Lemma clamp_in_between lo n hi : lo <= hi -> in_between lo n hi = clamp lo n hi.
Proof. intros H. unfold in_between, clamp. destruct (Z.ltb_spec n lo); [lia|]. rewrite Z.gtb_ltb. destruct (Z.ltb_spec hi n); lia. Qed.

Lemma to_int128_iff s n : to_int128 s = Ok n <-> evaluates s n.
Proof. apply eval_value_iff. Qed.

Section P.
  Context {D : Type} (to_double : list ascii -> option D) (hw : Z).
  Notation step := (step to_double hw). Notation steps := (steps to_double hw). Notation asks := (asks to_double).
  Notation settings := (@settings D). Notation word := (word D).

  (** effect of one word *)
  Definition eff (s : settings) (w : word) : settings :=
    match w with
    | Alpha d => mkSettings (s_option s) (s_time s) (s_numbers s) (s_threads s) (s_precision s) (Some d) (s_print s)
    | Number n => mkSettings (s_option s) (s_time s) (s_numbers s ++ [n]) (s_threads s) (s_precision s) (s_alpha s) (s_print s)
    | Threads n => mkSettings (s_option s) (s_time s) (s_numbers s) (set_num_threads hw (swrap 32 n)) (s_precision s) (s_alpha s) (s_print s)
    | Status None => mkSettings (s_option s) true (s_numbers s) (s_threads s) (s_precision s) (s_alpha s) true
    | Status (Some n) => mkSettings (s_option s) true (s_numbers s) (s_threads s) (set_status_precision (swrap 32 n)) (s_alpha s) true
    | Time => mkSettings (s_option s) true (s_numbers s) (s_threads s) (s_precision s) (s_alpha s) (s_print s)
    | Algorithm o => mkSettings o (s_time s) (s_numbers s) (s_threads s) (s_precision s) (s_alpha s) (s_print s)
    end.

  Lemma step_asks s a w : asks a w -> step s a = Ok (inl (eff s w)).
  Proof.
    intros H. destruct H as [a v d R E|a v n R E|a v n R E|a R|a c v n R E|a v R|a o v A R]; apply made_reads in R; unfold made in R;
      unfold Options.step; destruct (makeOption a) as [id value]; cbn [fst snd] in R; inversion R as [[R1 R2]]; subst value; rewrite R1; cbn [eff].
    - now rewrite E.
    - apply to_int128_iff in E. now rewrite E.
    - apply to_int128_iff in E. now rewrite E.
    - reflexivity.
    - apply to_int128_iff in E. now rewrite E.
    - reflexivity.
    - destruct o; try discriminate A; reflexivity.
  Qed.

  Lemma step_inv s a s' : step s a = Ok (inl s') -> exists w, asks a w /\ s' = eff s w.
  Proof.
    intros H. destruct (reads_dec a) as [(o & v & R & M)|[_ M]].
    - unfold made in M. unfold Options.step in H. destruct (makeOption a) as [id value]; cbn [fst snd] in M. inversion M as [[M1 M2]]. subst value. rewrite M1 in H.
      destruct o; cbv beta iota in H; try discriminate H; try (inversion H; subst s'; match type of R with reads _ ?o _ => exists (Algorithm o) end; split; [eapply A_algorithm; [reflexivity|exact R]|reflexivity]).
      + destruct (to_double v) as [d|] eqn:E; [|discriminate]. inversion H. exists (Alpha d). split; [econstructor; eauto|reflexivity].
      + destruct (to_int128 v) as [n|] eqn:E; [|discriminate]. inversion H. exists (Number n). split; [econstructor; eauto; now apply to_int128_iff|reflexivity].
      + destruct v as [|c v].
        * inversion H. exists (Status None). split; [now constructor|reflexivity].
        * destruct (to_int128 (c :: v)) as [n|] eqn:E; [|discriminate]. inversion H. exists (Status (Some n)). split; [econstructor; eauto; now apply to_int128_iff|reflexivity].
      + inversion H. exists Time. split; [econstructor; eauto|reflexivity].
      + destruct (to_int128 v) as [n|] eqn:E; [|discriminate]. inversion H. exists (Threads n). split; [econstructor; eauto; now apply to_int128_iff|reflexivity].
    - unfold made in M. unfold Options.step in H. destruct (makeOption a) as [id value]; cbn [fst snd] in M. rewrite M in H. discriminate H.
  Qed.

  Lemma steps_asks s args ws rest : Forall2 asks args ws -> steps s (args ++ rest) = steps (fold_left eff ws s) rest.
  Proof.
    intros H; revert s; induction H as [|a w args ws H _ IH]; intros s; [reflexivity|].
    cbn [app Options.steps fold_left]. rewrite (step_asks s a w H). cbn [bind]. apply IH.
  Qed.

  Lemma steps_inv s args s' : steps s args = Ok (inl s') -> exists ws, Forall2 asks args ws /\ s' = fold_left eff ws s.
  Proof.
    revert s; induction args as [|a args IH]; intros s H; cbn [Options.steps] in H.
    - inversion H. exists []. split; [constructor|reflexivity].
    - destruct (step s a) as [[s1|p]|] eqn:E; cbn [bind] in H; try discriminate. destruct (step_inv _ _ _ E) as (w & Hw & ->).
      destruct (IH _ H) as (ws & Hws & ->). exists (w :: ws). split; [now constructor|reflexivity].
  Qed.

  (** the settings field by field *)
  Lemma eff_numbers ws s : s_numbers (fold_left eff ws s) = s_numbers s ++ numbers ws.
  Proof.
    revert s; induction ws as [|w ws IH]; intros s; [cbn; now rewrite app_nil_r|]. cbn [fold_left]. rewrite IH. unfold numbers. cbn [flat_map].
    destruct w as [| | |[|]| |]; cbn [eff s_numbers app]; auto. now rewrite <- app_assoc.
  Qed.
  Lemma eff_field {A} (f : settings -> A) (g : word -> option A) :
    (forall s w, f (eff s w) = match g w with Some v => v | None => f s end) ->
    forall ws s, f (fold_left eff ws s) = last_of g ws (f s).
  Proof. intros H ws; induction ws as [|w ws IH]; intros s; [reflexivity|]. cbn [fold_left]. rewrite IH, H. reflexivity. Qed.
  Lemma eff_flag (f : settings -> bool) (g : word -> bool) :
    (forall s w, f (eff s w) = g w || f s) -> forall ws s, f (fold_left eff ws s) = existsb g ws || f s.
  Proof. intros H ws; induction ws as [|w ws IH]; intros s; [reflexivity|]. cbn [fold_left existsb]. rewrite IH, H. destruct (g w), (existsb g ws), (f s); reflexivity. Qed.

  Lemma last_of_ext {A} (g h : word -> option A) ws d : (forall w, In w ws -> g w = h w) -> last_of g ws d = last_of h ws d.
  Proof.
    unfold last_of. revert d; induction ws as [|w ws IH]; intros d H; [reflexivity|]. cbn [fold_left]. rewrite (H w) by now left. apply IH. intros v Hv. apply H. now right.
  Qed.

  Lemma swrap32_id n : - 2 ^ 31 <= n < 2 ^ 31 -> swrap 32 n = n.
  Proof. intros. apply swrap_id; [lia|]. unfold in_s. change (smin 32) with (- 2 ^ 31). change (smax 32) with (2 ^ 31 - 1). lia. Qed.

  Lemma eff_all ws : 1 <= hw -> int_values ws -> fold_left eff ws settings0 =
    mkSettings (asked_algorithm ws) (asked_time ws) (numbers ws) (asked_threads hw ws) (asked_precision ws) (asked_alpha ws) (asked_print ws).
  Proof.
    intros Hhw HI. set (r := fold_left eff ws settings0).
    assert (E1 : s_option r = asked_algorithm ws) by (apply eff_field; intros s [| | |[|]| |]; reflexivity).
    assert (E2 : s_time r = asked_time ws). { unfold r. rewrite (eff_flag s_time (fun w => match w with Status _ | Time => true | _ => false end)); [apply orb_false_r|]. intros s [| | |[|]| |]; reflexivity. }
    assert (E3 : s_numbers r = numbers ws) by apply eff_numbers.
    assert (E4 : s_threads r = asked_threads hw ws).
    { unfold r. rewrite (eff_field s_threads (fun w => match w with Threads n => Some (set_num_threads hw (swrap 32 n)) | _ => None end)).
      - apply last_of_ext. intros w Hw. specialize (HI w Hw). destruct w as [| | |[|]| |]; auto. unfold set_num_threads. now rewrite swrap32_id, clamp_in_between by auto.
      - intros s [| | |[|]| |]; reflexivity. }
    assert (E5 : s_precision r = asked_precision ws).
    { unfold r. rewrite (eff_field s_precision (fun w => match w with Status (Some n) => Some (set_status_precision (swrap 32 n)) | _ => None end)).
      - apply last_of_ext. intros w Hw. specialize (HI w Hw). destruct w as [| | |[|]| |]; auto. unfold set_status_precision. rewrite swrap32_id, clamp_in_between by (auto; lia). reflexivity.
      - intros s [| | |[|]| |]; reflexivity. }
    assert (E6 : s_alpha r = asked_alpha ws) by (apply (eff_field s_alpha); intros s [| | |[|]| |]; reflexivity).
    assert (E7 : s_print r = asked_print ws). { unfold r. rewrite (eff_flag s_print (fun w => match w with Status _ => true | _ => false end)); [apply orb_false_r|]. intros s [| | |[|]| |]; reflexivity. }
    clearbody r. destruct r; cbn in *. now subst.
  Qed.

  Lemma parse_run args x s : parseOptions to_double hw args = Ok (Run x s) <-> exists ws, Forall2 asks args ws /\ numbers ws = [x] /\ s = fold_left eff ws settings0.
  Proof.
    unfold parseOptions. split.
    - destruct (steps settings0 args) as [[s1|p]|e] eqn:E; try discriminate.
      + destruct (steps_inv _ _ _ E) as (ws & H & ->). rewrite eff_numbers. cbn [settings0 s_numbers app].
        destruct (numbers ws) as [|n [|? ?]] eqn:N; try discriminate. intros X; inversion X; subst. exists ws. auto.
      + intros X; inversion X; subst. exfalso. clear X. revert E. generalize (@settings0 D). induction args as [|a args IH]; intros s0; cbn [Options.steps]; [discriminate|].
        destruct (step s0 a) as [[s1|p]|] eqn:E; cbn [bind]; try discriminate; [apply IH|]. intros X; inversion X; subst p.
        destruct (reads_dec a) as [(o & v & R & M)|[_ M]]; unfold made in M; unfold Options.step in E; destruct (makeOption a) as [id value]; cbn [fst snd] in M.
        * inversion M as [[M1 M2]]. subst value. rewrite M1 in E. destruct o; try discriminate E.
          { destruct (to_double v); discriminate. } { destruct (to_int128 v); discriminate. }
          { destruct v; [discriminate|]. destruct (to_int128 _); discriminate. } { destruct (to_int128 v); discriminate. }
        * rewrite M in E. discriminate E.
      + destruct e; discriminate.
    - intros (ws & H & N & ->). rewrite <- (app_nil_r args), (steps_asks _ _ _ [] H). cbn [Options.steps]. rewrite eff_numbers. cbn [settings0 s_numbers app]. now rewrite N.
  Qed.

  Lemma parse_count args ws : Forall2 asks args ws -> List.length (numbers ws) <> 1%nat -> parseOptions to_double hw args = Ok Help.
  Proof.
    intros H N. unfold parseOptions. rewrite <- (app_nil_r args), (steps_asks _ _ _ [] H). cbn [Options.steps]. rewrite eff_numbers. cbn [settings0 s_numbers app].
    destruct (numbers ws) as [|n [|? ?]]; try reflexivity. cbn in N. lia.
  Qed.

  Lemma eval_empty : to_int128 [] = Fail Throw. Proof. reflexivity. Qed.

  Lemma step_bad s a : bad to_double a -> step s a = Ok (inr Help) \/ step s a = Fail Throw.
  Proof.
    intros H. destruct H as [a H|a v R|a v R E|a o O R|a o v t O NE R X V].
    - destruct (reads_dec a) as [(o & v & R & _)|[_ M]]; [destruct (H _ _ R)|]. unfold made in M. unfold Options.step. destruct (makeOption a); cbn [fst snd] in M. rewrite M. now left.
    - apply made_reads in R. unfold made in R. unfold Options.step. destruct (makeOption a); cbn [fst snd] in R. inversion R as [[R1 R2]]. rewrite R1. now left.
    - apply made_reads in R. unfold made in R. unfold Options.step. destruct (makeOption a); cbn [fst snd] in R. inversion R as [[R1 R2]]. subst. rewrite R1, E. now right.
    - apply made_reads in R. unfold made in R. unfold Options.step. destruct (makeOption a); cbn [fst snd] in R. inversion R as [[R1 R2]]. subst. rewrite R1. right. destruct O as [-> | ->]; rewrite eval_empty; reflexivity.
    - apply made_reads in R. unfold made in R. unfold Options.step. destruct (makeOption a); cbn [fst snd] in R. inversion R as [[R1 R2]]. subst. rewrite R1. right.
      pose proof (eval_divzero t v X V) as E. change (eval v) with (to_int128 v) in E. destruct O as [-> |[-> | ->]]; try now rewrite E. destruct v; [congruence|now rewrite E].
  Qed.

  Lemma parse_bad args ws a rest : Forall2 asks args ws -> bad to_double a -> parseOptions to_double hw (args ++ a :: rest) = Ok Help.
  Proof.
    intros H B. unfold parseOptions. rewrite (steps_asks _ _ _ _ H). cbn [Options.steps]. destruct (step_bad (fold_left eff ws settings0) a B) as [-> | ->]; reflexivity.
  Qed.

  Lemma step_cases s a : (exists r, step s a = Ok r) \/ step s a = Fail Throw \/ step s a = Fail UB.
  Proof.
    destruct (reads_dec a) as [(o & v & R & M)|[_ M]]; unfold made in M; unfold Options.step; destruct (makeOption a) as [id value]; cbn [fst snd] in M.
    - inversion M as [[M1 M2]]. subst value. rewrite M1. destruct o; try (left; eexists; reflexivity).
      + destruct (to_double v); [left; eexists; reflexivity|right; now left].
      + destruct (eval_cases v) as [(n & E)|[E|E]]; change (eval v) with (to_int128 v) in E; rewrite E; [left; eexists; reflexivity| |]; cbn; auto.
      + destruct v as [|c v]; [left; eexists; reflexivity|].
        destruct (eval_cases (c :: v)) as [(n & E)|[E|E]]; change (eval (c :: v)) with (to_int128 (c :: v)) in E; rewrite E; [left; eexists; reflexivity| |]; cbn; auto.
      + destruct (eval_cases v) as [(n & E)|[E|E]]; change (eval v) with (to_int128 v) in E; rewrite E; [left; eexists; reflexivity| |]; cbn; auto.
    - rewrite M. left. eexists. reflexivity.
  Qed.

  Lemma parse_cases args : (exists p, parseOptions to_double hw args = Ok p) \/ parseOptions to_double hw args = Fail UB.
  Proof.
    unfold parseOptions. assert (H : forall s, (exists r, steps s args = Ok r) \/ steps s args = Fail Throw \/ steps s args = Fail UB).
    { induction args as [|a args IH]; intros s; cbn [Options.steps]; [left; eexists; reflexivity|].
      destruct (step_cases s a) as [([s1|p] & E)|[E|E]]; rewrite E; cbn [bind]; auto. left. eexists. reflexivity. }
    destruct (H settings0) as [([s|p] & ->)|[-> | ->]]; [left|left|left|right]; try (eexists; reflexivity); try reflexivity.
    destruct (s_numbers s) as [|? [|]]; eexists; reflexivity.
  Qed.
End P.

Lemma int64_cast_ok x : - 2 ^ 63 <= x -> int64_cast x = (if x <? 2 ^ 63 then Ok x else Fail Throw).
Proof.
  intros H. unfold int64_cast. change (smax 64) with (2 ^ 63 - 1). rewrite Z.gtb_ltb. destruct (Z.ltb_spec (2 ^ 63 - 1) x), (Z.ltb_spec x (2 ^ 63)); try lia; auto.
  rewrite swrap_id; auto; [lia|]. unfold in_s. change (smin 64) with (- 2 ^ 63). change (smax 64) with (2 ^ 63 - 1). lia.
Qed.

Lemma parse_run_int D (to_double : list ascii -> option D) hw args x s : 1 <= hw -> (forall ws, Forall2 (asks to_double) args ws -> int_values ws) ->
  parseOptions to_double hw args = Ok (Run x s) <->
  exists ws, Forall2 (asks to_double) args ws /\ numbers ws = [x] /\
    s = mkSettings (asked_algorithm ws) (asked_time ws) [x] (asked_threads hw ws) (asked_precision ws) (asked_alpha ws) (asked_print ws).
Proof.
  intros Hhw HI. rewrite parse_run. split; intros (ws & H & N & ->); exists ws; (split; [exact H|]); (split; [exact N|]); rewrite eff_all; auto; rewrite N; reflexivity.
Qed.

Lemma parse_run_any D (to_double : list ascii -> option D) hw args x s : parseOptions to_double hw args = Ok (Run x s) ->
  exists ws, Forall2 (asks to_double) args ws /\ numbers ws = [x] /\
    s_option s = asked_algorithm ws /\ s_alpha s = asked_alpha ws /\ s_time s = asked_time ws /\ s_print s = asked_print ws.
Proof.
  intros H. apply parse_run in H. destruct H as (ws & H & N & ->). exists ws. split; [exact H|]. split; [exact N|]. split; [|split; [|split]].
  - apply eff_field; intros s [| | |[|]| |]; reflexivity.
  - apply (eff_field hw s_alpha); intros s [| | |[|]| |]; reflexivity.
  - rewrite (eff_flag hw s_time (fun w => match w with Status _ | Time => true | _ => false end)); [apply orb_false_r|]. intros s [| | |[|]| |]; reflexivity.
  - rewrite (eff_flag hw s_print (fun w => match w with Status _ => true | _ => false end)); [apply orb_false_r|]. intros s [| | |[|]| |]; reflexivity.
Qed.

Lemma int64_cast_large x : 2 ^ 63 <= x -> int64_cast x = Fail Throw.
Proof. intros H. rewrite int64_cast_ok by lia. destruct (Z.ltb_spec x (2 ^ 63)); [lia|reflexivity]. Qed.

Lemma threads_truncated : exists args x s, parseOptions (fun _ => @None Z) 8 args = Ok (Run x s) /\
  asks (fun _ => @None Z) (nth 1 args []) (Threads (2 ^ 32 + 1)) /\ clamp 1 (2 ^ 32 + 1) 8 = 8 /\ s_threads s = 1.
Proof.
  exists [list_ascii_of_string "100"; list_ascii_of_string "--threads=4294967297"], 100, (mkSettings OPTION_PI false [100] 1 (-1) None false).
  split; [vm_compute; reflexivity|]. split; [|split; reflexivity]. cbn [nth].
  apply (A_threads _ _ (list_ascii_of_string "4294967297")).
  - apply (R_equal (list_ascii_of_string "--threads") (list_ascii_of_string "4294967297")); [|cbn; auto].
    apply plain_compute. reflexivity.
  - apply to_int128_iff. vm_compute. reflexivity.
Qed.

Lemma expression_rejected : exists a n, evaluates a n /\ parseOptions (fun _ => @None Z) 8 [a] = Ok Help.
Proof. exists (list_ascii_of_string "(1+2)*50"), 150. split; [apply to_int128_iff|]; vm_compute; reflexivity. Qed.

Lemma int64_cast_truncates : exists x s,
  parseOptions (fun _ => @None Z) 8 [list_ascii_of_string "--number=-18446744073709551516"; list_ascii_of_string "--lmo1"] = Ok (Run x s) /\
  x < - 2 ^ 63 /\ s_option s = OPTION_LMO1 /\ prime_sum x = 0 /\
  forall o, valid_oracles o -> (n <- int64_cast x ;; pi_lmo1 o n) = Ok 1060.
Proof.
  exists (-18446744073709551516), (mkSettings OPTION_LMO1 false [-18446744073709551516] 0 (-1) None false).
  split; [vm_compute; reflexivity|]. split; [reflexivity|]. split; [reflexivity|]. split; [reflexivity|]. intros o HO.
  change (int64_cast (-18446744073709551516)) with (@Ok Z 100). rewrite bind_Ok. rewrite pi_lmo1_ok.
  - apply (f_equal Ok). vm_compute. reflexivity.
  - exact HO.
  - reflexivity.
  - intros n c Hn. apply window_free_small. assert (100 / n <= 100) by (apply Z.div_le_upper_bound; lia). unfold first_bad. lia.
Qed.
