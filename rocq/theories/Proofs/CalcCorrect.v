From Coq Require Import ZArith List Bool Ascii Lia.
From Verif.Base Require Import Res LoopRes Word.
From Verif.Model Require Import Calculator.
From Verif.Spec Require Import ExprSpec.
From Verif.Proofs Require Import Calculator CalcParse.
Import ListNotations.
Open Scope Z_scope.

Scheme VT_ind2 := Induction for ValueText Sort Prop
  with ET_ind2 := Induction for ExprText Sort Prop.
Combined Scheme text_ind from VT_ind2, ET_ind2.

Definition fits (ops : cstack) (t : tree) : Prop :=
  match t, ops with Bin b _ _, (o, _) :: _ => reduces (mo b) o = false | _, _ => True end.
Definition closes (o : operator) (t : tree) : Prop :=
  match t with Bin b _ _ => reduces o (mo b) = true | _ => True end.
Definition fin (o : operator) (r' : list ascii) (v : Z) (st : cstack) : res (Z * list ascii * cstack) :=
  x <- reduce o v st ;;
  match x with
  | inl (v, st') => Ok (v, r', st')
  | inr (v, st') => '(v', r'', st'') <- pV r' ((o, v) :: st') ;; pL v' r'' st''
  end.

Lemma reduces_spec o p : reduces o p = true <->
  precedence o < precedence p \/ (precedence o = precedence p /\ right_assoc o = false).
Proof. unfold reduces. rewrite orb_true_iff, andb_true_iff, negb_true_iff, Z.ltb_lt, Z.eqb_eq. tauto. Qed.
Lemma reduces_false o p : reduces o p = false <->
  precedence p < precedence o \/ (precedence o = precedence p /\ right_assoc o = true).
Proof.
  unfold reduces. rewrite orb_false_iff, andb_false_iff, negb_false_iff, Z.ltb_ge, Z.eqb_neq.
  destruct (right_assoc o); intuition; try lia; try discriminate.
Qed.

Lemma fits_left b l r ops : okops ops -> fits ops (Bin b l r) -> left_ok b l -> fits ops l.
Proof.
  intros Hops. destruct l as [| | |c l1 l2]; simpl; auto. destruct ops as [|[o v] ops]; auto.
  inversion Hops as [|? ? [p Hp] _]; subst. simpl in Hp. subst o.
  rewrite !reduces_false, !mo_prec, !mo_rassoc. unfold left_ok. simpl.
  intros H1 H2. destruct (rassoc b) eqn:Eb; [left; lia|]. destruct H1 as [H1|[_ H1]]; [left; lia|discriminate].
Qed.
Lemma closes_left b l : left_ok b l -> closes (mo b) l.
Proof.
  destruct l as [| | |c l1 l2]; simpl; auto. rewrite reduces_spec, !mo_prec, !mo_rassoc. unfold left_ok. simpl.
  destruct (rassoc b); intros; [left; lia|]. destruct (Z.eq_dec (prec b) (prec c)); [right; auto|left; lia].
Qed.
Lemma left_closes b l : level l <> 100 \/ True -> closes (mo b) l -> left_ok b l.
Proof.
  intros _. unfold left_ok. pose proof (prec_pos b).
  destruct l as [| | |c l1 l2]; simpl; try (intros; destruct (rassoc b); lia).
  rewrite reduces_spec, !mo_prec, !mo_rassoc. intros [H1|[H1 H2]]; [destruct (rassoc b); lia|].
  rewrite H2. lia.
Qed.
Lemma fits_right b v ops r : right_ok b r -> fits ((mo b, v) :: ops) r.
Proof.
  destruct r as [| | |c l1 l2]; simpl; auto. rewrite reduces_false, !mo_prec, !mo_rassoc. unfold right_ok. simpl.
  destruct (rassoc b) eqn:E; intros; [|left; lia]. destruct (Z.eq_dec (prec b) (prec c)) as [e|]; [right|left; lia].
  split; auto. rewrite <- E. symmetry. now apply prec_rassoc.
Qed.
Lemma right_fits b v ops r : fits ((mo b, v) :: ops) r -> right_ok b r.
Proof.
  unfold right_ok. pose proof (prec_pos b).
  destruct r as [| | |c l1 l2]; simpl; try (intros; destruct (rassoc b); lia).
  rewrite reduces_false, !mo_prec, !mo_rassoc. intros [H1|[H1 H2]]; [destruct (rassoc b); lia|].
  rewrite (prec_rassoc b c) by auto. rewrite H2. lia.
Qed.
Lemma closes_right o b l r : right_ok b r -> closes o (Bin b l r) -> closes o r.
Proof.
  destruct r as [| | |c l1 l2]; simpl; auto. rewrite !reduces_spec, !mo_prec. unfold right_ok. simpl.
  intros H1 H2. assert (prec b <= prec c) by (destruct (rassoc b); lia). 
  destruct (Z.eq_dec (prec b) (prec c)) as [e|]; [rewrite <- e; auto|]. left. lia.
Qed.

Lemma bind_bind {A B C} (m : res A) (f : A -> res B) (g : B -> res C) :
  bind (bind m f) g = bind m (fun x => bind (f x) g).
Proof. destruct m; reflexivity. Qed.

Lemma digit_nonspace base c : digit base c -> ~ space c.
Proof.
  intros (d & H & _) S. unfold hexval, space in *.
  destruct (Z.leb_spec 48 (code c)), (Z.leb_spec (code c) 57); cbn [andb] in H; try lia;
  destruct (Z.leb_spec 97 (code c)), (Z.leb_spec (code c) 102); cbn [andb] in H; try lia;
  destruct (Z.leb_spec 65 (code c)), (Z.leb_spec (code c) 70); cbn [andb] in H; try lia; discriminate.
Qed.
Lemma space_char c : (isspace c = false) -> ~ space c.
Proof. intros H S. apply isspace_spec in S. congruence. Qed.

Lemma complete :
  (forall t s r, ValueText t s r -> forall st, pV s st = (v <- to_res (value t) ;; Ok (v, r, st))) /\
  (forall t s r, ExprText t s r -> forall ops st0 o r', okops ops -> fits ops t -> parseOp r = Ok (o, r') ->
     closes o t ->
     ('(v, r1, st') <- pV s (ops ++ marker :: st0) ;; pL v r1 st') =
     (v <- to_res (value t) ;; fin o r' v (ops ++ marker :: st0))).
Proof.
  apply text_ind.
  - (* space *) intros c t s r Hc _ IH st. rewrite <- IH, (pV_eq s), pV_eq. unfold stepV.
    replace (eatSpaces (c :: s)) with (eatSpaces s); auto. simpl. apply isspace_spec in Hc. now rewrite Hc.
  - (* decimal *) intros ds r Hne Hds Hr Hnh st. rewrite pV_eq. unfold stepV.
    destruct ds as [|c ds]; [contradiction|]. inversion Hds as [|? ? Hc Hds']; subst.
    pose proof (digit_nonspace _ _ Hc). pose proof Hc as Hc'. apply digit_toInteger in Hc'; [|lia].
    cbn [app]. rewrite eatSpaces_nonspace by auto.
    assert (PD : parseDecimal (c :: ds ++ r) = (v <- to_res (repr (positional 10 0 (c :: ds))) ;; Ok (v, r))).
    { unfold parseDecimal. apply (parseDigits_ok 10 (c :: ds)); auto; lia. }
    cbn [value].
    destruct (Ascii.eqb_spec c "0").
    + subst c. destruct (isHex ("0"%char :: ds ++ r)) eqn:HX.
      { exfalso. apply Hnh. apply isHex_spec in HX. destruct HX as (a & x & h & tt & E & Hx & Hh).
        exists x, h, tt. split; [|auto]. cbn [app]. congruence. }
      rewrite PD, bind_bind. destruct (to_res _); reflexivity.
    + destruct (Z.leb_spec (toInteger c) 9); [|lia]. rewrite PD, bind_bind. destruct (to_res _); reflexivity.
  - (* hex *) intros x ds r Hx Hne Hds Hr st. rewrite pV_eq. unfold stepV.
    rewrite eatSpaces_nonspace by (apply space_char; reflexivity).
    cbn [Ascii.eqb Bool.eqb]. destruct ds as [|h ds]; [contradiction|]. inversion Hds as [|? ? Hh Hds']; subst.
    replace (isHex ("0"%char :: x :: (h :: ds) ++ r)) with true.
    2:{ symmetry. apply isHex_spec. exists "0"%char, x, h, (ds ++ r). auto. }
    unfold parseHex. cbn [tl]. rewrite parseDigits_ok by (auto; lia). cbn [value].
    rewrite bind_bind. destruct (to_res _); reflexivity.
  - (* parentheses *) intros t s sp r _ IH Hsp st. rewrite pV_eq. unfold stepV.
    rewrite eatSpaces_nonspace by (apply space_char; reflexivity). cbn [Ascii.eqb Bool.eqb].
    change (toInteger "("%char <=? 9) with false. cbv iota.
    rewrite pE_eq. change (marker :: st) with ([] ++ marker :: st). rewrite (IH [] st nullop (")"%char :: r)); [|constructor|destruct t; exact I| |].
    2:{ unfold parseOp. rewrite eatSpaces_app by auto. reflexivity. }
    2:{ destruct t; simpl; auto. apply reduces_null. }
    cbn [value]. destruct (to_res (value t)) as [v|]; reflexivity.
  - (* unary *) intros u t s r _ IH st. rewrite pV_eq. unfold stepV.
    rewrite eatSpaces_nonspace by (destruct u; apply space_char; reflexivity).
    cbn [value]. destruct u; cbn [uchar].
    + change (toInteger "+"%char <=? 9) with false. cbn [Ascii.eqb Bool.eqb]. rewrite IH.
      destruct (value t); reflexivity.
    + change (toInteger "-"%char <=? 9) with false. cbn [Ascii.eqb Bool.eqb]. rewrite IH.
      destruct (value t); try reflexivity. cbn [to_res bind andthen unapply].
      rewrite schk_repr. replace (z * -1) with (- z) by lia. destruct (repr (- z)); reflexivity.
    + change (toInteger "~"%char <=? 9) with false. cbn [Ascii.eqb Bool.eqb]. rewrite IH.
      destruct (value t); reflexivity.
  - (* value *) intros t s r _ IH ops st0 o r' Hops _ Ho _. rewrite IH.
    destruct (to_res (value t)) as [v|]; cbn [bind]; auto.
    rewrite pL_eq by auto. unfold stepL.
    destruct (ops ++ marker :: st0) as [|hd tl] eqn:Est; [destruct ops; discriminate|].
    rewrite Ho. cbn [bind]. reflexivity.
  - (* binary *) intros b l r s sp s1 s2 s3 _ IHl Hsp Hop _ IHr Hl Hr ops st0 o r' Hops Hf Ho Hc.
    rewrite (IHl ops st0 (mo b) s2); auto.
    2:{ eapply fits_left; eauto. } 2:{ apply parseOp_text; auto. } 2:{ apply closes_left; auto. }
    cbn [value]. destruct (value l) as [vl| |] eqn:El; cbn [to_res bind andthen]; auto.
    unfold fin at 1. replace (reduce (mo b) vl (ops ++ marker :: st0)) with (Ok (inr (A := Z * cstack) (vl, ops ++ marker :: st0))).
    2:{ destruct ops as [|[top w] ops]; cbn [app reduce].
        - unfold marker at 2. rewrite reduces_marker. reflexivity.
        - simpl in Hf. rewrite Hf. reflexivity. }
    cbn [bind].
    change ((mo b, vl) :: ops ++ marker :: st0) with (((mo b, vl) :: ops) ++ marker :: st0).
    rewrite (IHr ((mo b, vl) :: ops) st0 o r'); auto.
    2:{ eapply okops_cons; eauto. } 2:{ apply fits_right; auto. } 2:{ eapply closes_right; eauto. }
    destruct (value r) as [vr| |] eqn:Er; cbn [to_res bind andthen]; auto.
    unfold fin. cbn [app reduce]. simpl in Hc. rewrite Hc, mo_null.
    rewrite calculate_apply by (eapply value_in128; eauto).
    destruct (apply b vl vr) as [w| |]; reflexivity.
Qed.

Theorem eval_complete t s : Expression t s -> eval s = to_res (value t).
Proof.
  intros (sp & HE & Hsp). rewrite eval_eq, pE_eq. change (marker :: []) with ([] ++ marker :: []).
  rewrite (proj2 complete t s sp HE [] [] nullop []); [|constructor|destruct t; exact I| |].
  - destruct (to_res (value t)); reflexivity.
  - unfold parseOp. rewrite eatSpaces_all by auto. reflexivity.
  - destruct t; simpl; auto. apply reduces_null.
Qed.

(** ** Soundness *)
Inductive Pend : cstack -> list ascii -> list ascii -> Prop :=
| P_nil s : Pend [] s s
| P_cons b v ops s0 s l sp s1 s2 : Pend ops s0 s -> ExprText l s (sp ++ s1) -> Forall space sp ->
    OpText b s1 s2 -> value l = Value v -> left_ok b l -> (forall l r, fits ops (Bin b l r)) ->
    Pend ((mo b, v) :: ops) s0 s2.

Lemma mo_inj a b : mo a = mo b -> a = b.
Proof. destruct a, b; simpl; intros; auto; discriminate. Qed.
Lemma Pend_okops ops s0 s : Pend ops s0 s -> okops ops.
Proof. induction 1; [constructor|]. eapply okops_cons; eauto. Qed.

Lemma reduce_sound o ops s0 s1 : Pend ops s0 s1 -> (o = nullop \/ exists b, o = mo b) ->
  forall v st0 tc s x, ExprText tc s1 s -> value tc = Value v -> fits ops tc -> closes o tc ->
  reduce o v (ops ++ marker :: st0) = Ok x ->
  match x with
  | inl (v', _) => exists t, ExprText t s0 s /\ value t = Value v'
  | inr (v', st') => exists ops' s1' tc', Pend ops' s0 s1' /\ ExprText tc' s1' s /\ value tc' = Value v' /\
      closes o tc' /\ st' = ops' ++ marker :: st0 /\
      (forall b, o = mo b -> forall l r, fits ops' (Bin b l r))
  end.
Proof.
  intros HP Ho. induction HP as [s0|b w ops s0 s l sp s1 s2 HP IH Hl Hsp Hop Ew Hlo Hf]; intros v st0 tc s' x HT Ev Hfit Hc E.
  - cbn [app reduce] in E. unfold marker at 1 in E. destruct (reduces o nullop) eqn:R.
    + cbn in E. inversion E; subst. eauto.
    + inversion E; subst. exists [], s0, tc. split; [constructor|]. repeat split; auto.
  - cbn [app reduce] in E. rewrite mo_null in E. destruct (reduces o (mo b)) eqn:R.
    + rewrite calculate_apply in E by (eapply value_in128; eauto).
      destruct (apply b w v) as [u| |] eqn:Ea; cbn [to_res bind] in E; try discriminate.
      apply IH with (v := u) (st0 := st0) (tc := Bin b l tc); auto.
      * eapply ET_bin; eauto. eapply right_fits; eauto.
      * cbn [value]. rewrite Ew, Ev. exact Ea.
    + inversion E; subst. exists ((mo b, w) :: ops), s2, tc. split; [eapply P_cons; eauto|].
      repeat split; auto. intros b' -> l' r'. simpl. exact R.
Qed.

Lemma ValueText_spaces sp t s r : Forall space sp -> ValueText t s r -> ValueText t (sp ++ s) r.
Proof. induction 1; simpl; auto. intros. constructor; auto. Qed.
Lemma ValueText_level t s r : ValueText t s r -> forall o l r', t <> Bin o l r'.
Proof. induction 1; congruence. Qed.
Lemma fits_value ops t s r : ValueText t s r -> fits ops t.
Proof. intros H. pose proof (ValueText_level _ _ _ H) as L. destruct t; simpl; auto. now elim (L o t1 t2). Qed.
Lemma closes_value o t s r : ValueText t s r -> closes o t.
Proof. intros H. pose proof (ValueText_level _ _ _ H) as L. destruct t; simpl; auto. now elim (L o0 t1 t2). Qed.

Lemma sound n :
  (forall s st v r st', parseValue n s st = Ok (v, r, st') -> exists t, ValueText t s r /\ value t = Value v) /\
  (forall s st v r st', parseExpr n s st = Ok (v, r, st') ->
     exists t sp, ExprText t s (sp ++ r) /\ Forall space sp /\ value t = Value v) /\
  (forall v0 s ops st0 s0 s1 t0 v r st', Pend ops s0 s1 -> ValueText t0 s1 s -> value t0 = Value v0 ->
     exprLoop n v0 s (ops ++ marker :: st0) = Ok (v, r, st') ->
     exists t sp, ExprText t s0 (sp ++ r) /\ Forall space sp /\ value t = Value v).
Proof.
  induction n as [|n (IV & IE & IL)].
  { split; [|split]; intros; discriminate. }
  split; [|split].
  - intros s st v r st' E. rewrite parseValue_S in E. apply stepV_inv in E. cbv zeta in E.
    destruct (eatSpaces_split s) as (sp & Es & Hsp).
    set (s1 := eatSpaces s) in *. clearbody s1.
    assert (G : exists t, ValueText t s1 r /\ value t = Value v).
    2:{ destruct G as (t & G1 & G2). exists t. split; auto. rewrite Es. apply ValueText_spaces; auto. }
    clear Es Hsp sp.
    destruct E as [(c & t & E1 & -> & HX & E2 & ->)|[(c & t & E1 & HX & D & E2 & ->)|[(t & r1 & sp & E1 & E2 & -> & F)|[(t & v' & E1 & E2 & ->)|[(t & E1 & E2)|(t & v' & E1 & E2 & Ev)]]]]].
    + apply isHex_spec in HX. destruct HX as (a & x & h & tt & Ex & Hx & Hh). rewrite E1 in Ex. inversion Ex; subst.
      unfold parseHex in E2. cbn [tl] in E2. apply parseDigits_inv in E2; [|lia|lia].
      destruct E2 as (ds & Ed & Fd & Nd & Rd). exists (Num (positional 16 0 ds)). split; auto.
      rewrite Ed. apply VT_hex; auto. intros ->. simpl in Ed. subst r. apply Nd. exact Hh.
    + unfold parseDecimal in E2. apply parseDigits_inv in E2; [|lia|lia].
      destruct E2 as (ds & Ed & Fd & Nd & Rd). exists (Num (positional 10 0 ds)). split; auto.
      rewrite Ed. apply VT_dec; auto.
      * intros ->. simpl in Ed. subst r. rewrite E1 in Nd. apply Nd. simpl. apply digit_toInteger; lia.
      * rewrite <- Ed. intros (x & h & tt & Ex & Hx & Hh). rewrite E1 in Ex. inversion Ex; subst c t.
        specialize (HX eq_refl). assert (isHex s1 = true); [|congruence].
        apply isHex_spec. rewrite E1. eauto 10.
    + apply IE in E2. destruct E2 as (t' & sp' & HT & F' & Ev). exists (Par t'). split; auto.
      rewrite E1. rewrite app_assoc in HT. eapply VT_par; eauto. apply Forall_app; auto.
    + apply IV in E2. destruct E2 as (t' & HT & Ev). exists (Un UNot t'). split.
      * rewrite E1. apply (VT_un UNot); auto.
      * cbn [value]. now rewrite Ev.
    + apply IV in E2. destruct E2 as (t' & HT & Ev). exists (Un UPlus t'). split.
      * rewrite E1. apply (VT_un UPlus); auto.
      * cbn [value]. now rewrite Ev.
    + apply IV in E2. destruct E2 as (t' & HT & Ev'). exists (Un UMinus t'). split.
      * rewrite E1. apply (VT_un UMinus); auto.
      * cbn [value]. rewrite Ev'. cbn [andthen unapply]. rewrite schk_repr in Ev.
        destruct (repr (- v')); cbn [to_res] in Ev; congruence.
  - intros s st v r st' E. rewrite parseExpr_S in E.
    destruct (parseValue n s (marker :: st)) as [[[v1 r1] st1]|] eqn:E1; [|discriminate]. cbn [bind] in E.
    pose proof E1 as E1'. apply IV in E1. destruct E1 as (t & HT & Ev).
    apply (proj1 (parse_stack n)) in E1'. destruct E1' as [-> _].
    apply (IL v1 r1 [] st s s t v r st'); auto. constructor.
  - intros v0 s ops st0 s0 s1 t0 v r st' HP HT Ev E. rewrite exprLoop_S in E. unfold stepL in E.
    destruct (ops ++ marker :: st0) as [|hd tl] eqn:Est. { destruct ops; discriminate. } rewrite <- Est in E. clear hd tl Est.
    destruct (parseOp s) as [[o r1]|] eqn:Eo; [|discriminate]. cbn [bind] in E.
    destruct (reduce o v0 _) as [x|] eqn:Er; [|discriminate]. cbn [bind] in E.
    apply parseOp_inv in Eo.
    assert (Ho : o = nullop \/ exists b, o = mo b).
    { destruct Eo as [[? _]|(b & _ & _ & ? & _)]; eauto. }
    pose proof (reduce_inv o ops (Pend_okops _ _ _ HP) Ho _ _ _ Er) as RI.
    apply (reduce_sound o ops s0 s1 HP Ho v0 st0 t0 s) in Er; auto.
    2:{ now constructor. } 2:{ eapply fits_value; eauto. } 2:{ eapply closes_value; eauto. }
    destruct x as [[v1 st1]|[v1 st1]].
    + inversion E; subst. destruct RI as [-> _]. destruct Er as (t & Ht & Evt).
      destruct Eo as [[_ ->]|(b & _ & _ & Eb & _)]; [|destruct b; discriminate].
      destruct (eatSpaces_split s) as (sp & Es & Hsp). exists t, sp. rewrite <- Es. auto.
    + destruct RI as [[b Eb] _]. destruct Er as (ops' & s1' & tc & HP' & HT' & Ev' & Hc & -> & Hf).
      destruct Eo as [[Eo _]|(b' & sp & s2 & Eb' & -> & Hsp & OT)]; [rewrite Eo in Eb; destruct b; discriminate|].
      assert (b' = b) by (apply mo_inj; congruence). subst b' o.
      destruct (parseValue n r1 _) as [[[v2 r2] st2]|] eqn:E2; [|discriminate]. cbn [bind] in E.
      pose proof E2 as E2'. apply IV in E2. destruct E2 as (t2 & HT2 & Ev2).
      apply (proj1 (parse_stack n)) in E2'. destruct E2' as [-> L2].
      apply (IL v2 r2 ((mo b, v1) :: ops') st0 s0 r1 t2 v r st'); auto.
      eapply P_cons; eauto. apply left_closes; auto.
Qed.

Theorem eval_sound s v : eval s = Ok v -> exists t, Expression t s /\ value t = Value v.
Proof.
  unfold eval. intros E. destruct (parseExpr _ s []) as [[[v' r] st]|] eqn:E1; [|discriminate]. cbn [bind] in E.
  destruct r; [|discriminate]. inversion E; subst.
  apply (proj1 (proj2 (sound _))) in E1. destruct E1 as (t & sp & HT & Hsp & Ev). rewrite app_nil_r in HT.
  exists t. split; auto. exists sp. auto.
Qed.

Lemma apply_exact o a b v : apply o a b = Value v -> exact_apply o a b = Some v.
Proof.
  assert (R : forall z, repr z = Value v -> Some z = Some v).
  { intros z H. apply repr_in in H. destruct H; congruence. }
  destruct o; cbn [apply exact_apply]; intros E; try (inversion E; reflexivity); auto.
  - destruct (0 <=? b); [|discriminate]. cbn [andb] in E. destruct (_ && _); [auto|discriminate].
  - destruct (0 <=? b); [|discriminate]. cbn [andb] in E. destruct (b <? 128); [congruence|discriminate].
  - destruct (b =? 0); [discriminate|auto].
  - destruct (b =? 0); [discriminate|]. destruct (repr (Z.quot a b)); try discriminate. cbn [andthen] in E. congruence.
  - destruct (repr (10 ^ Z.max 0 b)) as [p| |] eqn:E1; try discriminate. apply repr_in in E1. destruct E1 as [-> _].
    cbn [andthen] in E. auto.
Qed.
Lemma value_exact t : forall v, value t = Value v -> exact t = Some v.
Proof.
  induction t as [z|u t IH|t IH|o l IHl r IHr]; cbn [value exact]; intros v E.
  - apply repr_in in E. destruct E; congruence.
  - destruct (value t) as [z| |]; try discriminate. cbn [andthen] in E. rewrite (IH z eq_refl).
    destruct u; cbn [unapply] in E; cbn [option_map]; try congruence. apply repr_in in E. destruct E; congruence.
  - auto.
  - destruct (value l) as [a| |]; try discriminate. destruct (value r) as [b| |]; try discriminate. cbn [andthen] in E.
    rewrite (IHl a eq_refl), (IHr b eq_refl). now apply apply_exact.
Qed.
Lemma zero_division_value t : zero_division t -> forall v, value t <> Value v.
Proof.
  induction 1; cbn [value]; intros v E.
  - destruct (value l) as [a| |]; try discriminate. cbn [andthen] in E.
    destruct (value r) as [b| |] eqn:Er; try discriminate. cbn [andthen] in E. apply value_exact in Er.
    rewrite H in Er. inversion Er; subst. discriminate.
  - destruct (value l) as [a| |]; try discriminate. cbn [andthen] in E.
    destruct (value r) as [b| |] eqn:Er; try discriminate. cbn [andthen] in E. apply value_exact in Er.
    rewrite H in Er. inversion Er; subst. discriminate.
  - destruct (value t) as [a| |]; try discriminate. now apply (IHzero_division a).
  - now apply (IHzero_division v).
  - destruct (value l) as [a| |]; try discriminate. now apply (IHzero_division a).
  - destruct (value l) as [a| |]; try discriminate. cbn [andthen] in E.
    destruct (value r) as [a'| |]; try discriminate. now apply (IHzero_division a').
Qed.

Lemma eval_cases s : (exists v, eval s = Ok v) \/ eval s = Fail Throw \/ eval s = Fail UB.
Proof.
  pose proof (eval_errors Fuel ltac:(discriminate) ltac:(discriminate) s).
  pose proof (eval_errors Abort ltac:(discriminate) ltac:(discriminate) s).
  destruct (eval s) as [v|[]]; eauto; congruence.
Qed.
Lemma eval_malformed s : ~ well_formed s -> eval s = Fail Throw \/ eval s = Fail UB.
Proof.
  intros H. destruct (eval_cases s) as [(v & E)|?]; auto. exfalso. apply H.
  apply eval_sound in E. destruct E as (t & ? & _). exists t; auto.
Qed.
Lemma eval_value_iff s v : eval s = Ok v <-> exists t, Expression t s /\ value t = Value v.
Proof.
  split; [apply eval_sound|]. intros (t & H & E). rewrite (eval_complete t s H), E. reflexivity.
Qed.
Lemma eval_divzero t s : Expression t s -> value t = DivByZero -> eval s = Fail Throw.
Proof. intros H E. rewrite (eval_complete t s H), E. reflexivity. Qed.
Lemma eval_zero_division t s v : Expression t s -> zero_division t -> eval s <> Ok v.
Proof.
  intros H Z E. rewrite (eval_complete t s H) in E. pose proof (zero_division_value t Z v).
  destruct (value t); cbn in E; congruence.
Qed.
Lemma eval_exact s v t : eval s = Ok v -> Expression t s -> exact t = Some v /\ in128 v.
Proof.
  intros E H. rewrite (eval_complete t s H) in E. destruct (value t) eqn:Ev; cbn in E; inversion E; subst.
  split; [apply value_exact; auto|eapply value_in128; eauto].
Qed.
Lemma eval_overflow s t : Expression t s -> value t = Undefined -> eval s = Fail UB.
Proof. intros H E. rewrite (eval_complete t s H), E. reflexivity. Qed.

Lemma text_len :
  (forall t s r, ValueText t s r -> (length (eatSpaces r) < length (eatSpaces s))%nat) /\
  (forall t s r, ExprText t s r -> (length (eatSpaces r) < length (eatSpaces s))%nat).
Proof.
  apply text_ind.
  - intros c t s r H _ IH. simpl. apply isspace_spec in H. rewrite H. auto.
  - intros ds r Hne Hds _ _. destruct ds as [|c ds]; [contradiction|]. inversion Hds; subst.
    cbn [app]. rewrite eatSpaces_nonspace by (eapply digit_nonspace; eauto).
    pose proof (eatSpaces_len r). simpl. rewrite app_length. lia.
  - intros x ds r _ _ _ _. rewrite eatSpaces_nonspace by (apply space_char; reflexivity).
    pose proof (eatSpaces_len r). simpl. rewrite app_length. lia.
  - intros t s sp r _ IH Hsp. rewrite eatSpaces_nonspace by (apply space_char; reflexivity).
    rewrite eatSpaces_app in IH by auto. rewrite eatSpaces_nonspace in IH by (apply space_char; reflexivity).
    pose proof (eatSpaces_len s). pose proof (eatSpaces_len r). simpl in *. lia.
  - intros u t s r _ IH. rewrite eatSpaces_nonspace by (destruct u; apply space_char; reflexivity).
    pose proof (eatSpaces_len s). simpl. lia.
  - auto.
  - intros o l r s sp s1 s2 s3 _ IHl Hsp Hop _ IHr _ _. rewrite eatSpaces_app in IHl by auto.
    apply OpText_len in Hop as L. pose proof (eatSpaces_len s2).
    assert (eatSpaces s1 = s1).
    { inversion Hop; subst; apply eatSpaces_nonspace; apply space_char; reflexivity. }
    rewrite H0 in IHl. lia.
Qed.
Lemma malformed_blank : ~ well_formed [] /\ ~ well_formed [" "%char].
Proof.
  split; intros (t & sp & H & _); apply text_len in H; simpl in H; lia.
Qed.
