From Coq Require Import ZArith List Bool Ascii Lia.
From Verif.Base Require Import Res LoopRes Word.
From Verif.Model Require Import Calculator.
From Verif.Spec Require Import ExprSpec.
From Verif.Proofs Require Import Calculator.
Import ListNotations.
Open Scope Z_scope.

Definition marker : operator * Z := (nullop, 0).
Definition okops (ops : cstack) : Prop := Forall (fun x => exists b, fst x = mo b) ops.

Lemma okops_cons o b v ops : o = mo b -> okops ops -> okops ((o, v) :: ops).
Proof. intros -> H. constructor; auto. exists b. reflexivity. Qed.
Global Hint Resolve okops_cons : core.

Lemma mo_prec b : precedence (mo b) = prec b. Proof. destruct b; reflexivity. Qed.
Lemma mo_rassoc b : right_assoc (mo b) = rassoc b. Proof. destruct b; reflexivity. Qed.
Lemma mo_null b : is_null (mo b) = false. Proof. destruct b; reflexivity. Qed.
Lemma prec_pos b : 4 <= prec b <= 40. Proof. destruct b; simpl; lia. Qed.
Lemma prec_rassoc a b : prec a = prec b -> rassoc a = rassoc b.
Proof. destruct a, b; simpl; intros; auto; lia. Qed.
Lemma reduces_null b : reduces nullop (mo b) = true.
Proof. destruct b; reflexivity. Qed.
Lemma reduces_marker b : reduces (mo b) nullop = false.
Proof. destruct b; reflexivity. Qed.

(** reduce returns to the marker only for the null operator *)
Lemma reduce_inv o ops : okops ops -> (o = nullop \/ exists b, o = mo b) -> forall v st0 x,
  reduce o v (ops ++ marker :: st0) = Ok x ->
  match x with
  | inl (_, st') => o = nullop /\ st' = st0
  | inr (_, st') => (exists b, o = mo b) /\ exists ops', okops ops' /\ st' = ops' ++ marker :: st0
  end.
Proof.
  intros Hops Ho. induction ops as [|[top v0] ops IH]; intros v st0 x E.
  - cbn [app reduce] in E. unfold marker in E. destruct Ho as [-> | (b & ->)].
    + cbn in E. inversion E; subst. auto.
    + rewrite reduces_marker in E. inversion E; subst. split; [eauto|]. exists []. split; [constructor|reflexivity].
  - inversion Hops as [|? ? [b Hb] Hops']; subst. simpl in Hb. subst top.
    cbn [app reduce] in E. rewrite mo_null in E. destruct (reduces o (mo b)) eqn:R.
    + destruct (calculate v0 v (op (mo b))) eqn:C; [|discriminate]. cbn [bind] in E. exact (IH Hops' _ _ _ E).
    + inversion E; subst. split.
      * destruct Ho as [-> | ?]; auto. rewrite reduces_null in R. discriminate.
      * exists ((mo b, v0) :: ops). split; [eapply okops_cons; eauto|reflexivity].
Qed.

Lemma parseDigits_len base s : forall acc v r, parseDigits base acc s = Ok (v, r) -> (length r <= length s)%nat.
Proof.
  induction s as [|c s IH]; intros acc v r E; cbn [parseDigits] in E.
  - inversion E; auto.
  - destruct (toInteger c <=? base - 1).
    + destruct (schk 128 (acc * base)); [|discriminate]. cbn [bind] in E.
      destruct (schk 128 (a + toInteger c)); [|discriminate]. cbn [bind] in E. apply IH in E. simpl; lia.
    + inversion E; subst. auto.
Qed.

Lemma OpText_len b s r : OpText b s r -> (length r < length s)%nat.
Proof. destruct 1; simpl; lia. Qed.

(** One step of each function, abstracting the recursive calls. *)
Definition stepV (pV pE : list ascii -> cstack -> res (Z * list ascii * cstack)) (s0 : list ascii) (st : cstack)
  : res (Z * list ascii * cstack) :=
  match eatSpaces s0 with
  | [] => Fail Throw
  | c :: t =>
      if Ascii.eqb c "0" then
        '(v, r) <- (if isHex (c :: t) then parseHex (c :: t) else parseDecimal (c :: t)) ;; Ok (v, r, st)
      else if toInteger c <=? 9 then
        '(v, r) <- parseDecimal (c :: t) ;; Ok (v, r, st)
      else if Ascii.eqb c "(" then
        '(v, r, st') <- pE t st ;;
        match eatSpaces r with
        | ")"%char :: r' => Ok (v, r', st')
        | _ => Fail Throw
        end
      else if Ascii.eqb c "~" then
        '(v, r, st') <- pV t st ;; Ok (- v - 1, r, st')
      else if Ascii.eqb c "+" then pV t st
      else if Ascii.eqb c "-" then
        '(v, r, st') <- pV t st ;;
        v' <- schk 128 (v * -1) ;; Ok (v', r, st')
      else Fail Throw
  end.
Definition stepL (pV : list ascii -> cstack -> res (Z * list ascii * cstack))
  (pL : Z -> list ascii -> cstack -> res (Z * list ascii * cstack)) (value : Z) (s : list ascii) (st : cstack)
  : res (Z * list ascii * cstack) :=
  match st with
  | [] => Ok (0, s, [])
  | _ =>
    '(o, r) <- parseOp s ;;
    x <- reduce o value st ;;
    match x with
    | inl (v, st') => Ok (v, r, st')
    | inr (v, st') =>
        '(v', r', st'') <- pV r ((o, v) :: st') ;;
        pL v' r' st''
    end
  end.
Lemma parseValue_S n s st : parseValue (S n) s st = stepV (parseValue n) (parseExpr n) s st.
Proof. unfold stepV. cbn [parseValue]. cbv zeta. destruct (eatSpaces s); reflexivity. Qed.
Lemma parseExpr_S n s st : parseExpr (S n) s st =
  ('(v, r, st') <- parseValue n s (marker :: st) ;; exprLoop n v r st').
Proof. reflexivity. Qed.
Lemma exprLoop_S n v s st : exprLoop (S n) v s st = stepL (parseValue n) (exprLoop n) v s st.
Proof. reflexivity. Qed.

Lemma ascii_match {A} (c : ascii) (x y : A) :
  match c with ")"%char => x | _ => y end = if Ascii.eqb c ")" then x else y.
Proof. destruct c as [[] [] [] [] [] [] [] []]; reflexivity. Qed.

Lemma parens_match {A} (l : list ascii) (x : list ascii -> A) (y : A) :
  match l with ")"%char :: r => x r | _ => y end =
  match l with c :: r => if Ascii.eqb c ")" then x r else y | [] => y end.
Proof. destruct l as [|c l]; auto. destruct c as [[] [] [] [] [] [] [] []]; reflexivity. Qed.

Lemma stepV_inv pV pE s st v r st' : stepV pV pE s st = Ok (v, r, st') ->
  let s1 := eatSpaces s in
  (exists c t, s1 = c :: t /\ c = "0"%char /\ isHex s1 = true /\ parseHex s1 = Ok (v, r) /\ st' = st) \/
  (exists c t, s1 = c :: t /\ (c = "0"%char -> isHex s1 = false) /\ toInteger c <= 9 /\ parseDecimal s1 = Ok (v, r) /\ st' = st) \/
  (exists t r1 sp, s1 = "("%char :: t /\ pE t st = Ok (v, r1, st') /\ r1 = sp ++ ")"%char :: r /\ Forall space sp) \/
  (exists t v', s1 = "~"%char :: t /\ pV t st = Ok (v', r, st') /\ v = - v' - 1) \/
  (exists t, s1 = "+"%char :: t /\ pV t st = Ok (v, r, st')) \/
  (exists t v', s1 = "-"%char :: t /\ pV t st = Ok (v', r, st') /\ schk 128 (- v') = Ok v).
Proof.
  unfold stepV. destruct (eatSpaces s) as [|c t]; [discriminate|]. cbv zeta.
  destruct (Ascii.eqb_spec c "0") as [->|N0].
  { destruct (isHex _) eqn:H.
    - destruct (parseHex _) as [[v' r']|] eqn:E; cbn [bind]; intros E'; inversion E'; subst. left. eauto 10.
    - destruct (parseDecimal _) as [[v' r']|] eqn:E; cbn [bind]; intros E'; inversion E'; subst. right. left.
      exists "0"%char, t. repeat split; auto. vm_compute. discriminate. }
  destruct (Z.leb_spec (toInteger c) 9).
  { destruct (parseDecimal _) as [[v' r']|] eqn:E; cbn [bind]; intros E'; inversion E'; subst. right. left.
    exists c, t. repeat split; auto. intros; contradiction. }
  destruct (Ascii.eqb_spec c "(") as [->|N1].
  { destruct (pE t st) as [[[v' r'] st'']|] eqn:E; cbn [bind]; [|discriminate].
    rewrite parens_match. destruct (eatSpaces_split r') as (sp & Er & F).
    destruct (eatSpaces r') as [|c2 r2]; [discriminate|]. destruct (Ascii.eqb_spec c2 ")") as [->|]; [|discriminate].
    intros E'; inversion E'; subst. do 2 right. left. eexists t, _, sp. split; [reflexivity|]. split; [eassumption|]. auto. }
  destruct (Ascii.eqb_spec c "~") as [->|N2].
  { destruct (pV t st) as [[[v' r'] st'']|] eqn:E; cbn [bind]; [|discriminate].
    intros E'; inversion E'; subst. do 3 right. left. exists t, v'. auto. }
  destruct (Ascii.eqb_spec c "+") as [->|N3].
  { intros E. do 4 right. left. eauto. }
  destruct (Ascii.eqb_spec c "-") as [->|N4]; [|discriminate].
  destruct (pV t st) as [[[v' r'] st'']|] eqn:E; cbn [bind]; [|discriminate].
  destruct (schk 128 (v' * -1)) eqn:E2; cbn [bind]; [|discriminate].
  intros E'; inversion E'; subst. do 5 right. exists t, v'. repeat split; auto.
  rewrite <- E2. f_equal. lia.
Qed.

(** ** Stack discipline and consumption *)
Lemma parse_stack n :
  (forall s st v r st', parseValue n s st = Ok (v, r, st') -> st' = st /\ (length r < length s)%nat) /\
  (forall s st v r st', parseExpr n s st = Ok (v, r, st') -> st' = st /\ (length r < length s)%nat) /\
  (forall v0 s ops st0 v r st', okops ops -> exprLoop n v0 s (ops ++ marker :: st0) = Ok (v, r, st') ->
     st' = st0 /\ (length r <= length s)%nat).
Proof.
  induction n as [|n (IV & IE & IL)].
  { split; [|split]; intros; discriminate. }
  split; [|split].
  - intros s st v r st' E. rewrite parseValue_S in E. apply stepV_inv in E. cbv zeta in E.
    pose proof (eatSpaces_len s) as L.
    destruct E as [(c & t & E1 & -> & _ & E2 & ->)|[(c & t & E1 & _ & D & E2 & ->)|[(t & r1 & sp & E1 & E2 & -> & _)|[(t & v' & E1 & E2 & _)|[(t & E1 & E2)|(t & v' & E1 & E2 & _)]]]]];
      rewrite E1 in *; simpl in L.
    + split; auto. unfold parseHex in E2. apply parseDigits_len in E2. destruct t; simpl in *; lia.
    + split; auto. unfold parseDecimal in E2. cbn [parseDigits] in E2.
      destruct (Z.leb_spec (toInteger c) (10 - 1)); [|lia].
      destruct (schk 128 (0 * 10)); [|discriminate]. cbn [bind] in E2.
      destruct (schk 128 (a + toInteger c)); [|discriminate]. cbn [bind] in E2. apply parseDigits_len in E2. lia.
    + apply IE in E2. destruct E2 as [-> E2]. split; auto. rewrite app_length in E2. simpl in E2. lia.
    + apply IV in E2. destruct E2 as [-> E2]. split; auto. lia.
    + apply IV in E2. destruct E2 as [-> E2]. split; auto. lia.
    + apply IV in E2. destruct E2 as [-> E2]. split; auto. lia.
  - intros s st v r st' E. rewrite parseExpr_S in E.
    destruct (parseValue n s (marker :: st)) as [[[v1 r1] st1]|] eqn:E1; [|discriminate]. cbn [bind] in E.
    apply IV in E1. destruct E1 as [-> L]. apply (IL _ _ []) in E; [|constructor]. split; [tauto|lia].
  - intros v0 s ops st0 v r st' Hops E. rewrite exprLoop_S in E. unfold stepL in E.
    destruct (ops ++ marker :: st0) as [|hd tl] eqn:Est. { destruct ops; discriminate. } rewrite <- Est in E. clear hd tl Est.
    destruct (parseOp s) as [[o r1]|] eqn:Eo; [|discriminate]. cbn [bind] in E.
    destruct (reduce o v0 _) as [x|] eqn:Er; [|discriminate]. cbn [bind] in E.
    apply parseOp_inv in Eo.
    assert (Ho : o = nullop \/ exists b, o = mo b).
    { destruct Eo as [[? _]|(b & _ & _ & ? & _)]; eauto. }
    apply (reduce_inv o ops Hops Ho) in Er. destruct x as [[v1 st1]|[v1 st1]].
    + inversion E; subst. destruct Er as [-> ->]. split; auto.
      destruct Eo as [[_ ->]|(b & _ & _ & Eb & _)]; [apply eatSpaces_len|destruct b; discriminate].
    + destruct Er as [[b Eb] (ops' & Hops' & ->)].
      destruct Eo as [[Eo _]|(b' & sp & s1 & _ & -> & _ & OT)]; [rewrite Eo in Eb; destruct b; discriminate|].
      apply OpText_len in OT.
      destruct (parseValue n r1 _) as [[[v2 r2] st2]|] eqn:E2; [|discriminate]. cbn [bind] in E.
      apply IV in E2. destruct E2 as [-> L2].
      apply (IL _ _ ((o, v1) :: ops')) in E; [|eapply okops_cons; eauto].
      split; [tauto|]. rewrite app_length. lia.
Qed.

(** ** Fuel does not matter *)
Lemma parse_fuel n :
  (forall s st m, (2 * length s + 1 <= n)%nat -> (n <= m)%nat -> parseValue m s st = parseValue n s st) /\
  (forall s st m, (2 * length s + 2 <= n)%nat -> (n <= m)%nat -> parseExpr m s st = parseExpr n s st) /\
  (forall v0 s ops st0 m, okops ops -> (2 * length s + 1 <= n)%nat -> (n <= m)%nat ->
     exprLoop m v0 s (ops ++ marker :: st0) = exprLoop n v0 s (ops ++ marker :: st0)).
Proof.
  induction n as [|n (IV & IE & IL)].
  { split; [|split]; intros; lia. }
  split; [|split].
  - intros s st m Hn Hm. destruct m as [|m]; [lia|]. rewrite !parseValue_S.
    unfold stepV. pose proof (eatSpaces_len s) as L. destruct (eatSpaces s) as [|c t]; [auto|].
    simpl in L. destruct (Ascii.eqb c "0"); auto. destruct (toInteger c <=? 9); auto.
    rewrite (IV t st m ltac:(lia) ltac:(lia)). destruct (Ascii.eqb c "("); auto.
    rewrite (IE t st m ltac:(lia) ltac:(lia)). auto.
  - intros s st m Hn Hm. destruct m as [|m]; [lia|]. rewrite !parseExpr_S.
    rewrite (IV s (marker :: st) m ltac:(lia) ltac:(lia)).
    destruct (parseValue n s (marker :: st)) as [[[v r] st']|] eqn:E; cbn [bind]; auto.
    apply (proj1 (parse_stack n)) in E. destruct E as [-> L].
    apply (IL v r [] st m); [constructor|lia|lia].
  - intros v0 s ops st0 m Hops Hn Hm. destruct m as [|m]; [lia|]. rewrite !exprLoop_S.
    unfold stepL. destruct (ops ++ marker :: st0) as [|hd tl] eqn:Est. { destruct ops; discriminate. } rewrite <- Est. clear hd tl Est.
    destruct (parseOp s) as [[o r1]|e] eqn:Eo; cbn [bind]; auto.
    apply parseOp_inv in Eo.
    assert (Ho : o = nullop \/ exists b, o = mo b).
    { destruct Eo as [[? _]|(b & _ & _ & ? & _)]; eauto. }
    pose proof (reduce_inv o ops Hops Ho v0 st0) as RI.
    destruct (reduce o v0 (ops ++ marker :: st0)) as [x|e] eqn:Er; cbn [bind]; auto.
    specialize (RI x eq_refl). destruct x as [[v1 st1]|[v1 st1]]; auto.
    destruct RI as [[b Eb] (ops' & Hops' & ->)].
    destruct Eo as [[Eo _]|(b' & sp & s1 & _ & -> & _ & OT)]; [rewrite Eo in Eb; destruct b; discriminate|].
    apply OpText_len in OT. rewrite app_length in Hn.
    rewrite (IV r1 ((o, v1) :: ops' ++ marker :: st0) m ltac:(lia) ltac:(lia)).
    destruct (parseValue n r1 _) as [[[v2 r2] st2]|] eqn:E2; cbn [bind]; auto.
    apply (proj1 (parse_stack n)) in E2. destruct E2 as [-> L2].
    apply (IL v2 r2 ((o, v1) :: ops') st0 m); [eapply okops_cons; eauto|lia|lia].
Qed.

Definition pV (s : list ascii) := parseValue (2 * length s + 1) s.
Definition pE (s : list ascii) := parseExpr (2 * length s + 2) s.
Definition pL (v : Z) (s : list ascii) := exprLoop (2 * length s + 1) v s.

Lemma pV_eq s st : pV s st = stepV pV pE s st.
Proof.
  unfold pV at 1. replace (2 * length s + 1)%nat with (S (2 * length s)) by lia. rewrite parseValue_S.
  unfold stepV. pose proof (eatSpaces_len s) as L. destruct (eatSpaces s) as [|c t]; auto. simpl in L.
  unfold pV, pE.
  rewrite (proj1 (parse_fuel (2 * length t + 1)) t st (2 * length s)%nat) by lia.
  rewrite (proj1 (proj2 (parse_fuel (2 * length t + 2))) t st (2 * length s)%nat) by lia. auto.
Qed.
Lemma pE_eq s st : pE s st = ('(v, r, st') <- pV s (marker :: st) ;; pL v r st').
Proof.
  unfold pE. replace (2 * length s + 2)%nat with (S (2 * length s + 1)) by lia. rewrite parseExpr_S.
  unfold pV. destruct (parseValue _ s _) as [[[v r] st']|] eqn:E; cbn [bind]; auto.
  apply (proj1 (parse_stack _)) in E. destruct E as [-> L]. unfold pL.
  apply (proj2 (proj2 (parse_fuel (2 * length r + 1))) v r [] st); [constructor|lia|lia].
Qed.
Lemma pL_eq v s ops st0 : okops ops ->
  pL v s (ops ++ marker :: st0) = stepL pV pL v s (ops ++ marker :: st0).
Proof.
  intros Hops. unfold pL at 1. replace (2 * length s + 1)%nat with (S (2 * length s)) by lia. rewrite exprLoop_S.
  unfold stepL. destruct (ops ++ marker :: st0) as [|hd tl] eqn:Est. { destruct ops; discriminate. } rewrite <- Est. clear hd tl Est.
  destruct (parseOp s) as [[o r1]|e] eqn:Eo; cbn [bind]; auto.
  apply parseOp_inv in Eo.
  assert (Ho : o = nullop \/ exists b, o = mo b).
  { destruct Eo as [[? _]|(b & _ & _ & ? & _)]; eauto. }
  pose proof (reduce_inv o ops Hops Ho v st0) as RI.
  destruct (reduce o v (ops ++ marker :: st0)) as [x|e] eqn:Er; cbn [bind]; auto.
  specialize (RI x eq_refl). destruct x as [[v1 st1]|[v1 st1]]; auto.
  destruct RI as [[b Eb] (ops' & Hops' & ->)].
  destruct Eo as [[Eo _]|(b' & sp & s1 & _ & -> & _ & OT)]; [rewrite Eo in Eb; destruct b; discriminate|].
  apply OpText_len in OT. rewrite app_length.
  assert (EV : parseValue (2 * (length sp + length s1)) r1 ((o, v1) :: ops' ++ marker :: st0) = pV r1 ((o, v1) :: ops' ++ marker :: st0)).
  { unfold pV. apply (proj1 (parse_fuel (2 * length r1 + 1))); lia. }
  rewrite EV. clear EV. unfold pV.
  destruct (parseValue _ r1 _) as [[[v2 r2] st2]|] eqn:E2; cbn [bind]; auto.
  apply (proj1 (parse_stack _)) in E2. destruct E2 as [-> L2]. unfold pL.
  apply (proj2 (proj2 (parse_fuel (2 * length r2 + 1))) v2 r2 ((o, v1) :: ops') st0); [eapply okops_cons; eauto|lia|lia].
Qed.
Lemma eval_eq s : eval s = ('(v, r, _) <- pE s [] ;; match r with [] => Ok v | _ => Fail Throw end).
Proof.
  unfold eval. rewrite (proj1 (proj2 (parse_fuel (2 * length s + 2))) s [] (2 * length s + 3)%nat) by lia. reflexivity.
Qed.

(** ** Only representable values, never out of fuel *)
Ltac bad := first [discriminate | cbn [bind] in *; congruence].
Section Errors.
Variable e0 : err.
Hypothesis HT : Throw <> e0.
Hypothesis HU : UB <> e0.

Lemma parseDigits_nofuel base l : forall acc, parseDigits base acc l <> Fail e0.
Proof.
  induction l as [|c l IH]; intros acc; cbn [parseDigits]; [bad|].
  destruct (_ <=? _); [|bad]. unfold schk. destruct (in_sb _ _); cbn [bind]; [|bad].
  destruct (in_sb _ _); cbn [bind]; [|bad]. apply IH.
Qed.
Lemma schk_in128 z v : schk 128 z = Ok v -> in128 v.
Proof. rewrite schk_repr. destruct (repr_cases z) as [[R ->]|[R ->]]; intros E; inversion E; subst; auto. Qed.
Lemma parseDigits_in128 base l : forall acc v r, in128 acc -> parseDigits base acc l = Ok (v, r) -> in128 v.
Proof.
  induction l as [|c l IH]; intros acc v r Ha E; cbn [parseDigits] in E; [inversion E; subst; auto|].
  destruct (_ <=? _); [|inversion E; subst; auto].
  destruct (schk 128 (acc * base)); [|bad]. cbn [bind] in E.
  destruct (schk 128 (a + toInteger c)) eqn:S; [|bad]. cbn [bind] in E. apply schk_in128 in S. eauto.
Qed.
Lemma calculate_in128 b v w u : in128 v -> in128 w -> calculate v w (op (mo b)) = Ok u -> in128 u.
Proof.
  intros Hv Hw. rewrite calculate_apply by auto. destruct (apply b v w) eqn:E; cbn [to_res]; intros E'; inversion E'; subst.
  apply (apply_in128 b v w); auto.
Qed.
Lemma to_res_nofuel o : to_res o <> Fail e0.
Proof. destruct o; cbn; bad. Qed.

Definition instack (st : cstack) : Prop := Forall (fun x => in128 (snd x)) st.
Lemma reduce_in128 o ops : okops ops -> forall v st0, instack ops -> in128 v ->
  reduce o v (ops ++ marker :: st0) <> Fail e0 /\
  match reduce o v (ops ++ marker :: st0) with
  | Ok (inl (v', _)) => in128 v'
  | Ok (inr (v', st')) => in128 v' /\ exists ops', okops ops' /\ instack ops' /\ st' = ops' ++ marker :: st0
  | _ => True
  end.
Proof.
  intros Hops. induction Hops as [|[top w] ops [b Hb] Hops IH]; intros v st0 Hst Hv.
  - cbn [app reduce]. unfold marker at 1 3. cbn [is_null nullop op]. destruct (reduces o nullop); split; try bad; auto.
    split; auto. exists []. repeat split; constructor.
  - simpl in Hb. subst top. inversion Hst; subst. cbn [app reduce]. rewrite mo_null.
    destruct (reduces o (mo b)).
    + pose proof (calculate_in128 b w v) as CI. pose proof (calculate_apply b w v) as CA.
      destruct (calculate w v (op (mo b))) as [a|e] eqn:C; cbn [bind].
      * apply IH; auto.
      * split; auto. intros Ef. inversion Ef; subst e. specialize (CA ltac:(auto) ltac:(auto)). symmetry in CA. revert CA. apply to_res_nofuel.
    + split; [bad|]. split; auto. exists ((mo b, w) :: ops). repeat split; auto. eapply okops_cons; eauto.
Qed.

Lemma parse_safe n :
  (forall s st, (2 * length s + 1 <= n)%nat -> parseValue n s st <> Fail e0 /\
     forall v r st', parseValue n s st = Ok (v, r, st') -> in128 v) /\
  (forall s st, (2 * length s + 2 <= n)%nat -> parseExpr n s st <> Fail e0 /\
     forall v r st', parseExpr n s st = Ok (v, r, st') -> in128 v) /\
  (forall v0 s ops st0, okops ops -> instack ops -> in128 v0 -> (2 * length s + 1 <= n)%nat ->
     exprLoop n v0 s (ops ++ marker :: st0) <> Fail e0 /\
     forall v r st', exprLoop n v0 s (ops ++ marker :: st0) = Ok (v, r, st') -> in128 v).
Proof.
  induction n as [|n (IV & IE & IL)].
  { split; [|split]; intros; lia. }
  split; [|split].
  - intros s st Hn. rewrite !parseValue_S. unfold stepV. pose proof (eatSpaces_len s) as L.
    destruct (eatSpaces s) as [|c t]; [split; bad|]. simpl in L.
    assert (P0 : in128 0) by (unfold in128; lia).
    pose proof (parseDigits_nofuel 10 (c :: t) 0) as F10. pose proof (parseDigits_in128 10 (c :: t) 0) as I10.
    pose proof (parseDigits_nofuel 16 (tl (tl (c :: t))) 0) as F16. pose proof (parseDigits_in128 16 (tl (tl (c :: t))) 0) as I16.
    unfold parseHex, parseDecimal.
    destruct (Ascii.eqb c "0").
    { destruct (isHex _).
      - destruct (parseDigits 16 0 _) as [[v r]|e]; cbn [bind]; split; try bad. intros ? ? ? E; inversion E; subst; eauto.
      - destruct (parseDigits 10 0 _) as [[v r]|e]; cbn [bind]; split; try bad. intros ? ? ? E; inversion E; subst; eauto. }
    destruct (toInteger c <=? 9).
    { destruct (parseDigits 10 0 _) as [[v r]|e]; cbn [bind]; split; try bad. intros ? ? ? E; inversion E; subst; eauto. }
    destruct (IV t st ltac:(lia)) as [NV JV].
    destruct (Ascii.eqb c "(").
    { destruct (IE t st ltac:(lia)) as [NE JE].
      destruct (parseExpr n t st) as [[[v r] st']|]; cbn [bind]; [|split; bad].
      rewrite parens_match. destruct (eatSpaces r); [split; bad|]. destruct (Ascii.eqb _ _); split; try bad.
      intros ? ? ? E; inversion E; subst; eauto. }
    destruct (Ascii.eqb c "~").
    { destruct (parseValue n t st) as [[[v r] st']|]; cbn [bind]; split; try bad.
      intros ? ? ? E; inversion E; subst. specialize (JV _ _ _ eq_refl). unfold in128 in *. lia. }
    destruct (Ascii.eqb c "+"); [split; auto|]. destruct (Ascii.eqb c "-"); [|split; bad].
    destruct (parseValue n t st) as [[[v r] st']|]; cbn [bind]; [|split; bad].
    destruct (schk 128 (v * -1)) eqn:S; cbn [bind].
    + split; [bad|]. intros ? ? ? E; inversion E; subst. now apply schk_in128 in S.
    + split; [|bad]. rewrite schk_repr in S. intros E. inversion E; subst. now apply to_res_nofuel in S.
  - intros s st Hn. rewrite !parseExpr_S.
    destruct (IV s (marker :: st) ltac:(lia)) as [NV JV].
    destruct (parseValue n s (marker :: st)) as [[[v r] st']|] eqn:E; cbn [bind]; [|split; bad].
    specialize (JV _ _ _ eq_refl).
    apply (proj1 (parse_stack n)) in E. destruct E as [-> L].
    apply (IL v r [] st); [constructor|constructor|auto|lia].
  - intros v0 s ops st0 Hops Hst Hv Hn. rewrite !exprLoop_S.
    unfold stepL. destruct (ops ++ marker :: st0) as [|hd tl] eqn:Est. { destruct ops; bad. } rewrite <- Est. clear hd tl Est.
    destruct (parseOp s) as [[o r1]|e] eqn:Eo; cbn [bind].
    2:{ split; [|bad]. intros E. inversion E; subst. revert Eo. unfold parseOp, expect2. clear - HT HU.
        destruct (eatSpaces s) as [|c l]; [bad|].
        destruct c as [[] [] [] [] [] [] [] []]; try bad;
          destruct l as [|c l]; try bad; try (destruct (_ && _); bad).
        destruct c as [[] [] [] [] [] [] [] []]; bad. }
    apply parseOp_inv in Eo.
    assert (Ho : o = nullop \/ exists b, o = mo b).
    { destruct Eo as [[? _]|(b & _ & _ & ? & _)]; eauto. }
    pose proof (reduce_inv o ops Hops Ho v0 st0) as RI.
    destruct (reduce_in128 o ops Hops v0 st0 Hst Hv) as [NR JR].
    destruct (reduce o v0 (ops ++ marker :: st0)) as [x|e] eqn:Er; cbn [bind]; [|split; bad].
    specialize (RI x eq_refl). destruct x as [[v1 st1]|[v1 st1]].
    { split; [bad|]. intros ? ? ? E; inversion E; subst; auto. }
    destruct RI as [[b Eb] _]. destruct JR as [Hv1 (ops' & Hops' & Hst' & ->)].
    destruct Eo as [[Eo _]|(b' & sp & s1 & _ & -> & _ & OT)]; [rewrite Eo in Eb; destruct b; bad|].
    apply OpText_len in OT. rewrite app_length in Hn.
    destruct (IV r1 ((o, v1) :: ops' ++ marker :: st0) ltac:(lia)) as [NV JV].
    destruct (parseValue n r1 _) as [[[v2 r2] st2]|] eqn:E2; cbn [bind]; [|split; bad].
    specialize (JV _ _ _ eq_refl).
    apply (proj1 (parse_stack n)) in E2. destruct E2 as [-> L2].
    apply (IL v2 r2 ((o, v1) :: ops') st0); [eapply okops_cons; eauto|constructor; auto|auto|lia].
Qed.
Lemma eval_errors s : eval s <> Fail e0.
Proof.
  unfold eval. destruct (proj1 (proj2 (parse_safe (2 * length s + 3))) s [] ltac:(lia)) as [N _].
  destruct (parseExpr _ s []) as [[[v r] st]|]; cbn [bind]; [|bad]. destruct r; bad.
Qed.
End Errors.
