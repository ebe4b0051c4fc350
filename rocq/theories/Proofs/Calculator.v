From Coq Require Import ZArith List Bool Ascii Lia.
From Verif.Base Require Import Res LoopRes Word.
From Verif.Model Require Import Calculator.
From Verif.Spec Require Import ExprSpec.
Import ListNotations.
Open Scope Z_scope.

Definition to_res (o : outcome) : res Z :=
  match o with Value z => Ok z | DivByZero => Fail Throw | Undefined => Fail UB end.

Lemma schk_repr z : schk 128 z = to_res (repr z).
Proof.
  unfold schk, in_sb, repr, smin, smax. change (128 - 1) with 127.
  replace (z <=? 2 ^ 127 - 1) with (z <? 2 ^ 127).
  - destruct (_ && _); reflexivity.
  - apply eq_true_iff_eq. rewrite Z.ltb_lt, Z.leb_le. lia.
Qed.

Lemma repr_value z : - 2 ^ 127 <= z < 2 ^ 127 -> repr z = Value z.
Proof. intros H. unfold repr. destruct (Z.leb_spec (- 2 ^ 127) z), (Z.ltb_spec z (2 ^ 127)); simpl; auto; lia. Qed.
Lemma repr_undef z : z < - 2 ^ 127 \/ 2 ^ 127 <= z -> repr z = Undefined.
Proof. intros H. unfold repr. destruct (Z.leb_spec (- 2 ^ 127) z), (Z.ltb_spec z (2 ^ 127)); simpl; auto; lia. Qed.
Lemma repr_cases z : (- 2 ^ 127 <= z < 2 ^ 127 /\ repr z = Value z) \/
  ((z < - 2 ^ 127 \/ 2 ^ 127 <= z) /\ repr z = Undefined).
Proof.
  destruct (Z.lt_ge_cases z (- 2 ^ 127)); [right; split; auto; apply repr_undef; auto|].
  destruct (Z.lt_ge_cases z (2 ^ 127)); [left; split; auto; apply repr_value; auto|].
  right; split; auto; apply repr_undef; auto.
Qed.

(** ** pow *)
Lemma abs_mul_ge a b : b <> 0 -> Z.abs a <= Z.abs (a * b).
Proof. intros. rewrite Z.abs_mul. nia. Qed.
Lemma pow_nz x n : x <> 0 -> 0 <= n -> x ^ n <> 0.
Proof. intros. apply Z.pow_nonzero; lia. Qed.
Lemma pow_even_pos x k : x <> 0 -> 0 <= k -> 0 < x ^ (2 * k).
Proof. intros. rewrite Z.pow_mul_r by lia. apply Z.pow_pos_nonneg; [|lia]. rewrite Z.pow_2_r. nia. Qed.
Lemma no_square x : x * x <> 2 ^ 127.
Proof.
  intros E. assert (A : Z.abs x * Z.abs x = 2 ^ 127) by (rewrite <- E; nia).
  destruct (Z.le_gt_cases (Z.abs x) 13043817825332782212) as [H|H].
  - assert (Z.abs x * Z.abs x <= 13043817825332782212 * 13043817825332782212) by (apply Z.mul_le_mono_nonneg; lia).
    vm_compute in A. lia.
  - assert (13043817825332782213 * 13043817825332782213 <= Z.abs x * Z.abs x) by (apply Z.mul_le_mono_nonneg; lia).
    vm_compute in A. lia.
Qed.

Lemma cpow_ok x n : n < 2 ^ 127 -> cpow x n = to_res (repr (x ^ Z.max 0 n)) \/ (n <= 0 /\ cpow x n = Ok 1).
Proof.
  intros Hn. destruct (Z.le_gt_cases n 0) as [Hn0|Hn0].
  { right. split; auto. unfold cpow. apply loop_done. destruct (Z.gtb_spec n 0); [lia|]. reflexivity. }
  left. rewrite Z.max_r by lia. set (T := x ^ n). unfold cpow.
  apply (loop_res _ (fun st => let '(x', n', r') := st in
           0 <= n' <= n /\ T = r' * x' ^ n' /\ (r' <> 0 \/ x' = 0) /\
           (n' = 0 -> repr r' = Value r'))
         (fun st => let '(x', n', r') := st in n') (fun r => r = to_res (repr T))).
  - intros [[x' n'] r'] (H1 & H2 & H3 & H4).
    destruct (Z.gtb_spec n' 0) as [G|L].
    2:{ assert (n' = 0) by lia. subst n'. rewrite Z.pow_0_r, Z.mul_1_r in H2. rewrite H2, H4 by auto. reflexivity. }
    rewrite Z.rem_mod_nonneg by lia.
    pose proof (Z.div_mod n' 2 ltac:(lia)) as D. pose proof (Z.mod_pos_bound n' 2 ltac:(lia)) as M.
    set (k := n' / 2) in *. assert (0 <= k) by (apply Z.div_pos; lia).
    assert (ST : forall r1, (r1 <> 0 \/ x' = 0) -> T = r1 * x' ^ (2 * k) -> (k = 0 -> repr r1 = Value r1) ->
       match (x2 <- (if k >? 0 then schk 128 (x' * x') else Ok x') ;; Ok (@inl (Z * Z * Z) Z (x2, k, r1))) with
       | Ok (inl s') => (let '(x', n', r') := s' in 0 <= n' <= n /\ T = r' * x' ^ n' /\ (r' <> 0 \/ x' = 0) /\
           (n' = 0 -> repr r' = Value r')) /\ 0 <= (let '(_, n', _) := s' in n') < n'
       | Ok (inr r) => Ok r = to_res (repr T)
       | Fail e => Fail e = to_res (repr T) end).
    { intros r1 Hr1 HT Hk0. rewrite Z.pow_mul_r, Z.pow_2_r in HT by lia.
      destruct (Z.gtb_spec k 0) as [Gk|Lk].
      - rewrite schk_repr. destruct (repr_cases (x' * x')) as [[R1 ->]|[R1 ->]]; cbn [to_res bind].
        + split; [|lia]. split; [lia|]. split; [exact HT|]. split; [|lia].
          destruct Hr1 as [?| ->]; [left; auto|right; reflexivity].
        + assert (x' * x' > 2 ^ 127) by (pose proof (no_square x'); nia).
          assert (x' <> 0) by (intros ->; lia).
          assert (r1 <> 0) by tauto.
          rewrite repr_undef; [reflexivity|].
          assert (Z.abs (x' * x') <= Z.abs T).
          { rewrite HT. replace k with (k - 1 + 1) by ring. rewrite Z.pow_add_r, Z.pow_1_r by lia.
            replace (r1 * ((x' * x') ^ (k - 1) * (x' * x'))) with (x' * x' * (r1 * (x' * x') ^ (k - 1))) by ring.
            apply abs_mul_ge. pose proof (pow_nz (x' * x') (k - 1) ltac:(nia) ltac:(lia)). nia. }
          lia.
      - assert (k = 0) by lia. cbn [bind]. split; [|lia]. split; [lia|].
        replace k with 0 in * by lia. rewrite Z.pow_0_r in *. split; [exact HT|]. split; [tauto|auto]. }
    destruct (Z.eqb_spec (n' mod 2) 0) as [E|E]; cbn [negb bind].
    + rewrite Z.quot_div_nonneg by lia. fold k. apply ST; auto.
      * rewrite H2. f_equal. f_equal. lia.
      * intros Hk. exfalso. lia.
    + assert (E1 : n' mod 2 = 1) by lia. rewrite schk_repr.
      assert (HT : T = (r' * x') * x' ^ (2 * k)).
      { rewrite H2. replace n' with (1 + 2 * k) by lia. rewrite Z.pow_add_r, Z.pow_1_r by lia. ring. }
      destruct (repr_cases (r' * x')) as [[R1 E2]|[R1 E2]]; rewrite E2; cbn [to_res bind].
      * rewrite Z.quot_div_nonneg by lia. replace ((n' - 1) / 2) with k.
        2:{ apply Z.div_unique_pos with (r := 0); lia. }
        apply ST; auto.
        destruct (Z.eq_dec x' 0); [right; auto|left; nia].
      * assert (Hx' : x' <> 0) by (intros ->; lia).
        rewrite repr_undef; [reflexivity|]. pose proof (pow_even_pos x' k Hx' ltac:(lia)). rewrite HT. nia.
  - split; [lia|]. split; [unfold T; ring|]. split; [left; lia|]. lia.
  - assert (2 ^ 127 < 2 ^ 400) by (apply Z.pow_lt_mono_r; lia). lia.
Qed.

Lemma cpow_repr x n : n < 2 ^ 127 -> cpow x n = to_res (repr (x ^ Z.max 0 n)).
Proof.
  intros H. destruct (cpow_ok x n H) as [E|[H0 E]]; auto.
  rewrite E, Z.max_l, Z.pow_0_r by lia. reflexivity.
Qed.

(** ** One operation *)
Definition mo (o : binop) : operator :=
  mkOp (match o with Or => OOr | And => OAnd | Shl => OShl | Shr => OShr | Add => OAdd | Sub => OSub
        | Mul => OMul | Div => ODiv | Mod => OMod | Pow => OPow | Sci => OExp end) (prec o) (rassoc o).

Definition in128 (z : Z) : Prop := - 2 ^ 127 <= z < 2 ^ 127.
Lemma repr_in z v : repr z = Value v -> v = z /\ in128 z.
Proof. destruct (repr_cases z) as [[H ->]|[H ->]]; intros E; inversion E; subst; split; auto. Qed.

Lemma calculate_apply o a b : in128 a -> in128 b -> calculate a b (op (mo o)) = to_res (apply o a b).
Proof.
  intros Ha Hb. destruct o; cbn [mo op calculate apply]; rewrite ?schk_repr; auto.
  - unfold cshl. destruct (Z.leb_spec 0 b); cbn [andb]; auto.
    destruct (_ && _); auto. now rewrite schk_repr, Z.shiftl_mul_pow2 by lia.
  - unfold cshr. destruct (Z.leb_spec 0 b); cbn [andb]; auto. destruct (b <? 128); auto.
    now rewrite Z.shiftr_div_pow2 by lia.
  - unfold checkZero. destruct (b =? 0); auto. cbn [bind]. now rewrite schk_repr.
  - unfold checkZero. destruct (b =? 0); auto. cbn [bind]. rewrite schk_repr. destruct (repr _); reflexivity.
  - apply cpow_repr. apply Hb.
  - rewrite cpow_repr by apply Hb. destruct (repr _); cbn [to_res bind andthen]; auto. apply schk_repr.
Qed.

(** ** Range of values *)
Lemma in128_shiftr z : in128 z <-> Z.shiftr z 127 = 0 \/ Z.shiftr z 127 = -1.
Proof.
  unfold in128. rewrite Z.shiftr_div_pow2 by lia.
  pose proof (Z.div_mod z (2 ^ 127) ltac:(lia)). pose proof (Z.mod_pos_bound z (2 ^ 127) ltac:(lia)).
  split; [intros|intros [E|E]]; nia.
Qed.
Lemma apply_in128 o a b v : in128 a -> in128 b -> apply o a b = Value v -> in128 v.
Proof.
  intros Ha Hb. destruct o; cbn [apply]; intros E.
  - inversion E; subst. apply in128_shiftr in Ha. apply in128_shiftr in Hb. apply in128_shiftr.
    rewrite Z.shiftr_lor. destruct Ha as [-> | ->], Hb as [-> | ->]; auto.
  - inversion E; subst. apply in128_shiftr in Ha. apply in128_shiftr in Hb. apply in128_shiftr.
    rewrite Z.shiftr_land. destruct Ha as [-> | ->], Hb as [-> | ->]; auto.
  - destruct (_ && _); [|discriminate]. apply repr_in in E. destruct E as [-> ?]; auto.
  - destruct (Z.leb_spec 0 b); [|discriminate]. cbn [andb] in E. destruct (b <? 128); [|discriminate].
    inversion E; subst. unfold in128 in *. assert (0 < 2 ^ b) by (apply Z.pow_pos_nonneg; lia).
    pose proof (Z.div_mod a (2 ^ b) ltac:(lia)). pose proof (Z.mod_pos_bound a (2 ^ b) ltac:(lia)).
    split; [|nia]. destruct (Z.lt_ge_cases (a / 2 ^ b) (- 2 ^ 127)); [exfalso; nia|lia].
  - apply repr_in in E. destruct E as [-> ?]; auto.
  - apply repr_in in E. destruct E as [-> ?]; auto.
  - apply repr_in in E. destruct E as [-> ?]; auto.
  - destruct (b =? 0); [discriminate|]. apply repr_in in E. destruct E as [-> ?]; auto.
  - destruct (Z.eqb_spec b 0); [discriminate|]. destruct (repr (Z.quot a b)); try discriminate.
    cbn [andthen] in E. inversion E; subst. unfold in128 in *.
    pose proof (Z.rem_bound_abs a b n). lia.
  - apply repr_in in E. destruct E as [-> ?]; auto.
  - destruct (repr (10 ^ Z.max 0 b)); try discriminate. cbn [andthen] in E.
    apply repr_in in E. destruct E as [-> ?]; auto.
Qed.
Lemma unapply_in128 u a v : in128 a -> unapply u a = Value v -> in128 v.
Proof.
  intros Ha. destruct u; cbn [unapply]; intros E.
  - inversion E; subst; auto.
  - apply repr_in in E. destruct E as [-> ?]; auto.
  - inversion E; subst. unfold in128 in *. lia.
Qed.
Lemma value_in128 t : forall v, value t = Value v -> in128 v.
Proof.
  induction t; cbn [value]; intros v E.
  - apply repr_in in E. destruct E as [-> ?]; auto.
  - destruct (value t) eqn:Et; try discriminate. cbn [andthen] in E. apply (unapply_in128 u z); auto.
  - auto.
  - destruct (value t1) eqn:E1; try discriminate. destruct (value t2) eqn:E2; try discriminate.
    cbn [andthen] in E. apply (apply_in128 o z z0); auto.
Qed.

(** ** Characters *)
Lemma isspace_spec c : isspace c = true <-> space c.
Proof.
  unfold isspace, space, code. rewrite orb_true_iff, andb_true_iff, N.eqb_eq, !N.leb_le. lia.
Qed.
Lemma eatSpaces_app sp s : Forall space sp -> eatSpaces (sp ++ s) = eatSpaces s.
Proof.
  induction 1; simpl; auto. apply isspace_spec in H. rewrite H. auto.
Qed.
Lemma eatSpaces_all sp : Forall space sp -> eatSpaces sp = [].
Proof. intros H. rewrite <- (app_nil_r sp). rewrite eatSpaces_app by auto. reflexivity. Qed.
Lemma eatSpaces_split s : exists sp, s = sp ++ eatSpaces s /\ Forall space sp.
Proof.
  induction s as [|c s IH]; simpl.
  - exists []. auto.
  - destruct (isspace c) eqn:E.
    + destruct IH as (sp & E1 & F). exists (c :: sp). split; [simpl; congruence|].
      constructor; auto. now apply isspace_spec.
    + exists []. auto.
Qed.
Lemma eatSpaces_len s : (length (eatSpaces s) <= length s)%nat.
Proof. induction s; simpl; auto. destruct (isspace a); simpl; lia. Qed.
Lemma eatSpaces_nonspace c s : ~ space c -> eatSpaces (c :: s) = c :: s.
Proof. intros H. simpl. destruct (isspace c) eqn:E; auto. apply isspace_spec in E. contradiction. Qed.
Lemma eatSpaces_idem s : eatSpaces (eatSpaces s) = eatSpaces s.
Proof.
  induction s as [|c s IH]; simpl; auto. destruct (isspace c) eqn:E; auto. simpl. now rewrite E.
Qed.

Lemma toInteger_hexval c : toInteger c = match hexval c with Some d => d | None => 16 end.
Proof.
  unfold toInteger, hexval, code. destruct (_ && _); auto. destruct (_ && _); [lia|]. destruct (_ && _); lia.
Qed.
Lemma hexval_range c d : hexval c = Some d -> 0 <= d <= 15.
Proof.
  unfold hexval. destruct (Z.leb_spec 48 (code c)), (Z.leb_spec (code c) 57); cbn [andb];
  destruct (Z.leb_spec 97 (code c)), (Z.leb_spec (code c) 102); cbn [andb];
  destruct (Z.leb_spec 65 (code c)), (Z.leb_spec (code c) 70); cbn [andb];
  intros E; inversion E; lia.
Qed.
Lemma digit_toInteger base c : base <= 16 -> (digit base c <-> toInteger c <= base - 1).
Proof.
  intros Hb. rewrite toInteger_hexval. unfold digit. destruct (hexval c) as [d|].
  - split; [intros (d' & E & H); inversion E; lia|]. intros H. exists d. split; auto. lia.
  - split; [intros (d' & E & H); discriminate|lia].
Qed.
Lemma isHex_spec s : isHex s = true <-> exists a x h t, s = a :: x :: h :: t /\ is_x x /\ digit 16 h.
Proof.
  unfold isHex, is_x. destruct s as [|a [|x [|h t]]].
  1-3: split; [discriminate|intros (a' & x' & h' & t' & E & _); discriminate].
  rewrite andb_true_iff, orb_true_iff, !Ascii.eqb_eq, Z.leb_le. split.
  - intros [H1 H2]. exists a, x, h, t. split; auto. split; auto. apply digit_toInteger; lia.
  - intros (a' & x' & h' & t' & E & H1 & H2). inversion E; subst. split; auto. apply digit_toInteger in H2; lia.
Qed.

Lemma positional_ge base s : 1 <= base -> forall acc, 0 <= acc -> acc <= positional base acc s.
Proof.
  intros Hb. induction s as [|c s IH]; intros acc Ha; cbn [positional]; [lia|].
  assert (0 <= match hexval c with Some d => d | None => 0 end).
  { destruct (hexval c) eqn:E; [apply hexval_range in E|]; lia. }
  specialize (IH (acc * base + match hexval c with Some d => d | None => 0 end)).
  assert (acc <= acc * base) by nia. lia.
Qed.

Lemma parseDigits_ok base ds r : 2 <= base <= 16 -> Forall (digit base) ds -> ~ starts (digit base) r ->
  forall acc, 0 <= acc < 2 ^ 127 ->
  parseDigits base acc (ds ++ r) = (v <- to_res (repr (positional base acc ds)) ;; Ok (v, r)).
Proof.
  intros Hb Hds Hr. induction ds as [|c ds IH]; intros acc Ha.
  - cbn [app positional]. rewrite repr_value by lia. cbn [to_res bind]. destruct r as [|c r]; simpl; auto.
    destruct (Z.leb_spec (toInteger c) (base - 1)); auto. exfalso. apply Hr. apply digit_toInteger; lia.
  - inversion Hds; subst. cbn [app parseDigits positional].
    destruct (Z.leb_spec (toInteger c) (base - 1)) as [L|G].
    2:{ apply digit_toInteger in H1; lia. }
    rewrite toInteger_hexval in *. destruct (hexval c) as [d|] eqn:Ed; [|lia].
    pose proof (hexval_range c d Ed).
    pose proof (positional_ge base ds ltac:(lia) (acc * base + d) ltac:(nia)) as P.
    rewrite !schk_repr.
    destruct (repr_cases (acc * base)) as [[R1 ->]|[R1 ->]]; cbn [to_res bind].
    + rewrite schk_repr. destruct (repr_cases (acc * base + d)) as [[R2 ->]|[R2 ->]]; cbn [to_res bind].
      * apply IH; auto. lia.
      * rewrite repr_undef by lia. reflexivity.
    + rewrite repr_undef by nia. reflexivity.
Qed.

Lemma parseDigits_inv base s : 2 <= base <= 16 -> forall acc v r, 0 <= acc < 2 ^ 127 ->
  parseDigits base acc s = Ok (v, r) ->
  exists ds, s = ds ++ r /\ Forall (digit base) ds /\ ~ starts (digit base) r /\
    repr (positional base acc ds) = Value v.
Proof.
  intros Hb. induction s as [|c s IH]; intros acc v r Ha E; cbn [parseDigits] in E.
  - inversion E; subst. exists []. repeat split; auto. simpl. apply repr_value. lia.
  - destruct (Z.leb_spec (toInteger c) (base - 1)) as [L|G].
    + rewrite !schk_repr in E. destruct (repr_cases (acc * base)) as [[R1 E1]|[R1 E1]]; rewrite E1 in E; cbn [to_res bind] in E; [|discriminate].
      rewrite schk_repr in E. destruct (repr_cases (acc * base + toInteger c)) as [[R2 E2]|[R2 E2]]; rewrite E2 in E; cbn [to_res bind] in E; [|discriminate].
      assert (D : digit base c) by (apply digit_toInteger; lia).
      rewrite toInteger_hexval in *. destruct (hexval c) as [d|] eqn:Ed; [|lia].
      pose proof (hexval_range c d Ed).
      apply IH in E; [|nia]. destruct E as (ds & -> & F & N & R).
      exists (c :: ds). repeat split; auto. cbn [positional]. now rewrite Ed.
    + inversion E; subst. exists []. repeat split; auto.
      * simpl. intros D. apply digit_toInteger in D; lia.
      * apply repr_value. lia.
Qed.

(** ** parseOp *)
Definition nullop := mkOp ONull 0 false.

Lemma parseOp_text b s1 r sp : Forall space sp -> OpText b s1 r -> parseOp (sp ++ s1) = Ok (mo b, r).
Proof.
  intros Hsp H. unfold parseOp. rewrite eatSpaces_app by auto.
  inversion H; subst; try reflexivity.
  simpl eatSpaces. destruct r as [|c r]; [reflexivity|].
  assert (Hc : c <> "*"%char) by (intros ->; apply H0; reflexivity).
  destruct c as [[] [] [] [] [] [] [] []]; try reflexivity. now elim Hc.
Qed.

Lemma parseOp_inv s o r : parseOp s = Ok (o, r) ->
  (o = nullop /\ r = eatSpaces s) \/
  (exists b sp s1, o = mo b /\ s = sp ++ s1 /\ Forall space sp /\ OpText b s1 r).
Proof.
  unfold parseOp. destruct (eatSpaces_split s) as (sp & E & F).
  set (t := eatSpaces s) in *. clearbody t. intros H.
  assert (G : (o = nullop /\ r = t) \/ exists b, o = mo b /\ OpText b t r).
  2:{ destruct G as [G|(b & G1 & G2)]; [left; auto|right]. exists b, sp, t. auto. }
  clear E F. destruct t as [|c t].
  { inversion H. left; auto. }
  destruct c as [[] [] [] [] [] [] [] []];
    try (inversion H; subst; left; split; reflexivity);
    try (inversion H; subst; right; eexists; split; [|constructor]; reflexivity);
    try (right; unfold expect2 in H; destruct t as [|c t]; [discriminate|];
         destruct (Ascii.eqb c _) eqn:Ec; cbn in H; [|discriminate];
         apply Ascii.eqb_eq in Ec; subst c; inversion H; subst; eexists; split; [|constructor]; reflexivity).
  - (* star *) right. destruct t as [|c t].
    + inversion H; subst. exists Mul. split; [reflexivity|]. constructor. simpl. auto.
    + destruct (Ascii.eqb_spec c "*"%char) as [->|Hc].
      * inversion H; subst. exists Pow. split; [reflexivity|]. constructor.
      * assert (H' : Ok (mkOp OMul 20 false, c :: t) = Ok (o, r)).
        { rewrite <- H. destruct c as [[] [] [] [] [] [] [] []]; try reflexivity. now elim Hc. }
        inversion H'; subst. exists Mul. split; [reflexivity|]. constructor. simpl. congruence.
Qed.
