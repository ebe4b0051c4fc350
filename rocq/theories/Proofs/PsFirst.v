(** Wheel::addSievingPrime finds the first multiple. *)
From Coq Require Import ZArith List Lia Bool Znumtheory.
From Verif.Base Require Import Res Word Zl Each.
From Verif.Model Require Import PsTables PsMath PsErat.
From Verif.Spec Require Import PsSpec.
From Verif.Proofs Require Import PsWheel PsCross PsSmall.
Import ListNotations.
Open Scope Z_scope.
Local Ltac Zify.zify_post_hook ::= idtac.

Definition init_okb (M size : Z) (init : list (Z * Z)) : bool :=
  forallb (fun r => match aget init r with
    | Ok (f, i) => (0 <=? f) && (f <=? 9) && (0 <=? i) && (i <? size) && ((r + f) mod M =? nth (Z.to_nat i) (qs M) 0)
                     && forallb (fun d => negb (cop M (r + d))) (zrange 0 f) && cop M (r + f)
    | _ => false end) (zrange 0 M).
Lemma init30_ok : init_okb 30 8 wheel30_init = true. Proof. vm_compute. reflexivity. Qed.
Lemma init210_ok : init_okb 210 48 wheel210_init = true. Proof. vm_compute. reflexivity. Qed.

Lemma offsets_ok p : cop 30 p = true -> exists o, aget wheel_offsets (p mod 30) = Ok o /\ 0 <= o < 8 /\ p mod 30 = nth (Z.to_nat o) res30 0.
Proof.
  intros H. rewrite <- cop_mod in H by lia. pose proof (Z.mod_pos_bound p 30 ltac:(lia)) as R.
  assert (E : forallb (fun r => implb (cop 30 r) (match aget wheel_offsets r with Ok o => (0 <=? o) && (o <? 8) && (r =? nth (Z.to_nat o) res30 0) | _ => false end)) (zrange 0 30) = true)
    by (vm_compute; reflexivity).
  rewrite forallb_forall in E. specialize (E (p mod 30)). rewrite in_zrange in E. specialize (E R). rewrite H in E. cbn [implb] in E.
  destruct (aget wheel_offsets (p mod 30)) as [o|]; [|discriminate]. rewrite !andb_true_iff, Z.leb_le, Z.ltb_lt, Z.eqb_eq in E. exists o. repeat split; auto; tauto.
Qed.

Theorem first_multiple_rule M size init stop p L (Q : option (Z * Z) -> Prop) :
  0 < M -> (30 | M) -> zlen (qs M) = size -> init_okb M size init = true ->
  7 <= p < 2 ^ 32 -> cop 30 p = true -> L mod 30 = 0 -> 0 <= L -> L + 6 < 2 ^ 64 -> 0 <= stop < 2 ^ 64 ->
  ((forall q, cop M q = true -> p <= q -> L + 6 < p * q -> stop < p * q) -> Q None) ->
  (forall mi wi q, at_mult M size L p mi wi q -> first_q M L p q -> p * q <= stop ->
     (cop M p = true -> q = p \/ p * q <= L + 6 + 10 * p) -> Q (Some (mi, wi))) ->
  wp (first_multiple M size init stop p L) Q.
Proof.
  intros HM HD Hs HI Hp Cp HL HL0 HL6 Hstop HN HS. unfold first_multiple.
  assert (Elow : uwrap 64 (L + 6) = L + 6) by (apply Z.mod_small; lia). rewrite Elow.
  pose proof (Z.div_mod (L + 6) p ltac:(lia)) as DM. pose proof (Z.mod_pos_bound (L + 6) p ltac:(lia)) as MB.
  assert (Q0 : 0 <= (L + 6) / p) by (apply Z.div_pos; lia).
  assert (Q1 : (L + 6) / p < 2 ^ 64 - 1) by (apply Z.div_lt_upper_bound; lia).
  assert (Eq1 : uwrap 64 ((L + 6) / p + 1) = (L + 6) / p + 1) by (apply Z.mod_small; lia). rewrite Eq1.
  set (u := Z.max p ((L + 6) / p + 1)).
  (* u is the least quotient *)
  assert (U1 : L + 6 < p * u). { assert (p * ((L + 6) / p + 1) <= p * u) by (apply Z.mul_le_mono_nonneg_l; lia). lia. }
  assert (U2 : forall q, p <= q -> L + 6 < p * q -> u <= q).
  { intros q H1 H2. assert ((L + 6) / p < q) by (apply Z.div_lt_upper_bound; lia). lia. }
  assert (U3 : p * u = p * p \/ p * u <= L + 6 + p).
  { unfold u. destruct (Z.max_spec p ((L + 6) / p + 1)) as [[H ->]|[H ->]]; [right|left; reflexivity]. lia. }
  assert (U4 : p <= u) by lia. assert (U5 : u = p \/ p * u <= L + 6 + p).
  { destruct U3; auto. left. nia. }
  clearbody u. clear Eq1 Q1 Q0 DM MB.
  assert (PP : p * p < 2 ^ 64) by nia. assert (PUpos : 0 < p * u) by nia.
  destruct (Z.lt_ge_cases (p * u) (2 ^ 64)) as [LT|GE].
  - assert (Em : uwrap 64 (p * u) = p * u) by (apply Z.mod_small; lia). rewrite Em.
    destruct (Z.gtb_spec (p * u) stop) as [G|G]; cbn [orb].
    { cbn [wp]. apply HN. intros q _ H1 H2. specialize (U2 q H1 H2). nia. }
    destruct (Z.ltb_spec (p * u) (L + 6)); [lia|].
    unfold init_okb in HI. rewrite forallb_forall in HI. specialize (HI (u mod M)). rewrite in_zrange in HI.
    specialize (HI ltac:(apply Z.mod_pos_bound; lia)).
    destruct (aget init (u mod M)) as [[f i]|]; [|discriminate]. cbn [bind].
    rewrite !andb_true_iff, !Z.leb_le, Z.ltb_lt, Z.eqb_eq, forallb_forall in HI.
    destruct HI as ((((((F1 & F2) & I1) & I2) & I3) & I4) & I5).
    rewrite Zplus_mod_idemp_l in I3. rewrite <- cop_mod, Zplus_mod_idemp_l, cop_mod in I5 by lia.
    assert (I6 : forall q, cop M q = true -> u <= q -> u + f <= q).
    { intros q Cq Hq. destruct (Z.le_gt_cases (u + f) q); auto. specialize (I4 (q - u)). rewrite in_zrange in I4. specialize (I4 ltac:(lia)).
      rewrite <- cop_mod, Zplus_mod_idemp_l, cop_mod in I4 by lia. replace (u + (q - u)) with q in I4 by lia. rewrite Cq in I4. discriminate. }
    assert (Ef : uwrap 64 (p * f) = p * f) by (apply Z.mod_small; nia). rewrite Ef.
    assert (Es : uwrap 64 (stop - p * u) = stop - p * u) by (apply Z.mod_small; lia). rewrite Es.
    assert (EPF : p * (u + f) = p * u + p * f) by ring.
    destruct (Z.gtb_spec (p * f) (stop - p * u)) as [G2|G2].
    { cbn [wp]. apply HN. intros q Cq H1 H2. specialize (U2 q H1 H2). specialize (I6 q Cq U2). assert (p * (u + f) <= p * q) by (apply Z.mul_le_mono_nonneg_l; lia). lia. }
    assert (Ed : uwrap 64 (p * u - (L + 6)) = p * u - (L + 6)) by (apply Z.mod_small; lia). rewrite Ed.
    assert (PF0 : 0 <= p * f) by nia.
    assert (En : uwrap 64 (p * f + (p * u - (L + 6))) = p * (u + f) - L - 6) by (unfold uwrap; rewrite Z.mod_small; lia). rewrite En.
    destruct (offsets_ok p Cp) as (o & -> & O1 & O2). cbn [bind wp].
    apply (HS _ _ (u + f)); try lia.
    + assert (Sz : 0 < size) by lia. unfold at_mult.
      assert (DV : (size * o + i) / size = o) by (symmetry; apply Z.div_unique with i; lia).
      assert (MD : (size * o + i) mod size = i) by (symmetry; apply Z.mod_unique with o; lia).
      rewrite DV, MD. split; [nia|]. split; [auto|]. split; [auto|].
      assert (C : cop 30 (p * (u + f)) = true) by (apply cop_mul; [auto|now apply cop_sub with M]).
      pose proof (place_ex L (p * (u + f)) HL C) as E. pose proof (off_bound _ (bitpos_range (p * (u + f)))).
      replace ((p * (u + f) - L - 6) / 30) with ((p * (u + f) - L - 7) / 30); auto.
      apply Z.div_unique with (off (bitpos (p * (u + f))) - 6); lia.
    + split; [lia|]. split; [auto|]. split; [lia|]. intros q' C' H1 H2. apply I6; auto.
    + intros CMp. destruct U5 as [->|U5].
      * left. specialize (I6 p CMp ltac:(lia)). lia.
      * right. assert (p * f <= p * 9) by nia. lia.
  - assert (p * u <= L + 6 + p) by (destruct U3; lia).
    assert (Em : uwrap 64 (p * u) = p * u - 2 ^ 64) by (symmetry; apply Z.mod_unique with 1; lia). rewrite Em.
    destruct (Z.ltb_spec (p * u - 2 ^ 64) (L + 6)); [|lia]. rewrite orb_true_r. cbn [wp]. apply HN.
    intros q Cq H1 H2. specialize (U2 q H1 H2). nia.
Qed.
