(** Summing the unsieved numbers one by one, and the leaves of one prime in one segment. *)
From Coq Require Import ZArith List Bool Lia Znumtheory.
From Verif.Base Require Import Res Word Zl Arr IType.
From Verif.Spec Require Import Primes LMOSpec S2Spec.
From Verif.Model Require Import S2 LMO.
From Verif.Proofs Require Import Primes NT LMO Imath Tables Phi Leaf S2Leaf S2 PhiSum Bounds HardLeaf HardLoops LMOLeaf.
Import ListNotations.
Open Scope Z_scope.
Local Ltac Zify.zify_post_hook ::= idtac.

Section Query.
  Context (plus : Z -> Z -> res Z) (rf : Z -> Z) (get : Z -> res Z) (low high a base step Pb : Z).
  Definition qF (n : Z) : Z := base + (phi_sum n a - phi_sum (low - 1) a).
  Hypothesis (Hlow : 0 <= low) (Hhigh : high < 2 ^ 63).
  Hypothesis Hstep : step = 1 \/ (step = 2 /\ Z.odd low = true /\ 1 <= a).
  Hypothesis Hget : forall i, 0 <= i < high - low -> 1 <= low + i -> (step | i) -> get i = Ok (Z.b2z (roughb a (low + i))).
  (** the additions of the type of phi, for values up to Pb *)
  Hypothesis Hplus : forall v d, 0 <= v -> 0 <= d -> v + d <= Pb -> plus (rf v) d = Ok (rf (v + d)).
  Hypothesis (Hbase : 0 <= base) (HPb : qF (high - 1) <= Pb).
  (** the numbers below low + i are summed up, i is not beyond what a query for k leaves behind *)
  Definition qI (k : Z) (st : Z * Z) : Prop := 0 <= fst st <= k - low + step /\ 1 <= low + fst st /\ (step | fst st) /\ snd st = rf (qF (low + fst st - 1)).

  Lemma qI_mono k k' st : k <= k' -> qI k st -> qI k' st.
  Proof. intros H (A & B & C & D). split; [lia|]. auto. Qed.
  Lemma qF_next n : 0 <= n -> qF (n + 1) = qF n + (n + 1) * Z.b2z (roughb a (n + 1)).
  Proof. intros Hn. unfold qF. rewrite phi_sum_snoc by lia. destruct (roughb a (n + 1)); cbn [Z.b2z]; ring. Qed.
  Lemma qF_range n : low - 1 <= n <= high - 1 -> 0 <= qF n <= Pb.
  Proof.
    intros Hn. destruct (Z.lt_ge_cases n 0) as [L|L].
    - assert (low = 0) by lia. unfold qF in *. replace n with (low - 1) by lia. subst low.
      assert (E0 : phi_sum (0 - 1) a = 0) by reflexivity. rewrite E0 in *. pose proof (phi_sum_nonneg (high - 1) a). lia.
    - assert (phi_sum n a <= phi_sum (high - 1) a) by (apply phi_sum_mono; lia).
      assert (phi_sum (low - 1) a <= phi_sum n a).
      { destruct (Z.eq_dec low 0) as [->|]; [change (phi_sum (0 - 1) a) with 0; apply phi_sum_nonneg|]. apply phi_sum_mono; lia. }
      unfold qF in *. lia.
  Qed.
  Lemma qF_even n : Z.odd low = true -> 1 <= a -> 0 <= n -> (2 | n + 1 - low + 1) -> qF (n + 1) = qF n.
  Proof.
    intros Ho Ha Hn [k Hk]. rewrite qF_next by auto. rewrite rough_even; [cbn [Z.b2z]; ring|auto|lia|].
    replace (n + 1) with (low + (2 * k - 1)) by lia. rewrite Z.even_add, <- Z.negb_odd, Ho. rewrite Z.even_sub, Z.even_mul. reflexivity.
  Qed.

  Lemma sum_until_ok xn st : low <= xn < high -> qI xn st -> wp (sum_until plus get low step (xn - low) st) (fun st' => qI xn st' /\ snd st' = rf (qF xn)).
  Proof.
    intros Hx HI. unfold sum_until. destruct st as [i0 phi0].
    apply (loop_rule _ (fun st => qI xn st) (fun '(i, _) => Z.max 0 (xn - low + 1 - i))); [|exact HI|].
    - intros [i phi] (A & B & C & D). cbn [fst snd] in *. assert (S1 : 1 <= step) by lia. destruct (Z.leb_spec i (xn - low)) as [L|L].
      + rewrite Hget by (auto; lia). rewrite bind_Ok.
        assert (N1 : qF (low + i) = qF (low + i - 1) + (low + i) * Z.b2z (roughb a (low + i))).
        { replace (low + i) with (low + i - 1 + 1) at 1 3 4 by ring. rewrite qF_next by lia. reflexivity. }
        rewrite D, Hplus; [|apply qF_range; lia|apply Z.mul_nonneg_nonneg; [lia|destruct (roughb _ _); discriminate]|rewrite <- N1; apply qF_range; lia].
        rewrite bind_Ok. apply wp_ok. split; [|lia]. unfold qI. cbn [fst snd]. split; [lia|]. split; [lia|].
        split; [apply Z.divide_add_r; [exact C|apply Z.divide_refl]|].
        rewrite <- N1. f_equal. destruct Hstep as [->|(-> & Ho & Ha)]; [f_equal; ring|].
        replace (low + (i + 2) - 1) with (low + i + 1) by ring. symmetry. apply qF_even; auto; [lia|].
        destruct C as [k ->]. exists (k + 1). lia.
      + apply wp_ok. split; [unfold qI; cbn [fst snd]; auto|]. cbn [snd]. rewrite D. f_equal.
        destruct Hstep as [->|(-> & Ho & Ha)]; [f_equal; lia|].
        destruct (Z.eq_dec i (xn - low + 1)) as [->|]; [f_equal; ring|]. assert (E : i = xn - low + 2) by lia.
        replace (low + i - 1) with (xn + 1) by lia. apply qF_even; auto; [lia|]. replace (xn + 1 - low + 1) with i by lia. exact C.
    - assert (2 ^ 63 < 2 ^ 400) by reflexivity. destruct HI as (A & _). cbn [fst] in A. lia.
  Qed.
  Lemma seg_query_ok xn st : low <= xn < high -> qI xn st -> wp (LMO.seg_query plus get low step xn st) (fun '(phi, st') => phi = rf (qF xn) /\ qI xn st').
  Proof.
    intros Hx HI. unfold LMO.seg_query. apply wp_bind. eapply wp_mono; [apply sum_until_ok; eauto|]. intros st' [A B]. apply wp_ok. auto.
  Qed.
  Lemma qI_0 : 1 <= low -> qI low (0, rf base).
  Proof. intros H. unfold qI. cbn [fst snd]. split; [lia|]. split; [lia|]. split; [apply Z.divide_0_r|]. unfold qF. rewrite Z.add_0_r. f_equal. ring. Qed.
End Query.

Section Leaves.
  Context (x y : Z) (primes lpf mut pit : list Z).
  Hypothesis (Hy : 1 <= y < 2 ^ 31 - 1) (Hyx : y * y <= x).
  Hypothesis Hpr : forall b, 0 <= b <= pi y -> aget primes b = Ok (pr y b).
  Hypothesis (HL : arr lpf (y + 1) lpf_value) (HM : arr mut (y + 1) (fun k => if k =? 0 then 1 else mu k)).

  Lemma m_range_ok p low high : 1 <= p -> 1 <= low < high -> p * high < 2 ^ 63 ->
    m_range x y p low high = Ok (Z.max (x / (p * high)) (y / p), Z.min (x / (p * low)) y).
  Proof.
    intros Hp Hl Hh. pose proof (x_pos x y ltac:(lia) Hyx). assert (0 < p * low <= p * high) by (split; [nia|apply Z.mul_le_mono_nonneg_l; lia]). unfold m_range.
    rewrite schk64 by nia. rewrite bind_Ok. rewrite zdiv_ok by nia. rewrite bind_Ok. rewrite zdiv_ok by lia. rewrite bind_Ok.
    rewrite schk64 by lia. rewrite bind_Ok. rewrite zdiv_ok by nia. rewrite bind_Ok. reflexivity.
  Qed.

  Context {A : Type} (plus : Z -> Z -> res Z) (rf : Z -> Z) (Rep : Z -> Z -> A -> Prop) (get : Z -> res Z) (low high step b base phi_b Pb Sb Ub s u : Z) (acc : A).
  Hypothesis (Hl : 1 <= low < high) (Hhigh : high < 2 ^ 63) (Hb : 1 <= b <= pi y) (Hph : pr y b * high < 2 ^ 63).
  Hypothesis Hstep : step = 1 \/ (step = 2 /\ Z.odd low = true /\ 1 <= b - 1).
  Hypothesis Hget : forall i, 0 <= i < high - low -> 1 <= low + i -> (step | i) -> get i = Ok (Z.b2z (roughb (b - 1) (low + i))).
  Let F := qF low (b - 1) base.
  Hypothesis Hplus : forall v d, 0 <= v -> 0 <= d -> v + d <= Pb -> plus (rf v) d = Ok (rf (v + d)).
  Hypothesis (Hbase : 0 <= base) (HPb : F (high - 1) <= Pb).
  Hypothesis (HR : Rep s u acc) (Hroom : room x y (pr y b) low high F Sb Ub s u).
  Definition seg_post (o : option (Z * A)) : Prop := exists acc', o = Some (rf (F (high - 1)), acc') /\
    Rep (s + Wl x y (pr y b) low high F) (u + Wl x y (pr y b) low high (fun _ => 1)) acc'.

  Lemma rest_ok st : qI rf low (b - 1) base step (high - 1) st -> wp (sum_until plus get low step (high - low - 1) st) (fun st' => snd st' = rf (F (high - 1))).
  Proof.
    intros HI. replace (high - low - 1) with (high - 1 - low) by ring. eapply wp_mono; [apply (sum_until_ok plus rf get low high (b - 1) base step Pb); auto; lia|].
    intros st' [_ E]. exact E.
  Qed.

  Lemma seg_leaves_m_ok sub : (alive_m x y (pr y b) low = true -> phi_b = rf base) -> adds y low high F rf Rep Sb Ub Z.sub sub ->
    wp (seg_leaves_m plus get sub step x y primes lpf mut low high b phi_b acc) (fun o => if alive_m x y (pr y b) low then seg_post o else o = None).
  Proof.
    intros Hphi Hsub. destruct (pr_spec y b Hb) as (P1 & P2 & P3). pose proof (prime_ge_2 _ P1). unfold seg_leaves_m. rewrite Hpr by lia. rewrite bind_Ok.
    rewrite m_range_ok by lia. rewrite bind_Ok. cbv beta iota. unfold alive_m in *.
    destruct (Z.geb_spec (pr y b) (Z.min (x / (pr y b * low)) y)) as [G|G].
    - apply wp_ok. destruct (Z.ltb_spec (pr y b) (Z.min (x / (pr y b * low)) y)); [lia|reflexivity].
    - destruct (Z.ltb_spec (pr y b) (Z.min (x / (pr y b * low)) y)); [|lia]. rewrite Hphi by reflexivity. apply wp_bind.
      eapply wp_mono; [apply (leaves_m_ok x y ltac:(lia) Hyx (LMO.seg_query plus get low step) (pr y b) low high F (qI rf low (b - 1) base step) P1 P3 Hl ltac:(lia)) with (rf := rf) (Rep := Rep) (Sb := Sb) (Ub := Ub) (s := s) (u := u)|]; auto.
      + intros; eapply qI_mono; eauto.
      + intros xn st Hx HI. apply (seg_query_ok plus rf get low high (b - 1) base step Pb); auto; lia.
      + apply (qI_0 rf low (b - 1) base step Hstep). lia.
      + intros [st acc'] [I1 HA]. cbn [fst snd] in *. apply wp_bind. eapply wp_mono; [apply rest_ok; exact I1|]. intros [i' phi'] E. cbn [snd] in E. apply wp_ok.
        exists acc'. split; [now rewrite E|exact HA].
  Qed.

  Lemma seg_leaves_l_ok add : (alive_l x y (pr y b) low = true -> phi_b = rf base) -> adds y low high F rf Rep Sb Ub Z.add add -> arr pit (y + 1) pi -> pi (Z.sqrt y) <= b ->
    wp (seg_leaves_l plus get add step x y primes pit low high b phi_b acc) (fun o => if alive_l x y (pr y b) low then seg_post o else o = None).
  Proof.
    intros Hphi Hadd HP Hsq. destruct (pr_spec y b Hb) as (P1 & P2 & P3). pose proof (prime_ge_2 _ P1). unfold seg_leaves_l. rewrite Hpr by lia. rewrite bind_Ok.
    pose proof (x_pos x y ltac:(lia) Hyx). assert (0 < pr y b * low <= pr y b * high) by (split; [nia|apply Z.mul_le_mono_nonneg_l; lia]).
    assert (Hmx : 0 <= Z.min (x / (pr y b * low)) y <= y) by (assert (0 <= x / (pr y b * low)) by (apply Z.div_pos; lia); lia).
    rewrite schk64 by lia. rewrite bind_Ok. rewrite zdiv_ok by lia. rewrite bind_Ok.
    rewrite (arr_get _ _ _ _ HP) by lia. rewrite bind_Ok. rewrite schk64 by lia. rewrite bind_Ok. rewrite zdiv_ok by lia. rewrite bind_Ok.
    rewrite zdiv_ok by lia. rewrite bind_Ok. cbv zeta. pose proof (pi_mono _ _ (proj2 Hmx)) as PM. pose proof (pi_nonneg (Z.min (x / (pr y b * low)) y)).
    rewrite Hpr by lia. rewrite bind_Ok. rewrite top_pr by lia. unfold alive_l in *. rewrite P2 in *.
    destruct (Z.ltb_spec b (pi (Z.sqrt y))); [lia|].
    destruct (Z.geb_spec (pr y b) (top (Z.min (x / (pr y b * low)) y))) as [G|G].
    - apply wp_ok. destruct (Z.ltb_spec (pr y b) (top (Z.min (x / (pr y b * low)) y))); [lia|reflexivity].
    - destruct (Z.ltb_spec (pr y b) (top (Z.min (x / (pr y b * low)) y))); [|lia]. rewrite Hphi by reflexivity. apply wp_bind.
      eapply wp_mono; [apply (leaves_l_ok x y ltac:(lia) Hyx (LMO.seg_query plus get low step) (pr y b) low high F (qI rf low (b - 1) base step) P1 P3 Hl ltac:(lia)) with (rf := rf) (Rep := Rep) (Sb := Sb) (Ub := Ub) (s := s) (u := u)|]; auto.
      + intros; eapply qI_mono; eauto.
      + intros xn st Hx HI. apply (seg_query_ok plus rf get low high (b - 1) base step Pb); auto; lia.
      + lia.
      + apply (qI_0 rf low (b - 1) base step Hstep). lia.
      + intros [st acc'] [I1 HA]. cbn [fst snd] in *. apply wp_bind. eapply wp_mono; [apply rest_ok; exact I1|]. intros [i' phi'] E. cbn [snd] in E. apply wp_ok.
        exists acc'. split; [now rewrite E|exact HA].
  Qed.
End Leaves.
