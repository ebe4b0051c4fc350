From Coq Require Import ZArith List Bool Lia Znumtheory Permutation.
From Verif.Base Require Import Res Word Zl IType Arr Par.
From Verif.Spec Require Import Primes LMOSpec.
From Verif.Model Require Import Imath Primesieve Phi Accum P2.
From Verif.Proofs Require Import Primes NT Primesieve Imath Fermat Phi Accum Bounds.
Import ListNotations.
Open Scope Z_scope.
Local Ltac Zify.zify_post_hook ::= idtac.

(** ** Sums over primes *)
Lemma psum_sel a b m M f : m <= a -> b <= M ->
  psum a b f = psum m M (fun p => if (a <=? p) && (p <=? b) then f p else 0).
Proof.
  intros H1 H2. rewrite (psum_lo a m); [|lia|].
  2:{ intros p _ Hp _. destruct (Z.leb_spec a p); [lia|reflexivity]. }
  rewrite (psum_hi a b M); [|lia|].
  2:{ intros p _ _ Hp. destruct (Z.leb_spec p b); [lia|now rewrite andb_false_r]. }
  apply psum_ext. intros p _ Hp. destruct (Z.leb_spec a p), (Z.leb_spec p b); try lia. reflexivity.
Qed.
Lemma psum_window a b a' b' f g :
  (forall p, prime p -> a <= p <= b -> a' <= p <= b' -> f p = g p) ->
  (forall p, prime p -> a <= p <= b -> ~ (a' <= p <= b') -> f p = 0) ->
  (forall p, prime p -> a' <= p <= b' -> ~ (a <= p <= b) -> g p = 0) ->
  psum a b f = psum a' b' g.
Proof.
  intros H1 H2 H3.
  rewrite (psum_sel a b (Z.min a a') (Z.max b b')), (psum_sel a' b' (Z.min a a') (Z.max b b')) by lia.
  apply psum_ext. intros p Hp _. specialize (H1 p Hp). specialize (H2 p Hp). specialize (H3 p Hp).
  destruct (Z.leb_spec a p), (Z.leb_spec p b), (Z.leb_spec a' p), (Z.leb_spec p b'); cbn [andb];
    try reflexivity; try (apply H1; lia); try (apply H2; lia); try (symmetry; apply H3; lia).
Qed.

Definition isnext (u n : Z) : Prop := prime n /\ u <= n /\ forall p, prime p -> u <= p -> n <= p.
Lemma isnext_next u : isnext u (next_prime (u - 1)).
Proof.
  split; [apply next_prime_prime|]. split; [pose proof (next_prime_gt (u - 1)); lia|].
  intros p Hp H. apply next_prime_le; auto. lia.
Qed.
Lemma psum_next L v q f : L <= v -> isnext v q -> psum L q f = psum L (v - 1) f + f q.
Proof.
  intros HL (Hq & Hvq & Hmin). rewrite (psum_split L (v - 1) q) by lia. f_equal.
  replace (v - 1 + 1) with v by ring. replace q with (q - 1 + 1) at 1 by ring. rewrite psum_succ by lia.
  replace (q - 1 + 1) with q by ring. rewrite (proj2 (primeb_spec q) Hq).
  rewrite psum_zero; [lia|]. intros p Hp H. specialize (Hmin p Hp). lia.
Qed.
Definition isprev (t p : Z) : Prop :=
  (p = 0 /\ forall q, prime q -> t < q) \/ (prime p /\ p <= t /\ forall q, prime q -> q <= t -> q <= p).
Lemma isprev_prev t : isprev t (prev_prime (t + 1)).
Proof.
  destruct (Z.eq_dec (pi t) 0) as [E|E].
  - left. split; [apply prev_prime_none; now replace (t + 1 - 1) with t by ring|].
    intros q Hq. destruct (Z.lt_ge_cases t q); auto. pose proof (pi_mono q t ltac:(lia)).
    pose proof (pi_pos_prime q Hq). lia.
  - right. destruct (prev_prime_spec (t + 1)) as (H1 & H2 & _).
    { replace (t + 1 - 1) with t by ring. pose proof (pi_nonneg t). lia. }
    split; auto. split; [lia|]. intros q Hq H. apply prev_prime_le; auto. lia.
Qed.

Lemma prime_sum_le n : 0 <= n -> prime_sum n <= n * n.
Proof.
  revert n. apply natlike_ind; [now vm_compute|]. intros n Hn IH. unfold Z.succ.
  rewrite prime_sum_succ. destruct (primeb (n + 1)); nia.
Qed.

Lemma prime_sum_tiny_ok y : y < 2 ^ 62 -> prime_sum_tiny y = Ok (prime_sum y).
Proof.
  intros Hy. apply wp_eq. unfold prime_sum_tiny.
  apply (loop_rule _ (fun '(p, s) => exists v, 2 <= v /\ v <= Z.max (y + 1) 2 /\ isnext v p /\ s = prime_sum (v - 1))
                     (fun '(p, _) => Z.max 0 (y + 1 - p))).
  - intros [p s] (v & Hv & Hvy & Hp & ->). destruct (Z.leb_spec p y) as [L|L].
    + assert (E : prime_sum (v - 1) + p = prime_sum p).
      { rewrite !prime_sum_psum. symmetry. apply (psum_next 2 v p (fun p => p)); auto. }
      rewrite E. assert (Hpos : 2 <= p) by (apply prime_ge_2; apply Hp).
      rewrite schk_ok.
      2:{ pose proof (prime_sum_le p ltac:(lia)). pose proof (prime_sum_nonneg p). unfold in_s, smin, smax.
          change (2 ^ (128 - 1)) with (2 ^ 62 * 2 ^ 62 * 8). nia. }
      cbn [bind wp]. split.
      * exists (p + 1). split; [lia|]. split; [lia|]. split; [|now replace (p + 1 - 1) with p by ring].
        replace (next_prime p) with (next_prime (p + 1 - 1)) by (f_equal; ring). apply isnext_next.
      * pose proof (next_prime_gt p). lia.
    + cbn [wp]. rewrite !prime_sum_psum. symmetry. destruct Hp as (Hp & Hvp & Hmin).
      destruct (Z.le_gt_cases v (y + 1)).
      * apply (psum_hi 2 (v - 1) y (fun p => p)); [lia|]. intros q Hq _ Hq2. specialize (Hmin q Hq). lia.
      * rewrite !psum_empty by lia. reflexivity.
  - exists 2. split; [lia|]. split; [lia|]. split; [|reflexivity].
    pose proof (isnext_next 2). destruct (isnext_next 1) as (A & B & C). change (1 - 1) with 0 in *.
    split; [exact A|]. split; [apply prime_ge_2; exact A|]. intros q Hq _. apply C; [exact Hq|]. apply prime_ge_2 in Hq. lia.
  - pose proof (next_prime_gt 0). assert (2 ^ 62 < 2 ^ 400) by (apply Z.pow_lt_mono_r; lia). lia.
Qed.

(** ** One thread *)
Section Thread.
  Context (w x y r L U : Z).
  Hypothesis Hw : width w.
  Hypothesis Hr : r = Z.sqrt x.
  Hypothesis Hx : 0 <= x.
  Hypothesis Hy : 0 <= y.
  Hypothesis HL : 2 <= L.
  Hypothesis HLU : L < U.
  Definition selp (p : Z) : bool := (y <? p) && (p <=? r).
  Definition Gs (u : Z) : Z := psum L (u - 1) (fun p => p).
  Definition Cs (u : Z) : Z := psum L (u - 1) (fun p => if selp p then p else 0).
  Definition Ws (u : Z) : Z := psum L (u - 1) (fun p => if selp p then Gs p * p else 0).

  Lemma Gs_nonneg u : 0 <= Gs u.
  Proof. apply psum_nonneg. intros p Pp _. apply prime_ge_2 in Pp. lia. Qed.
  Lemma Cs_mono u v : L <= u <= v -> 0 <= Cs u <= Cs v.
  Proof.
    intros H. assert (P : forall a b, 0 <= psum a b (fun p => if selp p then p else 0)).
    { intros a b. apply psum_nonneg. intros p Pp _. apply prime_ge_2 in Pp. destruct (selp p); lia. }
    split; [apply P|]. unfold Cs. rewrite (psum_split L (u - 1) (v - 1)) by lia. specialize (P (u - 1 + 1) (v - 1)). lia.
  Qed.
  Lemma Gs_mono u v : L <= u <= v -> Gs u <= Gs v.
  Proof.
    intros H. unfold Gs. rewrite (psum_split L (u - 1) (v - 1)) by lia.
    assert (0 <= psum (u - 1 + 1) (v - 1) (fun p => p)); [|lia]. apply psum_nonneg. intros p Pp _. apply prime_ge_2 in Pp. lia.
  Qed.
  Lemma Ws_mono u v : L <= u <= v -> 0 <= Ws u <= Ws v.
  Proof.
    intros H. assert (P : forall a b, 0 <= psum a b (fun p => if selp p then Gs p * p else 0)).
    { intros a b. apply psum_nonneg. intros p Pp _. apply prime_ge_2 in Pp. pose proof (Gs_nonneg p). destruct (selp p); nia. }
    split; [apply P|]. unfold Ws. rewrite (psum_split L (u - 1) (v - 1)) by lia. specialize (P (u - 1 + 1) (v - 1)). lia.
  Qed.

  Lemma advance_ok B u n R Rc : L <= u <= B -> B < 2 ^ 63 -> isnext u n ->
    0 <= R <= smax w -> 0 <= Rc <= smax w -> Gs B <= smax w -> Ws B <= smax w -> Cs B <= smax w ->
    wp (P2_advance w y r B (n, R - Ws u, Gs u, Rc - Cs u)) (fun '(n', p2', s', c') =>
      isnext B n' /\ p2' = R - Ws B /\ s' = Gs B /\ c' = Rc - Cs B).
  Proof.
    intros Hu HB Hn HR HRc HG HW HC. destruct (smax_pos w Hw) as [M1 _]. unfold P2_advance.
    apply (loop_rule _
      (fun '(n1, p1, s1, c1) => exists v, u <= v <= B /\ isnext v n1 /\ p1 = R - Ws v /\
         s1 = Gs v /\ c1 = Rc - Cs v)
      (fun '(n1, _, _, _) => Z.max 0 (B - n1))).
    - intros [[[n1 p1] s1] c1] (v & Hv & Hn1 & -> & -> & ->). destruct (Z.ltb_spec n1 B) as [Lt|Ge].
      + assert (EG : Gs (n1 + 1) = Gs v + n1).
        { unfold Gs. replace (n1 + 1 - 1) with n1 by ring. rewrite (psum_next L v n1) by (auto; lia). reflexivity. }
        assert (EC : Cs (n1 + 1) = Cs v + (if selp n1 then n1 else 0)).
        { unfold Cs. replace (n1 + 1 - 1) with n1 by ring. rewrite (psum_next L v n1) by (auto; lia). reflexivity. }
        assert (EG' : Gs n1 = Gs v).
        { unfold Gs. apply psum_hi; [destruct Hn1; lia|]. intros q Hq _ Hq2. destruct Hn1 as (_ & _ & Hm).
          specialize (Hm q Hq). lia. }
        assert (EW : Ws (n1 + 1) = Ws v + (if selp n1 then Gs v * n1 else 0)).
        { unfold Ws. replace (n1 + 1 - 1) with n1 by ring. rewrite (psum_next L v n1) by (auto; lia). now rewrite EG'. }
        assert (IV : forall p1 c1, p1 = R - Ws (n1 + 1) -> c1 = Rc - Cs (n1 + 1) ->
          exists v', u <= v' <= B /\ isnext v' (next_prime n1) /\ p1 = R - Ws v' /\
            Gs v + n1 = Gs v' /\ c1 = Rc - Cs v').
        { intros p1 c1 -> ->. exists (n1 + 1). destruct Hn1 as (Hp & Hvn & _). split; [lia|].
          split; [replace n1 with (n1 + 1 - 1) at 2 by ring; apply isnext_next|]. auto. }
        pose proof (next_prime_gt n1). fold (selp n1) in *.
        assert (N0 : 2 <= n1 /\ v <= n1) by (destruct Hn1 as (Hp & Hvn & _); apply prime_ge_2 in Hp; lia).
        pose proof (Gs_nonneg v) as G0. pose proof (Gs_mono (n1 + 1) B ltac:(lia)) as G1.
        pose proof (Ws_mono v (n1 + 1) ltac:(lia)) as W0. pose proof (Ws_mono (n1 + 1) B ltac:(lia)) as W1.
        pose proof (Cs_mono v (n1 + 1) ltac:(lia)) as C0. pose proof (Cs_mono (n1 + 1) B ltac:(lia)) as C1.
        change ((y <? n1) && (n1 <=? r)) with (selp n1).
        destruct (selp n1).
        * assert (0 <= Gs v * n1) by nia.
          rewrite t_mul_ok; [|exact Hw|lia|lia|rewrite Z.abs_eq by lia; lia]. rewrite bind_Ok.
          rewrite t_sub_ok by (auto; lia). rewrite bind_Ok. rewrite t_sub_ok by (auto; lia). rewrite !bind_Ok.
          rewrite t_add_ok by (auto; lia). rewrite bind_Ok. cbn [wp]. split; [apply IV; lia|lia].
        * rewrite bind_Ok. rewrite t_add_ok by (auto; lia). rewrite bind_Ok. cbn [wp]. split; [apply IV; lia|lia].
      + cbn [wp]. destruct Hn1 as (Hp & Hvn & Hm).
        assert (E : forall f, psum L (B - 1) f = psum L (v - 1) f).
        { intros f. apply psum_hi; [lia|]. intros q Hq _ Hq2. specialize (Hm q Hq). lia. }
        assert (EW : Ws B = Ws v) by apply E. assert (EC : Cs B = Cs v) by apply E.
        assert (EG : Gs B = Gs v) by apply E. rewrite EW, EC, EG.
        split; [|auto]. split; auto. split; [lia|]. intros q Hq Hq2. apply Hm; auto. lia.
    - exists u. repeat (split; [solve [auto|lia]|]). lia.
    - assert (2 ^ 63 < 2 ^ 400) by (apply Z.pow_lt_mono_r; lia). destruct Hn as (Hn & _). apply prime_ge_2 in Hn. lia.
  Qed.

  Definition st0 : Z := Z.max (x / U) y.
  Definition sp : Z := Z.min (x / L) r.
  Definition Rs (t : Z) (f : Z -> Z) : Z := psum (Z.max t st0 + 1) sp f.

  (** everything that one thread adds up fits *)
  Definition fits : Prop := psum (st0 + 1) sp (fun q => Gs (x / q + 1) * q) <= smax w /\ psum (st0 + 1) sp (fun q => q) <= smax w /\
    Gs U <= smax w /\ Ws U <= smax w /\ Cs U <= smax w.
  Lemma Rs_bound t f : (forall q, 0 <= q -> 0 <= f q) -> 0 <= Rs t f <= psum (st0 + 1) sp f.
  Proof.
    intros P. assert (N : forall a b, 0 <= psum a b f) by (intros a b; apply psum_nonneg; intros p Pp _; apply prime_ge_2 in Pp; apply P; lia).
    split; [apply N|]. unfold Rs. destruct (Z.le_gt_cases (Z.max t st0) sp).
    - rewrite (psum_split (st0 + 1) (Z.max t st0) sp) by lia. specialize (N (st0 + 1) (Z.max t st0)). lia.
    - rewrite psum_empty by lia. apply N.
  Qed.
  Lemma Gs_pos_mul q : 0 <= q -> 0 <= Gs (x / q + 1) * q.
  Proof. intros H. apply Z.mul_nonneg_nonneg; [apply Gs_nonneg|exact H]. Qed.

  Lemma main_ok n : isnext L n -> U < 2 ^ 63 -> sp < 2 ^ 63 -> fits ->
    wp (P2_main w x y r st0 U (prev_prime (sp + 1), (n, 0, 0, 0))) (fun '(n', p2', s', c') =>
      exists v, L <= v <= U /\ isnext v n' /\ p2' = psum (st0 + 1) sp (fun q => Gs (x / q + 1) * q) - Ws v /\
        s' = Gs v /\ c' = psum (st0 + 1) sp (fun q => q) - Cs v).
  Proof.
    intros Hn HU Hsp (F1 & F2 & F3 & F4 & F5). destruct (smax_pos w Hw) as [M1 _]. unfold P2_main.
    assert (Hst : 0 <= st0) by (unfold st0; lia).
    apply (loop_rule _
      (fun '(p, (n1, p1, s1, c1)) => exists t v, isprev t p /\ t <= sp /\ L <= v <= U /\ (1 <= t -> v <= x / t + 1) /\
         isnext v n1 /\ p1 = Rs t (fun q => Gs (x / q + 1) * q) - Ws v /\ s1 = Gs v /\ c1 = Rs t (fun q => q) - Cs v)
      (fun '(p, _) => Z.max 0 p)).
    - intros [p [[[n1 p1] s1] c1]] (t & v & Hp & Ht & Hv & Hvt & Hn1 & -> & -> & ->).
      destruct (Z.ltb_spec st0 p) as [Lt|Ge].
      + destruct Hp as [[-> _]|(Hp & Hpt & Hpm)]; [lia|]. pose proof (prime_ge_2 p Hp) as Hp2.
        assert (Hq : x / p < U).
        { apply Z.div_lt_upper_bound; [lia|]. assert (x / U < p) by (unfold st0 in Lt; lia).
          apply Z.div_lt_upper_bound in H || idtac. pose proof (Z.mul_succ_div_gt x U ltac:(lia)). nia. }
        assert (Hq0 : 0 <= x / p) by (apply Z.div_pos; lia).
        rewrite Z.quot_div_nonneg by lia. rewrite swrap_id; [|lia|unfold in_s, smin, smax; change (2 ^ (64 - 1)) with (2 ^ 63); lia].
        destruct (Z.ltb_spec (x / p) U) as [_|]; [|lia].
        assert (Hvp : v <= x / p + 1).
        { specialize (Hvt ltac:(lia)). pose proof (Z.div_le_compat_l x p t ltac:(lia) ltac:(lia)). lia. }
        pose proof (Rs_bound t _ Gs_pos_mul) as RB1. pose proof (Rs_bound t (fun q => q) ltac:(auto)) as RB2.
        pose proof (Gs_mono (x / p + 1) U ltac:(lia)) as GM. pose proof (Ws_mono (x / p + 1) U ltac:(lia)) as WM. pose proof (Cs_mono (x / p + 1) U ltac:(lia)) as CM.
        apply wp_bind. eapply wp_mono; [apply (advance_ok (x / p + 1) v); auto; lia|].
        intros [[[n2 p2] s2] c2] (Hn2 & -> & -> & ->).
        assert (ER : forall f, Rs (p - 1) f = Rs t f + f p).
        { intros f. unfold Rs. rewrite (psum_split _ p sp) by lia.
          rewrite (psum_split (Z.max (p - 1) st0 + 1) (p - 1) p) by lia.
          rewrite (psum_zero _ (p - 1)) by (intros; lia).
          replace (p - 1 + 1) with p by ring. replace p with (p - 1 + 1) at 2 by ring. rewrite psum_succ by lia.
          replace (p - 1 + 1) with p by ring. rewrite (proj2 (primeb_spec p) Hp), (psum_empty p (p - 1)) by lia.
          rewrite (psum_lo (Z.max t st0 + 1) (p + 1) sp); [lia|lia|].
          intros q Hq' Hq2 _. specialize (Hpm q Hq'). lia. }
        pose proof (Rs_bound (p - 1) _ Gs_pos_mul) as RB3. pose proof (Rs_bound (p - 1) (fun q => q) ltac:(auto)) as RB4.
        rewrite ER in RB3, RB4. cbv beta in RB3, RB4. pose proof (Gs_nonneg (x / p + 1)) as G0. pose proof (Gs_pos_mul p ltac:(lia)) as G1.
        rewrite t_mul_ok; [|exact Hw|lia|lia|rewrite Z.abs_eq by lia; lia]. rewrite bind_Ok.
        rewrite t_add_ok by (auto; lia). rewrite bind_Ok. rewrite t_add_ok by (auto; lia). rewrite bind_Ok. cbn [wp].
        split.
        * exists (p - 1), (x / p + 1). split; [replace p with (p - 1 + 1) at 2 by ring; apply isprev_prev|].
          split; [lia|]. split; [lia|]. split.
          { intros H1. pose proof (Z.div_le_compat_l x (p - 1) p ltac:(lia) ltac:(lia)). lia. }
          split; [auto|]. rewrite !ER. repeat split; ring.
        * destruct (isprev_prev (p - 1)) as [[E _]|(_ & E & _)]; replace (p - 1 + 1) with p in E by ring; lia.
      + cbn [wp]. exists v. split; [lia|]. split; [auto|].
        assert (ER : forall f, Rs t f = psum (st0 + 1) sp f).
        { intros f. unfold Rs. symmetry. apply psum_lo; [lia|]. intros q Hq Hq2 _. exfalso.
          destruct Hp as [[_ Hp]|(_ & _ & Hp)].
          - specialize (Hp q Hq). lia.
          - specialize (Hp q Hq). lia. }
        rewrite !ER. auto.
    - exists sp, L. split; [apply isprev_prev|]. split; [lia|]. split; [lia|]. split.
      { intros H1. assert (L <= x / sp); [|lia]. apply Z.div_le_lower_bound; [lia|].
        assert (sp <= x / L) by (unfold sp; lia). pose proof (Z.mul_div_le x L ltac:(lia)). nia. }
      split; [auto|]. unfold Rs, Ws, Gs, Cs. rewrite !psum_empty by lia. repeat split; lia.
    - destruct (isprev_prev sp) as [[E _]|(_ & E & _)]; assert (2 ^ 63 < 2 ^ 400) by (apply Z.pow_lt_mono_r; lia); lia.
  Qed.

  (** x / U does not fit in 64 bits: the loop is left at once *)
  Lemma main_wrapped n s P : 2 ^ 63 <= x / U -> prime P -> P <= r -> x < 2 ^ 63 * P -> r < 2 ^ 63 ->
    P2_main w x y r s U (prev_prime (sp + 1), (n, 0, 0, 0)) = Ok (n, 0, 0, 0).
  Proof.
    intros Hwr HP HPr HxP Hr63. unfold P2_main. apply loop_done.
    assert (Esp : sp = r). { unfold sp. pose proof (Z.div_le_compat_l x L U ltac:(lia) ltac:(lia)). lia. }
    rewrite Esp. destruct (s <? prev_prime (r + 1)); [|reflexivity].
    destruct (isprev_prev r) as [[_ E]|(Hp & Hpr & Hpm)]; [specialize (E P HP); lia|].
    set (p := prev_prime (r + 1)) in *. specialize (Hpm P HP HPr). pose proof (prime_ge_2 P HP).
    assert (x / p < 2 ^ 63) by (apply Z.div_lt_upper_bound; nia).
    assert (U <= x / p).
    { apply Z.div_le_lower_bound; [lia|]. pose proof (Z.mul_div_le x U ltac:(lia)). nia. }
    assert (Hq0 : 0 <= x / p) by (apply Z.div_pos; lia).
    rewrite Z.quot_div_nonneg by lia. rewrite swrap_id; [|lia|unfold in_s, smin, smax; change (2 ^ (64 - 1)) with (2 ^ 63); lia].
    destruct (Z.ltb_spec (x / p) U) as [|_]; [lia|reflexivity].
  Qed.
End Thread.

Definition tP2 (x y L U : Z) : Z :=
  psum (st0 x y U + 1) (sp x (Z.sqrt x) L) (fun q => Gs L (x / q + 1) * q) - Ws y (Z.sqrt x) L U.
Definition tC (x y L U : Z) : Z :=
  psum (st0 x y U + 1) (sp x (Z.sqrt x) L) (fun q => q) - Cs y (Z.sqrt x) L U.
(** the same with absolute values *)
Definition tP2a (x y L U : Z) : Z :=
  psum (st0 x y U + 1) (sp x (Z.sqrt x) L) (fun q => Gs L (x / q + 1) * q) + Ws y (Z.sqrt x) L U.
Definition tCa (x y L U : Z) : Z :=
  psum (st0 x y U + 1) (sp x (Z.sqrt x) L) (fun q => q) + Cs y (Z.sqrt x) L U.
Lemma tP2_parts x y L U : L <= U -> 0 <= psum (st0 x y U + 1) (sp x (Z.sqrt x) L) (fun q => Gs L (x / q + 1) * q) /\ 0 <= Ws y (Z.sqrt x) L U.
Proof.
  intros H. split; [|apply (Ws_mono y (Z.sqrt x) L U U); lia]. apply psum_nonneg. intros p Pp _. apply prime_ge_2 in Pp. apply Gs_pos_mul. lia.
Qed.
Lemma tC_parts x y L U : L <= U -> 0 <= psum (st0 x y U + 1) (sp x (Z.sqrt x) L) (fun q => q) /\ 0 <= Cs y (Z.sqrt x) L U.
Proof.
  intros H. split; [|apply (Cs_mono y (Z.sqrt x) L U U); lia]. apply psum_nonneg. intros p Pp _. apply prime_ge_2 in Pp. lia.
Qed.
Lemma tP2_abs x y L U : L <= U -> Z.abs (tP2 x y L U) <= tP2a x y L U.
Proof. intros H. pose proof (tP2_parts x y L U H). unfold tP2, tP2a. lia. Qed.
Lemma tC_abs x y L U : L <= U -> Z.abs (tC x y L U) <= tCa x y L U.
Proof. intros H. pose proof (tC_parts x y L U H). unfold tC, tCa. lia. Qed.

(** a prime close enough below sqrt x *)
Definition near_prime (x : Z) : Prop := exists P, prime P /\ P <= Z.sqrt x /\ x < 2 ^ 63 * P.
Lemma near_prime_ok x : 2 ^ 63 <= x < 2 ^ 122 -> near_prime x.
Proof.
  intros Hx.
  assert (G : forall P, prime P -> 0 <= P -> P * P <= x -> x < 2 ^ 63 * P -> near_prime x).
  { intros P HP H0 H1 H2. exists P. split; auto. split; auto. apply sqrt_le_iff; lia. }
  destruct (Z.lt_ge_cases x (2 ^ 63 * q31)) as [H|H1].
  { apply (G q31 q31_prime); [unfold q31|unfold q31|exact H]; lia. }
  destruct (Z.lt_ge_cases x (2 ^ 63 * q45)) as [H|H2].
  { apply (G q45 q45_prime); [unfold q45; lia| |exact H]. unfold q31 in H1. unfold q45. lia. }
  destruct (Z.lt_ge_cases x (2 ^ 63 * q53)) as [H|H3].
  { apply (G q53 q53_prime); [unfold q53; lia| |exact H]. unfold q45 in H2. unfold q53. lia. }
  destruct (Z.lt_ge_cases x (2 ^ 63 * q57)) as [H|H4].
  { apply (G q57 q57_prime); [unfold q57; lia| |exact H]. unfold q53 in H3. unfold q57. lia. }
  apply (G q59 q59_prime); [unfold q59; lia| |]. 
  - unfold q57 in H4. unfold q59. lia.
  - unfold q59. lia.
Qed.

Lemma thread_ok w x y z D i low : width w -> 0 <= x < 2 ^ 122 -> 0 <= y < 2 ^ 62 -> 2 <= low -> 1 <= D -> 0 <= i ->
  low + D * i < z -> z < 2 ^ 62 -> D < 2 ^ 62 ->
  (let L := low + D * i in let U := Z.min (L + D) z in tP2a x y L U <= smax w /\ tCa x y L U <= smax w /\ Gs L U <= smax w) ->
  P2_thread w x y z D i low =
  Ok (let L := low + D * i in let U := Z.min (L + D) z in (tP2 x y L U, Gs L U, tC x y L U)).
Proof.
  intros Hw Hx Hy Hl HD Hi Hz Hz61 HD62. cbv zeta. intros (F1 & F2 & F3). apply wp_eq. unfold P2_thread.
  assert (0 <= D * i) by nia.
  rewrite schk_ok by (unfold in_s, smin, smax; change (2 ^ (64 - 1)) with (2 ^ 63); lia). rewrite bind_Ok.
  rewrite schk_ok by (unfold in_s, smin, smax; change (2 ^ (64 - 1)) with (2 ^ 63); lia). rewrite bind_Ok.
  set (L := low + D * i) in *.
  rewrite schk_ok by (unfold in_s, smin, smax; change (2 ^ (64 - 1)) with (2 ^ 63); lia). rewrite bind_Ok.
  set (U := Z.min (L + D) z) in *. assert (HLU : L < U) by lia.
  destruct (Z.eqb_spec U 0); [lia|]. destruct (Z.eqb_spec L 0); [lia|].
  cbn [negb andb assert_]. rewrite bind_Ok.
  pose proof (tP2_parts x y L U ltac:(lia)) as TP. pose proof (tC_parts x y L U ltac:(lia)) as TC. unfold tP2a, tCa in F1, F2.
  set (r := Z.sqrt x) in *.
  assert (Hr0 : 0 <= r) by apply Z.sqrt_nonneg.
  assert (Hr : r < 2 ^ 61).
  { apply Z.sqrt_lt_square; [lia|lia|]. change (2 ^ 61 * 2 ^ 61) with (2 ^ 122). lia. }
  assert (HU0 : 0 <= x / U) by (apply Z.div_pos; lia). assert (HL0 : 0 <= x / L) by (apply Z.div_pos; lia).
  rewrite !Z.quot_div_nonneg by lia. fold (st0 x y U). fold (sp x r L).
  assert (Hsp : 0 <= sp x r L < 2 ^ 61) by (unfold sp; lia).
  rewrite (swrap_id 64 (sp x r L)) by (unfold in_s, smin, smax; change (2 ^ (64 - 1)) with (2 ^ 63); lia).
  apply wp_bind. pose proof (isnext_next L) as HN.
  eapply (wp_mono _ (fun '(n', p2', s', c') => exists v, L <= v <= U /\ isnext v n' /\
     p2' = psum (st0 x y U + 1) (sp x r L) (fun q => Gs L (x / q + 1) * q) - Ws y r L v /\
     s' = Gs L v /\ c' = psum (st0 x y U + 1) (sp x r L) (fun q => q) - Cs y r L v)).
  - destruct (Z.lt_ge_cases (x / U) (2 ^ 63)) as [Lt|Ge].
    + rewrite swrap_id by (unfold st0, in_s, smin, smax; change (2 ^ (64 - 1)) with (2 ^ 63); lia).
      apply main_ok; auto; try lia. unfold fits. repeat (split; [lia|]). lia.
    + destruct (near_prime_ok x) as (P & HP & HPr & HPx).
      { split; [|lia]. pose proof (Z.mul_div_le x U ltac:(lia)). nia. }
      rewrite (main_wrapped w x y r L U) with (P := P); auto; try lia. cbn [wp].
      exists L. split; [lia|]. split; [auto|].
      assert (sp x r L < st0 x y U + 1) by (unfold sp, st0; lia).
      unfold Ws, Gs, Cs. rewrite !psum_empty by lia. auto.
  - intros [[[n' p2'] s'] c'] (v & Hv & Hn & -> & -> & ->).
    apply wp_bind. eapply wp_mono; [apply (advance_ok w y r L Hw U v); auto; lia|].
    intros [[[n2 p2] s2] c2] (_ & -> & -> & ->). cbn [wp]. unfold tP2, tC. fold r. reflexivity.
Qed.

(** ** What an interval contributes *)
Definition hterm (x y K L U p : Z) : Z :=
  (if (y <? p) && ((L <=? x / p) && (x / p <? U)) then p * (K + prime_sum (x / p)) else 0) -
  (if (y <? p) && ((L <=? p) && (p <? U)) then p * (K + prime_sum (p - 1)) else 0).
Definition hsum (x y K L U : Z) : Z := psum 2 (Z.sqrt x) (hterm x y K L U).

(** the same with absolute values *)
Definition hterma (x y K L U p : Z) : Z :=
  (if (y <? p) && ((L <=? x / p) && (x / p <? U)) then p * (K + prime_sum (x / p)) else 0) +
  (if (y <? p) && ((L <=? p) && (p <? U)) then p * (K + prime_sum (p - 1)) else 0).
Definition habs (x y K L U : Z) : Z := psum 2 (Z.sqrt x) (hterma x y K L U).
Lemma habs_split x y K L M U : L <= M <= U -> habs x y K L U = habs x y K L M + habs x y K M U.
Proof.
  intros H. unfold habs. rewrite <- psum_add. apply psum_ext. intros p _ _. unfold hterma.
  destruct (y <? p); cbn [andb]; [|lia].
  destruct (Z.leb_spec L (x / p)), (Z.ltb_spec (x / p) U), (Z.leb_spec M (x / p)), (Z.ltb_spec (x / p) M); try lia;
  destruct (Z.leb_spec L p), (Z.ltb_spec p U), (Z.leb_spec M p), (Z.ltb_spec p M); try lia; cbn [andb]; lia.
Qed.
Lemma habs_empty x y K L : habs x y K L L = 0.
Proof. pose proof (habs_split x y K L L L ltac:(lia)). lia. Qed.
Lemma hterm_abs x y K L U p : 0 <= K -> 0 <= p -> Z.abs (hterm x y K L U p) <= hterma x y K L U p.
Proof.
  intros HK Hp. pose proof (prime_sum_nonneg (x / p)). pose proof (prime_sum_nonneg (p - 1)). unfold hterm, hterma.
  assert (0 <= p * (K + prime_sum (x / p))) by (apply Z.mul_nonneg_nonneg; lia). assert (0 <= p * (K + prime_sum (p - 1))) by (apply Z.mul_nonneg_nonneg; lia).
  destruct ((y <? p) && ((L <=? x / p) && (x / p <? U))), ((y <? p) && ((L <=? p) && (p <? U))); lia.
Qed.
Lemma habs_nonneg x y K L U : 0 <= K -> 0 <= habs x y K L U.
Proof.
  intros HK. apply psum_nonneg. intros p Pp _. apply prime_ge_2 in Pp. pose proof (hterm_abs x y K L U p HK ltac:(lia)). lia.
Qed.
Lemma hsum_abs x y K L U : 0 <= K -> Z.abs (hsum x y K L U) <= habs x y K L U.
Proof.
  intros HK. unfold hsum, habs, psum. eapply Z.le_trans; [apply sumr_abs|]. apply sumr_le. intros p Hp. destruct (primeb p); [|reflexivity]. apply hterm_abs; lia.
Qed.
Lemma habs_le x y z : 0 <= x -> 0 <= y -> habs x y (prime_sum y) 2 z <= P2_abs x.
Proof.
  intros Hx Hy. unfold habs, P2_abs. rewrite <- psum_scal, <- psum_add. apply psum_le. intros p Pp Hp. pose proof (prime_ge_2 p Pp).
  unfold hterma. pose proof (prime_sum_nonneg (x / p)). pose proof (prime_sum_nonneg (p - 1)). pose proof (prime_sum_mono (p - 1) p ltac:(lia)). pose proof (prime_sum_nonneg y).
  destruct (Z.ltb_spec y p); cbn [andb].
  - pose proof (prime_sum_mono y p ltac:(lia)).
    assert (p * (prime_sum y + prime_sum (x / p)) <= p * prime_sum (x / p) + p * prime_sum p) by nia.
    assert (p * (prime_sum y + prime_sum (p - 1)) <= 2 * (p * prime_sum p)) by nia.
    assert (0 <= p * prime_sum (x / p)) by nia. assert (0 <= p * prime_sum p) by nia.
    destruct (_ && _), (_ && _); lia.
  - assert (0 <= p * prime_sum (x / p)) by nia. assert (0 <= p * prime_sum p) by nia. lia.
Qed.

Lemma hsum_split x y K L M U : L <= M <= U -> hsum x y K L U = hsum x y K L M + hsum x y K M U.
Proof.
  intros H. unfold hsum. rewrite <- psum_add. apply psum_ext. intros p _ _. unfold hterm.
  destruct (y <? p); cbn [andb]; [|lia].
  destruct (Z.leb_spec L (x / p)), (Z.ltb_spec (x / p) U), (Z.leb_spec M (x / p)), (Z.ltb_spec (x / p) M); try lia;
  destruct (Z.leb_spec L p), (Z.ltb_spec p U), (Z.leb_spec M p), (Z.ltb_spec p M); try lia; cbn [andb]; lia.
Qed.
Lemma hsum_empty x y K L : hsum x y K L L = 0.
Proof. pose proof (hsum_split x y K L L L ltac:(lia)). lia. Qed.

Lemma Gs_sum L u : 2 <= L -> L <= u -> Gs L u = prime_sum (u - 1) - prime_sum (L - 1).
Proof.
  intros. unfold Gs. rewrite !prime_sum_psum, (psum_split 2 (L - 1) (u - 1)) by lia.
  replace (L - 1 + 1) with L by ring. lia.
Qed.

Lemma range_q x y L U (f : Z -> Z) : 0 <= x -> 0 <= y -> 2 <= L < U ->
  psum (st0 x y U + 1) (sp x (Z.sqrt x) L) f =
  psum 2 (Z.sqrt x) (fun p => if (y <? p) && ((L <=? x / p) && (x / p <? U)) then f p else 0).
Proof.
  intros Hx Hy HL. set (r := Z.sqrt x).
  assert (A : forall p, 2 <= p -> (L <= x / p <-> p <= x / L)).
  { intros p Hp. split; intros H.
    - apply Z.div_le_lower_bound; [lia|]. pose proof (Z.mul_div_le x p ltac:(lia)). nia.
    - apply Z.div_le_lower_bound; [lia|]. pose proof (Z.mul_div_le x L ltac:(lia)). nia. }
  assert (B : forall p, 2 <= p -> (x / p < U <-> x / U < p)).
  { intros p Hp. split; intros H.
    - apply Z.div_lt_upper_bound; [lia|]. pose proof (Z.mul_succ_div_gt x p ltac:(lia)). nia.
    - apply Z.div_lt_upper_bound; [lia|]. pose proof (Z.mul_succ_div_gt x U ltac:(lia)). nia. }
  unfold st0, sp. apply psum_window; intros p Hp H1 H2; pose proof (prime_ge_2 p Hp) as Hp2;
    specialize (A p Hp2); specialize (B p Hp2);
    destruct (Z.ltb_spec y p), (Z.leb_spec L (x / p)), (Z.ltb_spec (x / p) U); cbn [andb]; try lia.
  all: try reflexivity; exfalso; lia.
Qed.

Lemma range_p x y L U (f : Z -> Z) : 2 <= L < U ->
  psum L (U - 1) (fun p => if selp y (Z.sqrt x) p then f p else 0) =
  psum 2 (Z.sqrt x) (fun p => if (y <? p) && ((L <=? p) && (p <? U)) then f p else 0).
Proof.
  intros HL. unfold selp. apply psum_window; intros p Hp H1 H2; pose proof (prime_ge_2 p Hp) as Hp2;
    destruct (Z.ltb_spec y p), (Z.leb_spec p (Z.sqrt x)), (Z.leb_spec L p), (Z.ltb_spec p U); cbn [andb]; try lia; reflexivity.
Qed.

Lemma interval_ok x y K L U : 0 <= x -> 0 <= y -> 2 <= L < U ->
  tP2 x y L U + (K + prime_sum (L - 1)) * tC x y L U = hsum x y K L U.
Proof.
  intros Hx Hy HL. unfold tP2, tC, Ws, Cs, hsum. rewrite !range_q, !range_p by auto.
  rewrite Z.mul_sub_distr_l, <- !psum_scal.
  match goal with |- ?a - ?b + (?c - ?d) = _ => transitivity ((a + c) - (b + d)); [ring|] end.
  rewrite <- !psum_add, <- psum_sub. apply psum_ext. intros p Hp Hpr. pose proof (prime_ge_2 p Hp) as Hp2. unfold hterm.
  f_equal.
  - destruct (Z.ltb_spec y p), (Z.leb_spec L (x / p)), (Z.ltb_spec (x / p) U); cbn [andb]; try lia.
    rewrite Gs_sum by lia. replace (x / p + 1 - 1) with (x / p) by ring. ring.
  - destruct (Z.ltb_spec y p), (Z.leb_spec L p), (Z.ltb_spec p U); cbn [andb]; try lia.
    rewrite Gs_sum by lia. ring.
Qed.

Lemma interval_abs x y K L U : 0 <= x -> 0 <= y -> 2 <= L < U ->
  tP2a x y L U + (K + prime_sum (L - 1)) * tCa x y L U = habs x y K L U.
Proof.
  intros Hx Hy HL. unfold tP2a, tCa, Ws, Cs, habs. rewrite !range_q, !range_p by auto.
  rewrite Z.mul_add_distr_l, <- !psum_scal.
  match goal with |- ?a + ?b + (?c + ?d) = _ => transitivity ((a + c) + (b + d)); [ring|] end.
  rewrite <- !psum_add. apply psum_ext. intros p Hp Hpr. pose proof (prime_ge_2 p Hp) as Hp2. unfold hterma.
  f_equal.
  - destruct (Z.ltb_spec y p), (Z.leb_spec L (x / p)), (Z.ltb_spec (x / p) U); cbn [andb]; try lia.
    rewrite Gs_sum by lia. replace (x / p + 1 - 1) with (x / p) by ring. ring.
  - destruct (Z.ltb_spec y p), (Z.leb_spec L p), (Z.ltb_spec p U); cbn [andb]; try lia.
    rewrite Gs_sum by lia. ring.
Qed.

(** The whole range *)
Lemma P2_sum_eq x y : 0 <= x -> 0 <= y ->
  P2_sum x y = psum 2 (Z.sqrt x) (fun p => if y <? p then p * (prime_sum (x / p) - prime_sum (p - 1)) else 0).
Proof.
  intros Hx Hy. unfold P2_sum.
  assert (S1 : forall p, Z.sqrt x < p -> x / p < p).
  { intros p H. pose proof (Z.sqrt_nonneg x). apply Z.div_lt_upper_bound; [lia|].
    pose proof (Z.sqrt_spec x Hx) as [_ Hs]. unfold Z.succ in Hs. generalize dependent (Z.sqrt x). intros s H H0 Hs. nia. }
  apply psum_window; intros p Hp H1 H2; pose proof (prime_ge_2 p Hp) as Hp2.
  - destruct (Z.ltb_spec y p); [|lia]. rewrite psum_scal. f_equal.
    assert (p <= x / p) by (apply Z.div_le_lower_bound; [lia|]; pose proof (Z.sqrt_spec x Hx) as [Hs _]; clear S1; nia).
    rewrite !prime_sum_psum, (psum_split 2 (p - 1) (x / p)) by lia. replace (p - 1 + 1) with p by ring. ring.
  - apply psum_empty. apply S1. lia.
  - destruct (Z.ltb_spec y p); [|reflexivity]. pose proof (Z.sqrt_le_lin x Hx). lia.
Qed.

Lemma hsum_total x y K z : 0 <= x -> 0 <= y -> y < Z.sqrt x -> z = x / Z.max y 1 -> 2 <= Z.sqrt x ->
  hsum x y K 2 z = P2_sum x y /\ 2 < z.
Proof.
  intros Hx Hy Hyr Hz Hr. rewrite P2_sum_eq by auto. set (r := Z.sqrt x) in *.
  pose proof (Z.sqrt_spec x Hx) as Hs. fold r in Hs.
  assert (Hzr : forall p, Z.max y 1 < p <= r -> x / p < z).
  { intros p Hp. rewrite Hz. set (m := Z.max y 1) in *. apply Z.div_lt_upper_bound; [lia|].
    pose proof (Z.mul_succ_div_gt x m ltac:(lia)) as Hd. unfold Z.succ in Hd.
    assert (Hm : 1 <= m) by lia. destruct Hs as [Hs _]. clearbody m r.
    assert (m + 1 <= x / m); [apply Z.div_le_lower_bound; nia|].
    generalize dependent (x / m). intros d Hz' Hd Hmd. nia. }
  assert (Hr2 : forall p, 2 <= p <= r -> r <= x / p) by (intros p Hp; apply Z.div_le_lower_bound; [lia|]; destruct Hs as [Hs _]; clear Hzr; nia).
  split; [|specialize (Hzr r ltac:(lia)); specialize (Hr2 r ltac:(lia)); lia].
  apply psum_ext. intros p Hp Hpr. unfold hterm. destruct (Z.ltb_spec y p); cbn [andb]; [|lia].
  specialize (Hzr p ltac:(lia)). specialize (Hr2 p ltac:(lia)).
  destruct (Z.leb_spec 2 (x / p)), (Z.ltb_spec (x / p) z), (Z.leb_spec 2 p), (Z.ltb_spec p z); cbn [andb]; try lia.
Qed.

(** ** The parallel round and its correction *)
Lemma zrange_perm_in sch T k : schedule_of sch 0 T -> In k (concat sch) <-> 0 <= k < T.
Proof.
  intros H. rewrite <- in_zrange. split; apply Permutation_in; [exact H|now apply Permutation_sym].
Qed.

Lemma round_ok w x y z D low T n (F1 G1 F2 F3 : Z -> Z) sch p2 ps c : width w ->
  (forall i, 0 <= i < T -> P2_thread w x y z D i low = Ok (F1 i, F2 i, F3 i)) -> T <= n ->
  (forall i, 0 <= i < T -> Z.abs (F1 i) <= G1 i) -> Z.abs p2 + sumr 0 T G1 <= smax w ->
  schedule_of sch 0 T -> zlen ps = n -> zlen c = n ->
  wp (P2_round w x y z D low sch (ps, c) p2) (fun '(p2', (ps', c')) =>
    p2' = p2 + sumr 0 T F1 /\ zlen ps' = n /\ zlen c' = n /\
    (forall k, 0 <= k < T -> aget ps' k = Ok (F2 k) /\ aget c' k = Ok (F3 k))).
Proof.
  intros Hw HT Hn HG HM HS Hps Hc. unfold P2_round.
  eapply wp_mono; [apply (par_accs_ok (t_add w) _ (fun dn '(ps, c) => zlen ps = n /\ zlen c = n /\
      (forall k, In k dn -> aget ps k = Ok (F2 k) /\ aget c k = Ok (F3 k))) F1 G1 (smax w) 0 T); [| |exact HG|exact HS| |exact HM]|].
  - intros a b H. now apply t_add_ok.
  - intros i sum dn [ps0 c0] Hi (L1 & L2 & HD) HB. rewrite HT by auto. rewrite bind_Ok. cbv beta iota.
    apply wp_bind. apply wp_aset; [lia|]. intros ps1 Hl1 Hg1.
    apply wp_bind. apply wp_aset; [lia|]. intros c1 Hl2 Hg2.
    pose proof (HG i Hi). rewrite t_add_ok by (auto; lia). rewrite bind_Ok. cbn [wp fst snd]. split; [reflexivity|].
    split; [lia|]. split; [lia|]. intros k Hk. rewrite Hg1, Hg2. destruct (Z.eqb_spec k i) as [->|E]; [auto|].
    apply HD. apply in_app_or in Hk. destruct Hk as [Hk|[Hk|[]]]; [exact Hk|congruence].
  - split; [exact Hps|]. split; [exact Hc|]. intros k [].
  - intros [p2' [ps' c']] (E & L1 & L2 & HD). cbn [fst] in E. split; [exact E|]. split; [exact L1|]. split; [exact L2|].
    intros k Hk. apply HD. now apply (zrange_perm_in sch T).
Qed.

Lemma correct_ok w T ps c (F2 F3 G3 : Z -> Z) p2 S0 : width w -> 0 <= T < 2 ^ 32 ->
  (forall k, 0 <= k < T -> aget ps k = Ok (F2 k) /\ aget c k = Ok (F3 k)) ->
  (forall k, 0 <= k < T -> 0 <= F2 k) -> 0 <= S0 -> S0 + sumr 0 T F2 <= smax w ->
  (forall k, 0 <= k < T -> Z.abs (F3 k) <= G3 k /\ G3 k <= 2 ^ 126) ->
  Z.abs p2 + sumr 0 T (fun i => (S0 + sumr 0 i F2) * G3 i) <= smax w ->
  P2_correct w T ps c (p2, S0) =
  Ok (p2 + sumr 0 T (fun i => (S0 + sumr 0 i F2) * F3 i), S0 + sumr 0 T F2).
Proof.
  intros Hw HT HF P2 PS HS HG HB. destruct (smax_pos w Hw) as [M1 _]. apply wp_eq. unfold P2_correct.
  assert (N : forall a b, 0 <= a -> b <= T -> 0 <= sumr a b F2) by (intros a b Ha Hb; apply sumr_nonneg; intros k Hk; apply P2; lia).
  assert (A : forall i, 0 <= i <= T -> Z.abs (sumr 0 i (fun i => (S0 + sumr 0 i F2) * F3 i)) <= sumr 0 i (fun i => (S0 + sumr 0 i F2) * G3 i)).
  { intros i Hi. eapply Z.le_trans; [apply sumr_abs|]. apply sumr_le. intros k Hk. specialize (N 0 k ltac:(lia) ltac:(lia)). destruct (HG k ltac:(lia)).
    rewrite Z.abs_mul. rewrite (Z.abs_eq (S0 + _)) by lia. apply Z.mul_le_mono_nonneg_l; lia. }
  assert (B : forall i, 0 <= i <= T -> sumr 0 i (fun i => (S0 + sumr 0 i F2) * G3 i) <= sumr 0 T (fun i => (S0 + sumr 0 i F2) * G3 i)).
  { intros i Hi. rewrite (sumr_split 0 i T) by lia. assert (0 <= sumr i T (fun i => (S0 + sumr 0 i F2) * G3 i)); [|lia]. apply sumr_nonneg. intros k Hk.
    specialize (N 0 k ltac:(lia) ltac:(lia)). destruct (HG k ltac:(lia)). apply Z.mul_nonneg_nonneg; lia. }
  apply (for_rule _ _ _ (fun i '(p, s) => p = p2 + sumr 0 i (fun i => (S0 + sumr 0 i F2) * F3 i) /\ s = S0 + sumr 0 i F2)).
  - assert (2 ^ 32 < 2 ^ 400) by (apply Z.pow_lt_mono_r; lia). lia.
  - rewrite !sumr_empty by lia. split; lia.
  - intros i [p s] Hi (-> & ->). destruct (HF i Hi) as [-> ->]. rewrite !bind_Ok.
    pose proof (A i ltac:(lia)) as Ai. pose proof (A (i + 1) ltac:(lia)) as Ai1. pose proof (B (i + 1) ltac:(lia)) as Bi. pose proof (B i ltac:(lia)) as Bi0.
    rewrite sumr_snoc in Ai1 by lia. rewrite sumr_snoc in Ai1 by lia. rewrite sumr_snoc in Bi by lia.
    destruct (HG i Hi) as [G1 G2]. pose proof (N 0 i ltac:(lia) ltac:(lia)) as Ni. pose proof (N i T ltac:(lia) ltac:(lia)) as Nt.
    pose proof (P2 i Hi) as Pi. pose proof (N (i + 1) T ltac:(lia) ltac:(lia)) as Nt1. rewrite (sumr_split 0 i T), (sumr_cons i T) in HS by lia.
    assert (PR : Z.abs ((S0 + sumr 0 i F2) * F3 i) <= (S0 + sumr 0 i F2) * G3 i).
    { rewrite Z.abs_mul. rewrite (Z.abs_eq (S0 + _)) by lia. apply Z.mul_le_mono_nonneg_l; lia. }
    assert (2 ^ 126 <= 2 ^ 127 - 1) by (apply Z.leb_le; reflexivity).
    rewrite t_mul_ok; [|exact Hw|lia|lia|lia]. rewrite bind_Ok. rewrite t_add_ok by (auto; lia). rewrite !bind_Ok. rewrite t_add_ok by (auto; lia). rewrite bind_Ok. cbn [wp].
    rewrite !sumr_snoc by lia. split; lia.
  - intros [p s]. rewrite Z.max_r by lia. intros (-> & ->). reflexivity.
Qed.

Lemma balance_ok sp D low z T : 1 <= D <= Z.max z (2 ^ 23) -> 2 <= low < 2 ^ 63 -> 2 <= z < 2 ^ 62 -> 1 <= T < 2 ^ 31 ->
  wp (balanceLoad sp D low z T) (fun D' => low < z -> 1 <= D' <= Z.max (z - low) (2 ^ 23)).
Proof.
  intros HD Hl Hz HT. unfold balanceLoad. apply wp_bind.
  apply (wp_mono _ (fun m => low < z -> 1 <= m <= z - low)).
  - destruct (Z.lt_ge_cases low z) as [Lt|Ge].
    + eapply wp_mono; [apply (ceil_div_ok i64 (z - low) T); [simpl; tauto|lia|lia|change (tmax i64) with (2 ^ 63 - 1); lia]|].
      cbv beta. intros m [H1 H2] _. split; [nia|]. apply H2. nia.
    + unfold ceil_div. rewrite !tar_ok; [|reflexivity|unfold in_t; change (tmin i64) with (- 2 ^ 63); change (tmax i64) with (2 ^ 63 - 1); lia].
      rewrite bind_Ok. rewrite tar_ok; [|reflexivity|unfold in_t; change (tmin i64) with (- 2 ^ 63); change (tmax i64) with (2 ^ 63 - 1); lia].
      rewrite bind_Ok. destruct (Z.eqb_spec T 0); [lia|]. cbn [negb assert_]. rewrite bind_Ok. cbn [wp]. lia.
  - intros m Hm. apply wp_bind.
    apply (wp_mono _ (fun _ => True)).
    + destruct sp; cbn [wp]; auto. rewrite schk_ok; [exact I|]. unfold in_s, smin, smax. change (2 ^ (64 - 1)) with (2 ^ 63). lia.
    + intros d _. cbn [wp]. intros Hlt. specialize (Hm Hlt). unfold in_between.
      destruct (Z.ltb_spec d (2 ^ 23)); [lia|]. destruct (Z.gtb_spec d m); lia.
Qed.


Lemma step_ok x y z D low T K : 0 <= x < 2 ^ 122 -> 0 <= y < 2 ^ 62 -> 2 <= low < z -> 1 <= D -> 1 <= T ->
  low + D * (T - 1) < z ->
  sumr 0 T (fun i => let L := low + D * i in tP2 x y L (Z.min (L + D) z)) +
  sumr 0 T (fun i => (K + prime_sum (low - 1) + sumr 0 i (fun j => let L := low + D * j in Gs L (Z.min (L + D) z))) *
                     (let L := low + D * i in tC x y L (Z.min (L + D) z))) =
  hsum x y K low (Z.min (low + D * T) z) /\
  prime_sum (low - 1) + sumr 0 T (fun j => let L := low + D * j in Gs L (Z.min (L + D) z)) =
  prime_sum (Z.min (low + D * T) z - 1).
Proof.
  intros Hx Hy Hl HD HT Hz.
  cut (forall n, 0 <= n -> n <= T ->
    sumr 0 n (fun i => let L := low + D * i in tP2 x y L (Z.min (L + D) z)) +
    sumr 0 n (fun i => (K + prime_sum (low - 1) + sumr 0 i (fun j => let L := low + D * j in Gs L (Z.min (L + D) z))) *
                       (let L := low + D * i in tC x y L (Z.min (L + D) z))) =
    hsum x y K low (Z.min (low + D * n) z) /\
    prime_sum (low - 1) + sumr 0 n (fun j => let L := low + D * j in Gs L (Z.min (L + D) z)) =
    prime_sum (Z.min (low + D * n) z - 1)).
  { intros H. apply H; lia. }
  intros n0 Hn0. pattern n0. apply natlike_ind; [| |exact Hn0]; clear n0 Hn0.
  - intros _. rewrite !sumr_empty by lia. replace (low + D * 0) with low by ring. rewrite Z.min_l by lia. rewrite hsum_empty. lia.
  - intros n Hn IH HnT. destruct (IH ltac:(lia)) as [IH1 IH2]. clear IH. unfold Z.succ.
    assert (low + D * n < z) by nia.
    rewrite !sumr_snoc by lia. cbv zeta in *. set (L := low + D * n) in *. set (U := Z.min (L + D) z).
    replace (low + D * (n + 1)) with (L + D) by (unfold L; ring). fold U.
    assert (HU : L < U) by lia. assert (HL : low <= L) by (unfold L; nia).
    rewrite (Z.min_l L z) in * by lia. split.
    + rewrite (hsum_split x y K low L U) by lia. rewrite <- IH1, <- (interval_ok x y K L U) by lia.
      replace (K + prime_sum (low - 1) + sumr 0 n (fun j => Gs (low + D * j) (Z.min (low + D * j + D) z)))
        with (K + prime_sum (L - 1)) by lia. ring.
    + rewrite Gs_sum by lia. lia.
Qed.

Lemma step_abs x y z D low T K : 0 <= x < 2 ^ 122 -> 0 <= y < 2 ^ 62 -> 2 <= low < z -> 1 <= D -> 1 <= T ->
  low + D * (T - 1) < z ->
  sumr 0 T (fun i => let L := low + D * i in tP2a x y L (Z.min (L + D) z)) +
  sumr 0 T (fun i => (K + prime_sum (low - 1) + sumr 0 i (fun j => let L := low + D * j in Gs L (Z.min (L + D) z))) *
                     (let L := low + D * i in tCa x y L (Z.min (L + D) z))) =
  habs x y K low (Z.min (low + D * T) z) /\
  prime_sum (low - 1) + sumr 0 T (fun j => let L := low + D * j in Gs L (Z.min (L + D) z)) =
  prime_sum (Z.min (low + D * T) z - 1).
Proof.
  intros Hx Hy Hl HD HT Hz.
  cut (forall n, 0 <= n -> n <= T ->
    sumr 0 n (fun i => let L := low + D * i in tP2a x y L (Z.min (L + D) z)) +
    sumr 0 n (fun i => (K + prime_sum (low - 1) + sumr 0 i (fun j => let L := low + D * j in Gs L (Z.min (L + D) z))) *
                       (let L := low + D * i in tCa x y L (Z.min (L + D) z))) =
    habs x y K low (Z.min (low + D * n) z) /\
    prime_sum (low - 1) + sumr 0 n (fun j => let L := low + D * j in Gs L (Z.min (L + D) z)) =
    prime_sum (Z.min (low + D * n) z - 1)).
  { intros H. apply H; lia. }
  intros n0 Hn0. pattern n0. apply natlike_ind; [| |exact Hn0]; clear n0 Hn0.
  - intros _. rewrite !sumr_empty by lia. replace (low + D * 0) with low by ring. rewrite Z.min_l by lia. rewrite habs_empty.  lia.
  - intros n Hn IH HnT. destruct (IH ltac:(lia)) as [IH1 IH2]. clear IH. unfold Z.succ.
    assert (low + D * n < z) by nia.
    rewrite !sumr_snoc by lia. cbv zeta in *. set (L := low + D * n) in *. set (U := Z.min (L + D) z).
    replace (low + D * (n + 1)) with (L + D) by (unfold L; ring). fold U.
    assert (HU : L < U) by lia. assert (HL : low <= L) by (unfold L; nia).
    rewrite (Z.min_l L z) in * by lia. split.
    + rewrite (habs_split x y K low L U) by lia. rewrite <- IH1, <- (interval_abs x y K L U) by lia.
      replace (K + prime_sum (low - 1) + sumr 0 n (fun j => Gs (low + D * j) (Z.min (low + D * j + D) z)))
        with (K + prime_sum (L - 1)) by lia. ring.
    + rewrite Gs_sum by lia. lia.
Qed.

Lemma tCa_le x y L U : 0 <= x < 2 ^ 122 -> 0 <= y -> 2 <= L < U -> tCa x y L U <= 2 ^ 126.
Proof.
  intros Hx Hy HL. unfold tCa, Cs. rewrite range_q, range_p by (auto; lia). rewrite <- psum_add.
  apply Z.le_trans with (psum 2 (Z.sqrt x) (fun p => 2 * p)).
  - apply psum_le. intros p Pp _. apply prime_ge_2 in Pp. destruct ((y <? p) && ((L <=? x / p) && (x / p <? U))), ((y <? p) && ((L <=? p) && (p <? U))); lia.
  - rewrite psum_scal, <- prime_sum_psum. pose proof (prime_sum_le (Z.sqrt x) (Z.sqrt_nonneg x)). pose proof (Z.sqrt_spec x ltac:(lia)).
    cbv zeta in H0. change (2 ^ 126) with (2 ^ 122 * 16). lia.
Qed.

Theorem P2_master_ok lsched speed sched w x y threads : width w -> (4 <= x -> P2_abs x <= smax w) ->
  0 <= x < 2 ^ 122 -> 0 <= y < 2 ^ 62 -> x / Z.max y 1 < 2 ^ 62 -> 1 <= threads < 2 ^ 31 ->
  valid_scheds lsched -> (forall k, valid_sched (sched k)) ->
  P2_master lsched speed sched w x y threads = Ok (P2_sum x y).
Proof.
  intros Hw HA Hx [Hy Hy62] Hz60 Ht Hls Hsch. unfold P2_master.
  assert (Hno : pi (Z.sqrt x) <= pi y -> P2_sum x y = 0).
  { intros H. rewrite P2_sum_eq by lia. apply psum_zero. intros p Hp Hpr.
    destruct (Z.ltb_spec y p); [|reflexivity]. pose proof (pi_lt_prime y p Hp ltac:(lia)).
    pose proof (pi_mono p (Z.sqrt x) ltac:(lia)). lia. }
  destruct (Z.ltb_spec x 4) as [L4|G4].
  { rewrite Hno; [reflexivity|]. rewrite pi_small; [apply pi_nonneg|]. apply Z.sqrt_lt_square; lia. }
  assert (Hr54 : Z.sqrt x < 2 ^ 61).
  { apply Z.sqrt_lt_square; [lia|lia|]. change (2 ^ 61 * 2 ^ 61) with (2 ^ 122). lia. }
  assert (Hq62 : 2 ^ 62 < q31 * q31) by reflexivity.
  rewrite !pi_legendre_ok, !bind_Ok; [|exact Hls|eapply Z.lt_trans; [|exact Hq62]; lia|exact Hls|eapply Z.lt_trans; [|exact Hq62]; lia].
  clear Hq62.
  destruct (Z.leb_spec (pi (Z.sqrt x)) (pi y)) as [Le|Gt]; [now rewrite Hno|]. clear Hno.
  assert (Hr2 : 2 <= Z.sqrt x) by (apply sqrt_le_iff; lia).
  assert (Hyr : y < Z.sqrt x).
  { destruct (Z.lt_ge_cases y (Z.sqrt x)); auto. pose proof (pi_mono (Z.sqrt x) y). lia. }
  rewrite Z.quot_div_nonneg by lia.
  assert (Hq : 0 <= x / Z.max y 1) by (apply Z.div_pos; lia).
  rewrite swrap_id by (unfold in_s, smin, smax; change (2 ^ (64 - 1)) with (2 ^ 63); lia).
  rewrite prime_sum_tiny_ok by lia. rewrite bind_Ok.
  remember (x / Z.max y 1) as z eqn:Ez. set (K := prime_sum y).
  destruct (hsum_total x y K z) as [Htot Hz2]; [lia|lia|lia|auto|lia|].
  assert (K0 : 0 <= K) by apply prime_sum_nonneg.
  assert (HB : habs x y K 2 z <= smax w) by (pose proof (habs_le x y z ltac:(lia) Hy); unfold K; specialize (HA G4); lia).
  assert (HPS : forall u, 0 <= u <= z -> K + prime_sum u <= smax w).
  { intros u Hu. destruct (smax_pos w Hw) as [M1 _]. pose proof (prime_sum_le u ltac:(lia)). pose proof (prime_sum_le y ltac:(lia)). unfold K.
    assert (u * u <= 2 ^ 62 * 2 ^ 62) by nia. assert (y * y <= 2 ^ 62 * 2 ^ 62) by nia. lia. }
  apply wp_eq.
  apply (loop_rule _
    (fun '(k, low, D, T, p2, S', ps, c) => 2 <= low < 2 ^ 63 /\ 1 <= T <= threads /\
       zlen ps = threads /\ zlen c = threads /\ (low < z -> 1 <= D <= Z.max (z - low) (2 ^ 23)) /\
       S' = K + prime_sum (Z.min low z - 1) /\ p2 = hsum x y K 2 (Z.min low z))
    (fun '(k, low, D, T, p2, S', ps, c) => Z.max 0 (z - low))).
  - intros [[[[[[[k low] D] T] p2] S'] ps] c] (Hlow & HT & Hps & Hc & HD & -> & ->).
    destruct (Z.ltb_spec low z) as [Lt|Ge].
    + specialize (HD Lt). rewrite (Z.min_l low z) by lia.
      destruct (wp_inv _ _ (ceil_div_ok i64 (z - low) D ltac:(simpl; tauto) ltac:(lia) ltac:(lia)
        ltac:(change (tmax i64) with (2 ^ 63 - 1); lia))) as (seg & Eseg & Hs1 & Hs2).
      rewrite Eseg, bind_Ok. cbv zeta. clear Eseg.
      set (T' := in_between 1 T seg).
      assert (Hseg : 1 <= seg) by nia.
      assert (HT' : 1 <= T' <= threads /\ T' <= seg).
      { unfold T', in_between. destruct (Z.ltb_spec T 1); [lia|]. destruct (Z.gtb_spec T seg); lia. }
      destruct HT' as [HT' HTs]. clearbody T'.
      assert (Hlast : low + D * (T' - 1) < z).
      { destruct (Z.lt_ge_cases (low + D * (T' - 1)) z); auto. specialize (Hs2 (T' - 1)). nia. }
      destruct (step_abs x y z D low T' K ltac:(lia) ltac:(lia) ltac:(lia) ltac:(lia) ltac:(lia) Hlast) as [A1 A2].
      set (E := Z.min (low + D * T') z) in A1, A2. assert (HE : low <= E <= z) by (unfold E; nia).
      pose proof (habs_split x y K 2 low z ltac:(lia)) as HS1. pose proof (habs_split x y K low E z ltac:(lia)) as HS2.
      pose proof (habs_nonneg x y K E z K0) as HN1. pose proof (hsum_abs x y K 2 low K0) as HN2.
      set (GA := fun i => let L := low + D * i in tP2a x y L (Z.min (L + D) z)) in A1.
      set (F2 := fun i => let L := low + D * i in Gs L (Z.min (L + D) z)) in *.
      set (CA := fun i => (K + prime_sum (low - 1) + sumr 0 i F2) * (let L := low + D * i in tCa x y L (Z.min (L + D) z))) in A1.
      assert (LU : forall i, 0 <= i < T' -> low <= low + D * i /\ low + D * i < Z.min (low + D * i + D) z <= z) by (intros i Hi; nia).
      assert (GA0 : forall i, 0 <= i < T' -> 0 <= GA i).
      { intros i Hi. unfold GA. cbv zeta. destruct (LU i Hi) as [L1 L2]. pose proof (tP2_abs x y (low + D * i) (Z.min (low + D * i + D) z) ltac:(lia)). lia. }
      assert (F20 : forall i, 0 <= i < T' -> 0 <= F2 i) by (intros i Hi; apply Gs_nonneg).
      assert (PS0 : 0 <= prime_sum (low - 1)) by apply prime_sum_nonneg.
      assert (CA1 : forall i, 0 <= i < T' -> 0 <= tCa x y (low + D * i) (Z.min (low + D * i + D) z) <= 2 ^ 126).
      { intros i Hi. destruct (LU i Hi) as [L1 L2]. split; [pose proof (tC_abs x y (low + D * i) (Z.min (low + D * i + D) z) ltac:(lia)); lia|].
        apply tCa_le; lia. }
      assert (CA0 : forall i, 0 <= i < T' -> 0 <= CA i).
      { intros i Hi. unfold CA. cbv zeta. apply Z.mul_nonneg_nonneg; [|apply CA1; auto].
        assert (0 <= sumr 0 i F2) by (apply sumr_nonneg; intros j Hj; apply F20; lia). lia. }
      assert (SGA : 0 <= sumr 0 T' GA) by (apply sumr_nonneg; auto). assert (SCA : 0 <= sumr 0 T' CA) by (apply sumr_nonneg; auto).
      assert (ONE : forall (f : Z -> Z) i, (forall j, 0 <= j < T' -> 0 <= f j) -> 0 <= i < T' -> f i <= sumr 0 T' f).
      { intros f i Hf Hi. rewrite (sumr_split 0 i T'), (sumr_cons i T') by lia. assert (0 <= sumr 0 i f) by (apply sumr_nonneg; intros; apply Hf; lia).
        assert (0 <= sumr (i + 1) T' f) by (apply sumr_nonneg; intros; apply Hf; lia). lia. }
      assert (HPE : K + prime_sum (E - 1) <= smax w) by (apply HPS; lia).
      apply wp_bind. eapply wp_mono.
      { apply (round_ok w x y z D low T' threads
          (fun i => let L := low + D * i in tP2 x y L (Z.min (L + D) z)) GA F2
          (fun i => let L := low + D * i in tC x y L (Z.min (L + D) z))); [exact Hw| |lia| | |apply Hsch|exact Hps|exact Hc].
        - intros i Hi. apply thread_ok; try lia; [auto|nia|]. cbv zeta. split; [|split].
          + pose proof (ONE GA i GA0 Hi). unfold GA at 1 in H. cbv zeta in H. lia.
          + specialize (CA1 i Hi). destruct (smax_pos w Hw) as [M1 _]. assert (2 ^ 126 <= 2 ^ 127 - 1) by (apply Z.leb_le; reflexivity). lia.
          + pose proof (ONE F2 i F20 Hi). unfold F2 at 1 in H. cbv zeta in H. lia.
        - intros i Hi. destruct (LU i Hi) as [L1 L2]. unfold GA. cbv zeta. apply tP2_abs. lia.
        - lia. }
      intros [p2' [ps' c']] (-> & Hps' & Hc' & Hin).
      assert (SP2 : Z.abs (sumr 0 T' (fun i => let L := low + D * i in tP2 x y L (Z.min (L + D) z))) <= sumr 0 T' GA).
      { eapply Z.le_trans; [apply sumr_abs|]. apply sumr_le. intros i Hi. destruct (LU i Hi) as [L1 L2]. unfold GA. cbv zeta. apply tP2_abs. lia. }
      rewrite (correct_ok w T' ps' c' F2
                (fun i => let L := low + D * i in tC x y L (Z.min (L + D) z)) (fun i => let L := low + D * i in tCa x y L (Z.min (L + D) z)));
        [|exact Hw|lia|exact Hin|exact F20|lia|lia| |].
      2:{ intros i Hi. destruct (LU i Hi) as [L1 L2]. cbv zeta. split; [apply tC_abs; lia|apply CA1; auto]. }
      2:{ fold CA. lia. }
      rewrite bind_Ok. cbv beta iota. clear A1 A2 SGA SCA GA0 CA0 CA1 ONE.
      assert (HDT : D * T' <= z - low + D) by nia. assert (HDT0 : D <= D * T') by nia.
      rewrite schk_ok by (unfold in_s, smin, smax; change (2 ^ (64 - 1)) with (2 ^ 63); lia). rewrite bind_Ok.
      rewrite schk_ok by (unfold in_s, smin, smax; change (2 ^ (64 - 1)) with (2 ^ 63); lia). rewrite bind_Ok.
      apply wp_bind. eapply wp_mono; [apply balance_ok; lia|]. intros D' HD'. cbn [wp].
      destruct (step_ok x y z D low T' K ltac:(lia) ltac:(lia) ltac:(lia) ltac:(lia) ltac:(lia) Hlast) as [E1 E2]. cbv zeta in E1, E2.
      split; [|lia]. split; [lia|]. split; [lia|]. split; [lia|]. split; [lia|]. split; [exact HD'|]. split.
      * fold E in E2 |- *. rewrite <- E2. unfold F2. cbv zeta. lia.
      * rewrite (hsum_split x y K 2 low (Z.min (low + D * T') z)) by lia. rewrite <- E1.
        unfold F2. cbv zeta. lia.
    + cbn [wp]. rewrite Z.min_r by lia. exact Htot.
  - split; [lia|]. split; [lia|]. split; [apply amake_len; lia|]. split; [apply amake_len; lia|].
    split; [lia|]. rewrite (Z.min_l 2 z) by lia. rewrite hsum_empty, (prime_sum_small (2 - 1)) by lia. split; lia.
  - assert (2 ^ 62 < 2 ^ 400) by (apply Z.pow_lt_mono_r; lia). lia.
Qed.

Theorem P2_ok lsched speed sched x y threads :
  0 <= x < 2 ^ 122 -> 0 <= y < 2 ^ 62 -> x / Z.max y 1 < 2 ^ 62 -> 1 <= threads < 2 ^ 31 ->
  valid_scheds lsched -> (forall k, valid_sched (sched k)) ->
  P2 lsched speed sched x y threads = Ok (P2_sum x y).
Proof.
  intros Hx Hy Hz Ht Hls Hsch. unfold P2. destruct (Z.leb_spec x (smax 64)) as [H|H].
  - change (smax 64) with (2 ^ 63 - 1) in H. rewrite swrap_id by (unfold in_s, smin, smax; change (2 ^ (64 - 1)) with (2 ^ 63); lia).
    apply P2_master_ok; auto; [apply width_128|]. intros H4. apply P2_abs_128. lia.
  - apply P2_master_ok; auto; [apply width_256|]. intros H4. apply P2_abs_256. lia.
Qed.
