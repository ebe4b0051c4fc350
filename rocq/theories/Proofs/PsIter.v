(** The iterator, store_primes and store_n_primes. *)
From Coq Require Import ZArith List Lia Bool Znumtheory Sorted.
From Verif.Base Require Import Res Word Zl Each.
From Verif.Model Require Import PsTables PsMath PsErat PsCache PsGen.
From Verif.Spec Require Import PsSpec PsRunSpec PsGenSpec Primes.
From Verif.Proofs Require Import Primes NT PsWord PsGenP.
Import ListNotations.
Open Scope Z_scope.
Local Ltac Zify.zify_post_hook ::= idtac.

Lemma umax_val : umax 64 = 2 ^ 64 - 1.
Proof. reflexivity. Qed.
Lemma umax_comp : ~ prime (2 ^ 64 - 1).
Proof.
  intros P. assert (D : (3 | 2 ^ 64 - 1)) by (exists ((2 ^ 64 - 1) / 3); vm_compute; reflexivity).
  destruct (prime_divisors _ P 3 D) as [E|[E|[E|E]]]; vm_compute in E; discriminate.
Qed.
Lemma primes_in_none a b : (forall q, prime q -> a <= q -> b < q) -> primes_in a b = [].
Proof.
  intros H. destruct (primes_in a b) as [|x t] eqn:E; auto. exfalso. assert (I : In x (primes_in a b)) by (rewrite E; now left).
  apply primes_in_in in I. destruct I as [P I]. specialize (H x P). lia.
Qed.
Lemma primes_in_nil a b : primes_in a b = [] -> forall q, prime q -> a <= q -> b < q.
Proof. intros H q P Hq. destruct (Z.lt_ge_cases b q); auto. exfalso. assert (I : In q (primes_in a b)) by (apply primes_in_in; auto). rewrite H in I. destruct I. Qed.
Lemma primes_in_hd a b x t : primes_in a b = x :: t -> prime x /\ a <= x <= b /\ forall q, prime q -> a <= q -> x <= q.
Proof.
  intros E. assert (I : In x (primes_in a b)) by (rewrite E; now left). apply primes_in_in in I. destruct I as [P I]. split; auto. split; auto.
  intros q Pq Hq. destruct (Z.lt_ge_cases b q); [lia|]. assert (J : In q (primes_in a b)) by (apply primes_in_in; auto). rewrite E in J. destruct J as [->|J]; [lia|].
  pose proof (primes_in_sorted a b) as S. rewrite E in S. pose proof (sorted_app_lt [x] t S x q (or_introl eq_refl) J). lia.
Qed.
Lemma primes_in_last a b l x : primes_in a b = l ++ [x] -> prime x /\ a <= x <= b /\ forall q, prime q -> q <= b -> a <= q -> q <= x.
Proof.
  intros E. assert (I : In x (primes_in a b)) by (rewrite E; apply in_app_iff; right; now left). apply primes_in_in in I. destruct I as [P I]. split; auto. split; auto.
  intros q Pq Hq Ha. assert (J : In q (primes_in a b)) by (apply primes_in_in; auto). rewrite E in J. apply in_app_iff in J. destruct J as [J|[->|[]]]; [|lia].
  pose proof (primes_in_sorted a b) as S. rewrite E in S. pose proof (sorted_app_lt l [x] S q x J (or_introl eq_refl)). lia.
Qed.
Lemma sorted_app_r (l1 l2 : list Z) : StronglySorted Z.lt (l1 ++ l2) -> StronglySorted Z.lt l2.
Proof. induction l1 as [|a l1 IH]; auto. cbn [app]. intros H. inversion H; auto. Qed.
Lemma sorted_app_l (l1 l2 : list Z) : StronglySorted Z.lt (l1 ++ l2) -> StronglySorted Z.lt l1.
Proof.
  induction l1 as [|a l1 IH]; [constructor|]. cbn [app]. intros H. inversion H; subst. constructor; auto. rewrite Forall_forall in *. intros x Hx. apply H3. apply in_app_iff. auto.
Qed.
Lemma primes_in_cut a b l x r : primes_in a b = l ++ x :: r -> r = primes_in (x + 1) b /\ l ++ [x] = primes_in a x /\ l = primes_in a (x - 1).
Proof.
  intros E. pose proof (primes_in_sorted a b) as S. rewrite E in S.
  assert (I : In x (primes_in a b)) by (rewrite E; apply in_app_iff; right; now left). apply primes_in_in in I. destruct I as [P I].
  assert (S2 : StronglySorted Z.lt ((l ++ [x]) ++ r)) by (now rewrite <- app_assoc).
  assert (L1 : forall y, In y l -> y < x) by (intros y Hy; apply (sorted_app_lt l (x :: r) S); [auto|now left]).
  assert (L2 : forall y, In y r -> x < y) by (intros y Hy; apply (sorted_app_lt (l ++ [x]) r S2); [apply in_app_iff; right; now left|auto]).
  assert (M : forall y, prime y -> a <= y <= b -> In y l \/ y = x \/ In y r).
  { intros y Py Hy. assert (J : In y (primes_in a b)) by (apply primes_in_in; auto). rewrite E in J. apply in_app_iff in J. destruct J as [J|[J|J]]; auto. }
  assert (N : forall y, In y l \/ In y r -> prime y /\ a <= y <= b). { intros y Hy. apply primes_in_in. rewrite E. apply in_app_iff. destruct Hy; [now left|right; now right]. }
  assert (LL : l = primes_in a (x - 1)).
  { apply sorted_ext; [eapply sorted_app_l; eauto|apply primes_in_sorted|]. intros y. rewrite primes_in_in. split.
    - intros Hy. destruct (N y (or_introl Hy)) as [? ?]. specialize (L1 y Hy). split; auto. lia.
    - intros [Py Hy]. destruct (M y Py ltac:(lia)) as [?|[?|J]]; auto; [lia|]. specialize (L2 y J). lia. }
  split; [|split; auto].
  - apply sorted_ext; [eapply sorted_app_r; eauto|apply primes_in_sorted|]. intros y. rewrite primes_in_in. split.
    + intros Hy. destruct (N y (or_intror Hy)) as [? ?]. specialize (L2 y Hy). split; auto. lia.
    + intros [Py Hy]. destruct (M y Py ltac:(lia)) as [J|[?|?]]; auto; [|lia]. specialize (L1 y J). lia.
  - rewrite LL. rewrite (primes_in_split a (x - 1) x) by lia. f_equal. replace (x - 1 + 1) with x by lia. unfold primes_in. rewrite zrange_cons, zrange_empty by lia.
    cbn [filter]. now rewrite (proj2 (primeb_spec x) P).
Qed.

(** *** Neighbours in a buffer *)
Definition consec (l : list Z) : Prop := forall l1 u v l2, l = l1 ++ u :: v :: l2 -> follows u v /\ precedes v u.
Lemma consec_primes_in a b : b < 2 ^ 64 -> consec (primes_in a b).
Proof.
  intros Hb l1 u v l2 E. destruct (primes_in_cut _ _ _ _ _ E) as (E1 & E2 & _). symmetry in E1. destruct (primes_in_hd _ _ _ _ E1) as (P1 & H1 & A1).
  symmetry in E2. destruct (primes_in_last _ _ _ _ E2) as (P2 & H2 & A2).
  split; left.
  - split; auto. split; [lia|]. intros q Pq Hq. apply A1; auto. lia.
  - split; auto. split; [lia|]. intros q Pq Hq. destruct (Z.lt_ge_cases u q); [|lia]. specialize (A1 q Pq). lia.
Qed.
Lemma consec_zero a b : b < 2 ^ 64 -> a <= 2 -> consec (0 :: primes_in a b).
Proof.
  intros Hb Ha [|z l1] u v l2 E; cbn [app] in E; injection E as E0 E.
  - subst u. destruct (primes_in_hd _ _ _ _ E) as (P1 & H1 & A1). pose proof (prime_ge_2 v P1). split; [left|right].
    + split; auto. split; [lia|]. intros q Pq Hq. apply A1; auto. pose proof (prime_ge_2 q Pq). lia.
    + split; auto. intros q Pq. apply A1; auto. pose proof (prime_ge_2 q Pq). lia.
  - eapply consec_primes_in; eauto.
Qed.
Lemma consec_app l r : consec (l ++ r) -> consec l.
Proof. intros H l1 u v l2 E. apply (H l1 u v (l2 ++ r)). rewrite E, <- app_assoc. reflexivity. Qed.
Lemma consec_one x : consec [x].
Proof. intros l1 u v l2 E. apply (f_equal (@length Z)) in E. rewrite app_length in E. cbn in E. lia. Qed.

(** *** The invariant *)
Definition gnext (it : iter) (v : Z) : Prop :=
  0 <= it_stop it < 2 ^ 64 /\ v <= it_stop it /\
  match it_gen it with
  | None => forall q, prime q -> v < q -> it_stop it < q
  | Some p => pgstate p (it_stop it) (primes_in (v + 1) (it_stop it))
  end.
Definition gprev (it : iter) (v : Z) : Prop :=
  match it_gen it with None => 0 <= it_start it < 2 ^ 64 /\ forall q, prime q -> (q < v <-> q < it_start it) | Some _ => True end.
Definition iinv (it : iter) (v : Z) : Prop :=
  0 <= v < 2 ^ 64 /\ 0 <= it_hint it < 2 ^ 64 /\
  ((it_i it = 0 /\ it_last it = 0 /\ it_primes it = [] /\ it_gen it = None /\ it_start it = v /\ it_stop it = v) \/
   exists l1 l2, it_primes it = l1 ++ v :: l2 /\ it_i it = zlen l1 /\ it_last it = zlen (it_primes it) - 1 /\ consec (it_primes it) /\ (forall x, In x (it_primes it) -> 0 <= x < 2 ^ 64) /\
     (forall l x, it_primes it = l ++ [x] -> gnext it x) /\ (forall x l, it_primes it = x :: l -> gprev it x)).

Lemma checked_add_range x y : 0 <= x <= umax 64 -> 0 <= y <= umax 64 -> x <= checked_add x y <= umax 64 /\ (x < umax 64 -> 0 < y -> x < checked_add x y).
Proof. intros Hx Hy. unfold checked_add. rewrite Z.geb_leb. destruct (Z.leb_spec (umax 64 - y) x); lia. Qed.
Lemma helper_next_rule g stop hint dist start' stop' dist' : genv_ok g -> 0 <= stop < 2 ^ 64 -> 0 <= hint < 2 ^ 64 -> helper_next g stop hint dist = (start', stop', dist') ->
  start' = Z.min (stop + 1) (2 ^ 64 - 1) /\ start' <= stop' < 2 ^ 64.
Proof.
  intros (_ & _ & HG) Hs Hh. unfold helper_next.
  assert (ES : checked_add stop 1 = Z.min (stop + 1) (2 ^ 64 - 1)). { unfold checked_add. rewrite umax_val, Z.geb_leb. destruct (Z.leb_spec (2 ^ 64 - 1 - 1) stop); lia. }
  rewrite ES. set (s := Z.min _ _). assert (HS : 0 <= s <= 2 ^ 64 - 1) by lia. assert (EQ : s = Z.min (stop + 1) (2 ^ 64 - 1)) by reflexivity. clearbody s.
  rewrite max_cached_eq. destruct (Z.ltb_spec s 719).
  - intros E. injection E as <- <- <-. lia.
  - intros E. injection E as <- <- <-. split; auto. pose proof umax_val as UV.
    destruct ((hint >=? s) && (hint <? umax 64)) eqn:C.
    + apply andb_true_iff in C. destruct C as [C1 C2]. rewrite Z.geb_leb in C1. apply Z.leb_le in C1. apply Z.ltb_lt in C2.
      destruct (HG hint) as (G1 & _). pose proof (checked_add_range hint (g_gap g hint) ltac:(lia) ltac:(lia)). lia.
    + assert (0 <= next_dist g s dist <= umax 64).
      { destruct (HG s) as (_ & G2 & _). unfold next_dist. rewrite max_cached_eq. rewrite UV. pose proof (Z.pow_le_mono_r 2 60 64 ltac:(lia) ltac:(lia)). lia. }
      pose proof (checked_add_range s (next_dist g s dist) ltac:(lia) ltac:(lia)). lia.
Qed.
Lemma helper_prev_rule g start hint dist start' stop' dist' : genv_ok g -> 0 <= start < 2 ^ 64 -> 0 <= hint < 2 ^ 64 -> helper_prev g start hint dist = (start', stop', dist') ->
  stop' = Z.max 0 (start - 1) /\ 0 <= start' <= stop'.
Proof.
  intros (_ & _ & HG) Hs Hh. unfold helper_prev.
  assert (ES : checked_sub start 1 = Z.max 0 (start - 1)). { unfold checked_sub. rewrite Z.gtb_ltb. destruct (Z.ltb_spec 1 start); lia. }
  rewrite ES. set (s := Z.max _ _). assert (HS : 0 <= s) by lia. assert (EQ : s = Z.max 0 (start - 1)) by reflexivity. clearbody s.
  set (d := prev_dist g s dist).
  assert (HD : 0 <= d).
  { unfold d, prev_dist. rewrite max_cached_eq. destruct (HG s) as (_ & _ & _ & G & _).
    assert (0 <= uwrap 64 (2 ^ 20 * 1024 / 8 * g_log g s)) by (unfold uwrap; apply Z.mod_pos_bound; lia). assert (0 <= uwrap 64 (2 ^ 20 * 8 / 8 * g_log g s)) by (unfold uwrap; apply Z.mod_pos_bound; lia). lia. }
  clearbody d. intros E. injection E as <- <- <-. split; auto.
  assert (CS : forall x y, 0 <= x -> 0 <= y -> 0 <= checked_sub x y <= x). { intros x y Hx Hy. unfold checked_sub. rewrite Z.gtb_ltb. destruct (Z.ltb_spec y x); lia. }
  destruct ((hint >=? checked_sub s d) && (hint <=? s)) eqn:C.
  - apply andb_true_iff in C. destruct C as [C1 C2]. apply Z.leb_le in C2. destruct (HG hint) as (G1 & _). pose proof (CS hint (g_gap g hint) ltac:(lia) ltac:(lia)). lia.
  - apply CS; lia.
Qed.

Lemma aget_mid {A} (l1 : list A) x l2 : aget (l1 ++ x :: l2) (zlen l1) = Ok x.
Proof. unfold aget, zlen. rewrite (proj2 (Z.ltb_ge _ _)) by lia. rewrite Nat2Z.id, nth_error_app2, Nat.sub_diag by lia. reflexivity. Qed.
Lemma zlen_pos {A} (x : A) l : (zlen (x :: l) =? 0) = false.
Proof. apply Z.eqb_neq. rewrite zlen_cons. unfold zlen. lia. Qed.
Lemma snoc_split (l : list Z) : l <> [] -> exists l' x, l = l' ++ [x].
Proof. intros H. destruct (exists_last H) as (l' & x & E). eauto. Qed.

Lemma generate_next_rule g it v (Q : iter -> Prop) : genv_ok g -> 0 <= v < 2 ^ 64 -> 0 <= it_hint it < 2 ^ 64 -> gnext it v ->
  (forall it' x l, it_primes it' = x :: l -> it_i it' = 0 -> follows v x -> iinv it' x -> Q it') -> wp (generate_next g it) Q.
Proof.
  intros HG Hv Hh HN HQ. unfold generate_next. set (h := it_hint it) in *.
  apply (loop_rule _ (fun it => gnext it v /\ it_hint it = h) (fun it => 2 * (2 ^ 64 - it_stop it) + match it_gen it with Some _ => 1 | None => 0 end)).
  - assert (K : forall it0 start stop dist p (m : Z), it_hint it0 = h -> 0 <= stop < 2 ^ 64 -> v <= stop -> pgstate p stop (primes_in (v + 1) stop) -> (stop < 2 ^ 64 - 1 -> 2 * (2 ^ 64 - stop) < m) ->
      wp (' (p, l) <- pgen_fill_next g p ;;
          if zlen l =? 0 then Ok (inl (IT (it_i it0) 0 l start stop (it_hint it0) dist None)) else Ok (inr (IT 0 (zlen l - 1) l start stop (it_hint it0) dist (Some p))))
        (fun x : iter + iter => match x with
         | inl s' => (gnext s' v /\ it_hint s' = h) /\ 0 <= 2 * (2 ^ 64 - it_stop s') + match it_gen s' with Some _ => 1 | None => 0 end < m
         | inr r => Q r end)).
    { intros it0 start stop dist p m E0 Hst Hvs HP HM. rewrite E0. apply wp_bind. eapply pgen_fill_next_rule; [exact HG|exact HP|..].
      - intros p' l R' ER Hl _ HP'. destruct l as [|x l]; [congruence|]. rewrite zlen_pos. cbn [wp]. cbn [app] in ER. destruct (primes_in_hd _ _ _ _ ER) as (Px & Hx & Ax).
        assert (HF : follows v x). { left. split; auto. split; [lia|]. intros q Pq Hq. apply Ax; auto. lia. }
        apply (HQ _ x l); [reflexivity|reflexivity|exact HF|]. split; [lia|]. split; [exact Hh|]. right. exists [], l. cbn [it_primes it_i it_last it_gen it_stop].
        split; [reflexivity|]. split; [reflexivity|]. split; [reflexivity|]. change (x :: l ++ R') with ((x :: l) ++ R') in ER. split.
        { apply (consec_app _ R'). rewrite <- ER. apply consec_primes_in. lia. }
        split. { intros y Hy. assert (I : In y (primes_in (v + 1) stop)) by (rewrite ER; apply in_app_iff; now left). apply primes_in_in in I. lia. }
        split; [|intros; exact I]. intros l' y E. unfold gnext. cbn [it_gen it_stop]. rewrite E, <- app_assoc in ER. cbn [app] in ER. destruct (primes_in_cut _ _ _ _ _ ER) as (EC & _).
        split; auto. split; [|rewrite <- EC; exact HP'].
        assert (I : In y (primes_in (v + 1) stop)) by (rewrite ER; apply in_app_iff; right; now left). apply primes_in_in in I. lia.
      - intros p' ER HP'. rewrite Z.geb_leb, umax_val. pose proof (primes_in_nil _ _ ER) as NP. destruct (Z.leb_spec (2 ^ 64 - 1) stop) as [HU|HU].
        + rewrite zlen_pos. cbn [wp].
          assert (HF : follows v (2 ^ 64 - 1)). { right. split; auto. intros q Pq Hq. specialize (NP q Pq). lia. }
          apply (HQ _ (2 ^ 64 - 1) []); [reflexivity|reflexivity|exact HF|]. split; [lia|]. split; [exact Hh|]. right. exists [], []. cbn [it_primes it_i it_last it_gen it_stop].
          split; [reflexivity|]. split; [reflexivity|]. split; [reflexivity|]. split; [apply consec_one|]. split; [intros y [<-|[]]; lia|].
          split; [|intros; exact I]. intros l' y E. assert (EY : y = 2 ^ 64 - 1). { destruct l' as [|? l']; cbn [app] in E; [congruence|]. apply (f_equal (@length Z)) in E. cbn [length] in E. rewrite app_length in E. cbn [length] in E. lia. }
          subst y. unfold gnext. cbn [it_gen it_stop]. split; auto. split; [lia|]. rewrite ER in HP'. rewrite primes_in_none; [exact HP'|]. intros q _ Hq. lia.
        + change (zlen (@nil Z) =? 0) with true. cbn [wp it_gen it_stop it_hint]. split; [|lia]. split; auto. unfold gnext. cbn [it_gen it_stop]. split; auto. split; auto.
          intros q Pq Hq. apply NP; auto. lia. }
    intros it0 ((G1 & G2 & G3) & E0). destruct (it_gen it0) as [p|] eqn:EG.
    + apply K; auto. lia.
    + destruct (helper_next g (it_stop it0) (it_hint it0) (it_dist it0)) as [[start stop] dist] eqn:EH. rewrite E0 in EH.
      destruct (helper_next_rule _ _ _ _ _ _ _ HG G1 Hh EH) as (H1 & H2). apply K; auto; [lia|lia| |lia].
      left. exists start. split; [reflexivity|]. split; [lia|]. split; [lia|].
      apply sorted_ext; [apply primes_in_sorted|apply primes_in_sorted|]. intros y. rewrite !primes_in_in. split; intros (Py & Hy); (split; [exact Py|]).
      * specialize (G3 y Py). lia.
      * assert (y <> 2 ^ 64 - 1) by (intros ->; now apply umax_comp). lia.
  - auto.
  - destruct HN as (G1 & _). destruct (it_gen it); lia.
Qed.

Lemma iter_next_rule g it v (Q : _ -> Prop) : genv_ok g -> iinv it v -> (forall r it', follows v r -> iinv it' r -> Q (r, it')) -> wp (iter_next g it) Q.
Proof.
  intros HG HI HQ. unfold iter_next. pose proof HI as (Hv & Hh & HC). apply wp_bind. destruct (Z.eqb_spec (it_i it) (it_last it)) as [E|E].
  - assert (HN : gnext it v).
    { destruct HC as [(E1 & E2 & E3 & E4 & E5 & E6)|(l1 & l2 & E1 & E2 & E3 & E4 & E5 & E6 & E7)].
      - unfold gnext. rewrite E4, E6. split; auto. split; [lia|]. auto.
      - rewrite E3, E2, E1 in E. rewrite zlen_app, zlen_cons in E. destruct l2 as [|y l2]; [|rewrite zlen_cons in E; unfold zlen in E; lia]. eapply E6; eauto. }
    eapply generate_next_rule; [exact HG|exact Hv|exact Hh|exact HN|]. intros it' x l E1 E2 HF HI'. apply wp_bind. rewrite E1, E2. cbn [wp]. change (aget (x :: l) 0) with (Ok x). cbn [wp]. auto.
  - destruct HC as [(E1 & E2 & _)|(l1 & l2 & E1 & E2 & E3 & E4 & E5 & E6 & E7)]; [congruence|]. cbn [wp it_primes it_i].
    destruct l2 as [|u l2]. { exfalso. apply E. rewrite E3, E2, E1, zlen_app, zlen_cons. unfold zlen. cbn [length]. lia. }
    assert (EM : it_primes it = (l1 ++ [v]) ++ u :: l2) by (rewrite <- app_assoc; exact E1).
    assert (EZ : it_i it + 1 = zlen (l1 ++ [v])) by (rewrite zlen_app, zlen_cons, E2; unfold zlen; cbn [length]; lia).
    apply wp_bind. rewrite EZ. rewrite EM at 1. rewrite aget_mid. cbn [wp]. destruct (E4 l1 v u l2 E1) as [HF _]. apply HQ; auto.
    split; [apply E5; rewrite EM; apply in_app_iff; right; now left|]. split; [exact Hh|]. right. exists (l1 ++ [v]), l2. cbn [it_primes it_i it_last it_gen it_stop it_start]. split; [exact EM|]. split; [reflexivity|]. split; [exact E3|]. split; [exact E4|]. split; [exact E5|]. split; [exact E6|exact E7].
Qed.

Lemma prev_list_facts start stop l : 0 <= start <= stop -> stop < 2 ^ 64 -> l = (if start <=? 2 then [0] else []) ++ primes_in start stop -> l <> [] ->
  consec l /\ (forall x, In x l -> 0 <= x < 2 ^ 64) /\ (forall l' x, l = l' ++ [x] -> x <= stop /\ (forall q, prime q -> x < q -> stop < q) /\ forall v, (forall q, prime q -> (q < v <-> q <= stop)) -> precedes v x) /\
  (forall x l', l = x :: l' -> forall q, prime q -> (q < x <-> q < start)).
Proof.
  intros Hs Hst El Hn. destruct (Z.leb_spec start 2) as [H2|H2]; cbn [app] in El.
  - split; [rewrite El; apply consec_zero; auto|]. split. { intros x Hx. rewrite El in Hx. destruct Hx as [<-|Hx]; [lia|]. apply primes_in_in in Hx. lia. }
    split.
    + intros l' x E. rewrite El in E. destruct l' as [|z l']; cbn [app] in E; injection E as E0 E.
      * subst x. pose proof (primes_in_nil _ _ E) as NP. split; [lia|]. split.
        -- intros q Pq Hq. apply NP; auto. pose proof (prime_ge_2 q Pq). lia.
        -- intros v Hv. right. split; auto. intros q Pq. pose proof (prime_ge_2 q Pq). specialize (NP q Pq ltac:(lia)). specialize (Hv q Pq). lia.
      * destruct (primes_in_last _ _ _ _ E) as (Px & Hx & Ax). split; [lia|]. split.
        -- intros q Pq Hq. pose proof (prime_ge_2 q Pq). destruct (Z.lt_ge_cases stop q); auto. specialize (Ax q Pq). lia.
        -- intros v Hv. left. split; auto. split; [apply (Hv x Px); lia|]. intros q Pq Hq. apply Ax; auto; [now apply Hv|]. pose proof (prime_ge_2 q Pq). lia.
    + intros x l' E q Pq. rewrite El in E. injection E as <- _. pose proof (prime_ge_2 q Pq). lia.
  - split; [rewrite El; apply consec_primes_in; auto|]. split. { intros x Hx. rewrite El in Hx. apply primes_in_in in Hx. lia. }
    split.
    + intros l' x E. rewrite El in E. destruct (primes_in_last _ _ _ _ E) as (Px & Hx & Ax). split; [lia|]. split.
      * intros q Pq Hq. destruct (Z.lt_ge_cases stop q); auto. specialize (Ax q Pq). lia.
      * intros v Hv. left. split; auto. split; [apply (Hv x Px); lia|]. intros q Pq Hq. destruct (Z.lt_ge_cases q start); [lia|]. apply Ax; auto. now apply Hv.
    + intros x l' E q Pq. rewrite El in E. destruct (primes_in_hd _ _ _ _ E) as (Px & Hx & Ax). split; [|lia]. intros Hq. destruct (Z.lt_ge_cases q start); auto. specialize (Ax q Pq). lia.
Qed.

Lemma generate_prev_rule g it v s (Q : iter -> Prop) : genv_ok g -> 0 <= it_hint it < 2 ^ 64 ->
  (match it_gen it with Some _ => aget (it_primes it) 0 | None => Ok (it_start it) end) = Ok s -> 0 <= s < 2 ^ 64 -> (forall q, prime q -> (q < v <-> q < s)) ->
  (forall it' l x, it_primes it' = l ++ [x] -> it_i it' = zlen l -> precedes v x -> iinv it' x -> Q it') -> wp (generate_prev g it) Q.
Proof.
  intros HG Hh ES Hs HS HQ. unfold generate_prev. rewrite ES. cbn [bind]. apply wp_bind.
  apply (loop_rule _ (fun '((start, stop, dist, l) : Z * Z * Z * list Z) =>
     (l = [] /\ 0 <= start < 2 ^ 64 /\ forall q, prime q -> (q < v <-> q < start)) \/
     (l <> [] /\ 0 <= start <= stop /\ stop < 2 ^ 64 /\ l = (if start <=? 2 then [0] else []) ++ primes_in start stop /\ forall q, prime q -> (q < v <-> q <= stop)))
     (fun '((start, stop, dist, l) : Z * Z * Z * list Z) => if zlen l =? 0 then start + 1 else 0)).
  - intros [[[start stop] dist] l] HI. destruct HI as [(-> & H1 & H2)|(H1 & H2 & H3 & H4 & H5)].
    + change (zlen (@nil Z) =? 0) with true. cbv beta iota. destruct (helper_prev g start (it_hint it) dist) as [[start' stop'] dist'] eqn:EH.
      destruct (helper_prev_rule _ _ _ _ _ _ _ HG H1 Hh EH) as (K1 & K2). apply wp_bind.
      eapply (pgen_fill_prev_rule g (pgen0 start' stop') stop' (primes_in start' stop')); [exact HG| | |].
      * left. exists start'. split; auto. split; auto. split; [lia|auto].
      * cbn. unfold umax. lia.
      * cbn [wp app]. set (l := (if start' <=? 2 then [0] else []) ++ primes_in start' stop').
        assert (HV : forall q, prime q -> (q < v <-> q <= stop')). { intros q Pq. pose proof (prime_ge_2 q Pq). rewrite (H2 q Pq). lia. }
        destruct l as [|x l'] eqn:EL.
        -- change (zlen (@nil Z) =? 0) with true. cbv beta iota. unfold l in EL. destruct (Z.leb_spec start' 2) as [|H3]; [discriminate|]. cbn [app] in EL. split; [|lia]. left.
           split; auto. split; [lia|]. intros q Pq. rewrite (HV q Pq). pose proof (primes_in_nil _ _ EL q Pq). lia.
        -- rewrite zlen_pos. split; [|lia]. right. split; [discriminate|]. split; auto. split; [lia|]. split; auto.
    + destruct l as [|x l']; [congruence|]. rewrite zlen_pos. cbn [wp]. set (l := x :: l') in *. destruct (prev_list_facts _ _ _ H2 H3 H4 H1) as (F1 & F2 & F3 & F4).
      destruct (snoc_split l H1) as (m & y & EM). destruct (F3 _ _ EM) as (Y1 & Y2 & Y3). apply (HQ _ m y).
      * cbn [it_primes]. exact EM.
      * cbn [it_i]. rewrite EM, zlen_app, zlen_cons. unfold zlen. cbn [length]. lia.
      * now apply Y3.
      * split; [apply F2; rewrite EM; apply in_app_iff; right; now left|]. split; [exact Hh|]. right. exists m, []. cbn [it_primes it_i it_last it_gen it_stop it_start].
        split; auto. split; [rewrite EM, zlen_app, zlen_cons; unfold zlen; cbn [length]; lia|]. split; auto. split; auto. split; auto. split.
        -- intros m' z E. destruct (F3 _ _ E) as (Z1 & Z2 & Z3). unfold gnext. cbn [it_gen it_stop]. split; [lia|]. auto.
        -- intros z m' E. unfold gprev. cbn [it_gen it_start]. split; [lia|]. eapply F4; eauto.
  - left. auto.
  - change (zlen (@nil Z) =? 0) with true. cbv beta iota. lia.
Qed.

Lemma iter_prev_rule g it v (Q : _ -> Prop) : genv_ok g -> iinv it v -> (forall r it', precedes v r -> iinv it' r -> Q (r, it')) -> wp (iter_prev g it) Q.
Proof.
  intros HG HI HQ. unfold iter_prev. pose proof HI as (Hv & Hh & HC). apply wp_bind. destruct (Z.eqb_spec (it_i it) 0) as [E|E].
  - assert (HN : exists s, (match it_gen it with Some _ => aget (it_primes it) 0 | None => Ok (it_start it) end) = Ok s /\ 0 <= s < 2 ^ 64 /\ (forall q, prime q -> (q < v <-> q < s))).
    { destruct HC as [(E1 & E2 & E3 & E4 & E5 & E6)|(l1 & l2 & E1 & E2 & E3 & E4 & E5 & E6 & E7)].
      - exists v. rewrite E4, E5. split; auto. split; auto. tauto.
      - rewrite E2 in E. destruct l1 as [|y l1]; [|rewrite zlen_cons in E; unfold zlen in E; lia]. cbn [app] in E1. specialize (E7 _ _ E1). unfold gprev in E7. destruct (it_gen it).
        + exists v. rewrite E1. split; [reflexivity|]. split; auto. tauto.
        + exists (it_start it). split; auto. }
    destruct HN as (s & S1 & S2 & S3). eapply generate_prev_rule; [exact HG|exact Hh|exact S1|exact S2|exact S3|]. intros it' l x E1 E2 HF HI'. apply wp_bind. rewrite E1, E2. rewrite aget_mid. cbn [wp]. auto.
  - destruct HC as [(E1 & _)|(l1 & l2 & E1 & E2 & E3 & E4 & E5 & E6 & E7)]; [congruence|]. cbn [wp it_primes it_i].
    assert (HN : l1 <> []) by (intros ->; apply E; rewrite E2; reflexivity). destruct (snoc_split l1 HN) as (m & u & EM). rewrite EM, <- app_assoc in E1. cbn [app] in E1.
    assert (EZ : it_i it - 1 = zlen m) by (rewrite E2, EM, zlen_app, zlen_cons; unfold zlen; cbn [length]; lia).
    apply wp_bind. rewrite EZ. rewrite E1 at 1. rewrite aget_mid. cbn [wp]. destruct (E4 m u v l2 E1) as [_ HF]. apply HQ; auto.
    split; [apply E5; rewrite E1; apply in_app_iff; right; now left|]. split; [exact Hh|]. right. exists m, (v :: l2). cbn [it_primes it_i it_last it_gen it_stop it_start]. split; [exact E1|]. split; [reflexivity|]. split; [exact E3|]. split; [exact E4|]. split; [exact E5|]. split; [exact E6|exact E7].
Qed.

Lemma iinv_new start hint : 0 <= start < 2 ^ 64 -> 0 <= hint < 2 ^ 64 -> iinv (iter_new start hint) start.
Proof. intros H1 H2. split; auto. split; auto. left. repeat split. Qed.

Theorem iter_correct g start hint l : genv_ok g -> 0 <= start < 2 ^ 64 -> 0 <= hint < 2 ^ 64 -> exists rs, iter_calls g l (iter_new start hint) = Ok rs /\ moves start l rs.
Proof.
  intros HG Hs Hh. pose proof (iinv_new start hint Hs Hh) as HI. revert HI. generalize (iter_new start hint) as it. clear Hs. generalize start as v.
  induction l as [|b l IH]; intros v it HI; [exists []; split; [reflexivity|constructor]|]. cbn [iter_calls].
  assert (W : wp (if b then iter_next g it else iter_prev g it) (fun '(r, it') => (if b then follows v r else precedes v r) /\ iinv it' r)).
  { destruct b; [eapply iter_next_rule|eapply iter_prev_rule]; eauto. }
  destruct (if b then iter_next g it else iter_prev g it) as [[r it']|e]; [|destruct W]. cbn [wp] in W. destruct W as [W1 W2]. cbn [bind].
  destruct (IH r it' W2) as (rs & E & M). rewrite E. cbn [bind]. exists (r :: rs). split; auto. destruct b; constructor; auto.
Qed.
