(** C24-C27: the expression evaluator.  Statements only. *)
From Coq Require Import ZArith List Bool Ascii String Lia.
From Verif.Base Require Import Res Word.
From Verif.Spec Require Import ExprSpec.
From Verif.Model Require Import Calculator.
From Verif.Proofs Require Import Calculator CalcCorrect.
Import ListNotations.
Open Scope Z_scope.

Definition txt := list_ascii_of_string.

(** *** C24: the evaluator returns v exactly for the texts of the trees of value v *)
Theorem C24_eval : forall s v,
  eval s = Ok v <-> exists t, Expression t s /\ value t = Value v.
Proof. exact eval_value_iff. Qed.
(** The grammar does not leave the value open: every tree of the text gives it. *)
Theorem C24_every_tree : forall t s v,
  Expression t s -> value t = Value v -> eval s = Ok v.
Proof. intros t s v H E. apply eval_value_iff. exists t. auto. Qed.
(** A value is the exact one over unbounded integers. *)
Theorem C24_exact : forall s v t, eval s = Ok v -> Expression t s ->
  exact t = Some v /\ - 2 ^ 127 <= v < 2 ^ 127.
Proof. exact eval_exact. Qed.
Example C24_witness : exists t, Expression t (txt " 2+3 * -(4-1)") /\ value t = Value (-7).
Proof.
  exists (Bin Add (Num 2) (Bin Mul (Num 3) (Un UMinus (Par (Bin Sub (Num 4) (Num 1)))))).
  split; [|reflexivity]. exists []. split; [|constructor].
  assert (D : forall c r z, digit 10 c -> ~ starts (digit 10) r -> ~ hex_start (c :: r) ->
     z = positional 10 0 [c] -> ValueText (Num z) (c :: r) r).
  { intros c r z H1 H2 H3 ->. apply (VT_dec [c]); auto. discriminate. }
  assert (N : forall c, hexval c = None -> ~ digit 10 c).
  { intros c H (d & E & _). congruence. }
  assert (X : forall c r, c <> "0"%char -> ~ hex_start (c :: r)).
  { intros c r H (x & h & t & E & _). congruence. }
  eapply (ET_bin Add _ _ _ []); [|constructor|constructor| |vm_compute; discriminate|vm_compute; reflexivity].
  { apply ET_val. apply VT_space; [left; reflexivity|]. apply D; [exists 2; split; [reflexivity|lia]| |apply X; discriminate|reflexivity].
    apply N. reflexivity. }
  eapply (ET_bin Mul _ _ _ [" "%char]); [| |constructor| |vm_compute; discriminate|vm_compute; reflexivity].
  { apply ET_val. apply D; [exists 3; split; [reflexivity|lia]| |apply X; discriminate|reflexivity].
    apply N. reflexivity. }
  { constructor; [left; reflexivity|constructor]. }
  { simpl. discriminate. }
  apply ET_val. apply VT_space; [left; reflexivity|]. apply (VT_un UMinus). eapply (VT_par _ _ []); [|constructor].
  eapply (ET_bin Sub _ _ _ []); [|constructor|constructor| |vm_compute; discriminate|vm_compute; reflexivity].
  { apply ET_val. apply D; [exists 4; split; [reflexivity|lia]| |apply X; discriminate|reflexivity].
    apply N. reflexivity. }
  apply ET_val. apply D; [exists 1; split; [reflexivity|lia]| |apply X; discriminate|reflexivity].
  apply N. reflexivity.
Qed.
Example C24_runs :
  eval (txt "2**3**2") = Ok 512 /\ eval (txt "-3^2") = Ok 9 /\ eval (txt "10-4-3") = Ok 3 /\
  eval (txt "1e10 + 0xFf%16<<1 | 1") = Ok 20000000031 /\ eval (txt "( 7 )") = Ok 7.
Proof. repeat split; vm_compute; reflexivity. Qed.

(** *** C25: every text gives a value, an error, or 128-bit overflow; a text that
    is no expression never gives a value, and the evaluator terminates on it. *)
Theorem C25_malformed : forall s, ~ well_formed s -> eval s = Fail Throw \/ eval s = Fail UB.
Proof. exact eval_malformed. Qed.
Theorem C25_terminates : forall s, (exists v, eval s = Ok v) \/ eval s = Fail Throw \/ eval s = Fail UB.
Proof. exact eval_cases. Qed.
(** No value from a prefix: the tree spans the whole text. *)
Theorem C25_whole_text : forall s v, eval s = Ok v -> well_formed s.
Proof. intros s v E. apply eval_sound in E. destruct E as (t & H & _). exists t. exact H. Qed.
Example C25_witness : eval (txt "") = Fail Throw /\ eval (txt "1 2") = Fail Throw /\ eval (txt "(1") = Fail Throw /\
  eval (txt "1+") = Fail Throw /\ eval (txt "1<2") = Fail Throw /\ eval (txt "0x") = Fail Throw /\ eval (txt "1)") = Fail Throw.
Proof. repeat split; vm_compute; reflexivity. Qed.
Example C25_witness_malformed : ~ well_formed (txt "") /\ ~ well_formed (txt " ").
Proof. exact malformed_blank. Qed.

(** *** C26 *)
Theorem C26_division_by_zero : forall t s, Expression t s -> value t = DivByZero -> eval s = Fail Throw.
Proof. exact eval_divzero. Qed.
Theorem C26_never_a_value : forall t s v, Expression t s -> zero_division t -> eval s <> Ok v.
Proof. exact eval_zero_division. Qed.
Example C26_witness : eval (txt "5 % (3-3)") = Fail Throw /\ eval (txt "1/0") = Fail Throw /\ 
  zero_division (Bin Mod (Num 5) (Par (Bin Sub (Num 3) (Num 3)))) /\ value (Bin Div (Num 1) (Num 0)) = DivByZero.
Proof. split; [|split; [|split]]; try (vm_compute; reflexivity). constructor. reflexivity. Qed.

(** *** C27: full statement: an expression whose value does not fit is an error.
    Overflow is undefined behaviour in the source. *)
Theorem C27_refuted : exists s t, Expression t s /\ exact t = Some (2 ^ 127) /\ eval s <> Fail Throw.
Proof.
  exists (txt "2^127"), (Bin Pow (Num 2) (Num 127)). split; [|split; [reflexivity|]].
  - exists []. split; [|constructor].
    eapply (ET_bin Pow _ _ _ []); [|constructor|apply OT_pow'| |vm_compute; reflexivity|vm_compute; discriminate].
    + apply ET_val. apply (VT_dec ["2"%char]); [discriminate| | |].
      * constructor; [|constructor]. exists 2. split; [reflexivity|lia].
      * simpl. intros (d & E & _). discriminate.
      * intros (x & h & t & E & _). discriminate.
    + apply ET_val. apply (VT_dec (txt "127") []); [discriminate| | |].
      * constructor; [exists 1; split; [reflexivity|lia]|constructor; [exists 2; split; [reflexivity|lia]|constructor; [exists 7; split; [reflexivity|lia]|constructor]]].
      * simpl. auto.
      * intros (x & h & t & E & _). discriminate.
  - vm_compute. discriminate.
Qed.
(** What holds: a returned value is exact; overflow is the undefined outcome. *)
Theorem C27_exact_partial : forall s v t, eval s = Ok v -> Expression t s -> exact t = Some v.
Proof. intros s v t E H. apply (eval_exact s v t E H). Qed.
Theorem C27_overflow_undefined : forall s t, Expression t s -> value t = Undefined -> eval s = Fail UB.
Proof. exact eval_overflow. Qed.
Example C27_witness : eval (txt "2^127-1") = Fail UB /\ eval (txt "2^126-1+2^126") = Ok (2 ^ 127 - 1) /\
  eval (txt "170141183460469231731687303715884105728") = Fail UB.
Proof. repeat split; vm_compute; reflexivity. Qed.

Print Assumptions C24_eval.
Print Assumptions C24_every_tree.
Print Assumptions C24_exact.
Print Assumptions C25_malformed.
Print Assumptions C25_terminates.
Print Assumptions C25_whole_text.
Print Assumptions C26_division_by_zero.
Print Assumptions C26_never_a_value.
Print Assumptions C27_refuted.
Print Assumptions C27_exact_partial.
Print Assumptions C27_overflow_undefined.
