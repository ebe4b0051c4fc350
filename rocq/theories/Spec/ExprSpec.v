(** Specification of the arithmetic expressions accepted by primesum: a grammar
    (trees and their texts) and the value of a tree.  Independent of the parser. *)
From Coq Require Import ZArith List Bool Ascii Lia.
Import ListNotations.
Open Scope Z_scope.

Inductive binop := Or | And | Shl | Shr | Add | Sub | Mul | Div | Mod | Pow | Sci.
Inductive unop := UPlus | UMinus | UNot.
Inductive tree :=
| Num (z : Z)
| Un (u : unop) (t : tree)
| Par (t : tree)
| Bin (o : binop) (l r : tree).

(** Documented precedence and associativity. *)
Definition prec (o : binop) : Z :=
  match o with
  | Or => 4 | And => 6 | Shl | Shr => 9 | Add | Sub => 10
  | Mul | Div | Mod => 20 | Pow => 30 | Sci => 40
  end.
Definition rassoc (o : binop) : bool := match o with Pow | Sci => true | _ => false end.

(** ** Values *)
Inductive outcome := Value (z : Z) | DivByZero | Undefined.
(** The result must be representable in 128 bits. *)
Definition repr (z : Z) : outcome :=
  if (- 2 ^ 127 <=? z) && (z <? 2 ^ 127) then Value z else Undefined.
Definition andthen (a : outcome) (k : Z -> outcome) : outcome :=
  match a with Value z => k z | e => e end.

(** A negative exponent counts as 0 (x ** -n = 1). *)
Definition apply (o : binop) (a b : Z) : outcome :=
  match o with
  | Or => Value (Z.lor a b)
  | And => Value (Z.land a b)
  | Shl => if (0 <=? b) && (b <? 128) && (0 <=? a) then repr (a * 2 ^ b) else Undefined
  | Shr => if (0 <=? b) && (b <? 128) then Value (a / 2 ^ b) else Undefined
  | Add => repr (a + b)
  | Sub => repr (a - b)
  | Mul => repr (a * b)
  | Div => if b =? 0 then DivByZero else repr (Z.quot a b)
  | Mod => if b =? 0 then DivByZero
           else andthen (repr (Z.quot a b)) (fun _ => Value (Z.rem a b))
  | Pow => repr (a ^ Z.max 0 b)
  | Sci => andthen (repr (10 ^ Z.max 0 b)) (fun p => repr (a * p))
  end.
Definition unapply (u : unop) (a : Z) : outcome :=
  match u with UPlus => Value a | UMinus => repr (- a) | UNot => Value (- a - 1) end.

(** Operands are evaluated left to right. *)
Fixpoint value (t : tree) : outcome :=
  match t with
  | Num z => repr z
  | Un u t => andthen (value t) (unapply u)
  | Par t => value t
  | Bin o l r => andthen (value l) (fun a => andthen (value r) (fun b => apply o a b))
  end.

(** ** Texts *)
Definition code (c : ascii) : Z := Z.of_N (N_of_ascii c).
Definition space (c : ascii) : Prop := code c = 32 \/ 9 <= code c <= 13.
(** Value of a digit character, base 10 or 16. *)
Definition hexval (c : ascii) : option Z :=
  let n := code c in
  if (48 <=? n) && (n <=? 57) then Some (n - 48)
  else if (97 <=? n) && (n <=? 102) then Some (n - 87)
  else if (65 <=? n) && (n <=? 70) then Some (n - 55)
  else None.
Definition digit (base : Z) (c : ascii) : Prop := exists d, hexval c = Some d /\ d < base.
Fixpoint positional (base acc : Z) (s : list ascii) : Z :=
  match s with
  | [] => acc
  | c :: t => positional base (acc * base + match hexval c with Some d => d | None => 0 end) t
  end.
Definition starts (P : ascii -> Prop) (s : list ascii) : Prop :=
  match s with [] => False | c :: _ => P c end.
Definition is_x (c : ascii) : Prop := c = "x"%char \/ c = "X"%char.
(** s begins with a hexadecimal literal. *)
Definition hex_start (s : list ascii) : Prop :=
  exists x h t, s = "0"%char :: x :: h :: t /\ is_x x /\ digit 16 h.

Definition uchar (u : unop) : ascii :=
  match u with UPlus => "+" | UMinus => "-" | UNot => "~" end%char.

(** [OpText o s r]: s is an operator sign for o followed by r ("**" is one sign). *)
Inductive OpText : binop -> list ascii -> list ascii -> Prop :=
| OT_or r : OpText Or ("|"%char :: r) r
| OT_and r : OpText And ("&"%char :: r) r
| OT_shl r : OpText Shl ("<"%char :: "<"%char :: r) r
| OT_shr r : OpText Shr (">"%char :: ">"%char :: r) r
| OT_add r : OpText Add ("+"%char :: r) r
| OT_sub r : OpText Sub ("-"%char :: r) r
| OT_mul r : ~ starts (eq "*"%char) r -> OpText Mul ("*"%char :: r) r
| OT_div r : OpText Div ("/"%char :: r) r
| OT_mod r : OpText Mod ("%"%char :: r) r
| OT_pow r : OpText Pow ("*"%char :: "*"%char :: r) r
| OT_pow' r : OpText Pow ("^"%char :: r) r
| OT_sci r : OpText Sci ("e"%char :: r) r
| OT_sci' r : OpText Sci ("E"%char :: r) r.

(** Precedence of the outermost operation; everything else binds tighter. *)
Definition level (t : tree) : Z := match t with Bin o _ _ => prec o | _ => 100 end.
Definition left_ok (o : binop) (l : tree) : Prop :=
  if rassoc o then prec o < level l else prec o <= level l.
Definition right_ok (o : binop) (r : tree) : Prop :=
  if rassoc o then prec o <= level r else prec o < level r.

(** [ValueText t s r] / [ExprText t s r]: the text s is a text of t followed by r. *)
Inductive ValueText : tree -> list ascii -> list ascii -> Prop :=
| VT_space c t s r : space c -> ValueText t s r -> ValueText t (c :: s) r
| VT_dec ds r : ds <> [] -> Forall (digit 10) ds -> ~ starts (digit 10) r ->
    ~ hex_start (ds ++ r) -> ValueText (Num (positional 10 0 ds)) (ds ++ r) r
| VT_hex x ds r : is_x x -> ds <> [] -> Forall (digit 16) ds -> ~ starts (digit 16) r ->
    ValueText (Num (positional 16 0 ds)) ("0"%char :: x :: ds ++ r) r
| VT_par t s sp r : ExprText t s (sp ++ ")"%char :: r) -> Forall space sp ->
    ValueText (Par t) ("("%char :: s) r
| VT_un u t s r : ValueText t s r -> ValueText (Un u t) (uchar u :: s) r
with ExprText : tree -> list ascii -> list ascii -> Prop :=
| ET_val t s r : ValueText t s r -> ExprText t s r
| ET_bin o l r s sp s1 s2 s3 : ExprText l s (sp ++ s1) -> Forall space sp -> OpText o s1 s2 ->
    ExprText r s2 s3 -> left_ok o l -> right_ok o r -> ExprText (Bin o l r) s s3.

(** The whole text s is an expression with tree t. *)
Definition Expression (t : tree) (s : list ascii) : Prop :=
  exists sp, ExprText t s sp /\ Forall space sp.
Definition well_formed (s : list ascii) : Prop := exists t, Expression t s.

(** The value over unbounded integers; None after a division by zero or a
    shift by a negative amount. *)
Definition exact_apply (o : binop) (a b : Z) : option Z :=
  match o with
  | Or => Some (Z.lor a b)
  | And => Some (Z.land a b)
  | Shl => if 0 <=? b then Some (a * 2 ^ b) else None
  | Shr => if 0 <=? b then Some (a / 2 ^ b) else None
  | Add => Some (a + b)
  | Sub => Some (a - b)
  | Mul => Some (a * b)
  | Div => if b =? 0 then None else Some (Z.quot a b)
  | Mod => if b =? 0 then None else Some (Z.rem a b)
  | Pow => Some (a ^ Z.max 0 b)
  | Sci => Some (a * 10 ^ Z.max 0 b)
  end.
Fixpoint exact (t : tree) : option Z :=
  match t with
  | Num z => Some z
  | Un UPlus t => exact t
  | Un UMinus t => option_map Z.opp (exact t)
  | Un UNot t => option_map (fun z => - z - 1) (exact t)
  | Par t => exact t
  | Bin o l r => match exact l, exact r with Some a, Some b => exact_apply o a b | _, _ => None end
  end.

(** Some division or remainder in t has a divisor whose value is zero. *)
Inductive zero_division : tree -> Prop :=
| ZD_div l r : exact r = Some 0 -> zero_division (Bin Div l r)
| ZD_mod l r : exact r = Some 0 -> zero_division (Bin Mod l r)
| ZD_un u t : zero_division t -> zero_division (Un u t)
| ZD_par t : zero_division t -> zero_division (Par t)
| ZD_left o l r : zero_division l -> zero_division (Bin o l r)
| ZD_right o l r : zero_division r -> zero_division (Bin o l r).
