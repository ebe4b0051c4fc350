(** Model of include/calculator.hpp: calculator::eval<int128_t>.
    The parser state is the part of expr_ from index_ on, and stack_.
    Error messages are not modelled: every calculator::error is [Fail Throw].
    Signed 128-bit overflow and invalid shifts are [Fail UB]. *)
From Coq Require Import ZArith List Bool Ascii Lia.
From Verif.Base Require Import Res Word.
Import ListNotations.
Open Scope Z_scope.

(** include/calculator.hpp:128-143 — the operators *)
Inductive cop := ONull | OOr | OXor | OAnd | OShl | OShr | OAdd | OSub | OMul | ODiv | OMod | OPow | OExp.
(** include/calculator.hpp:145-157 — struct Operator *)
Record operator := mkOp { op : cop; precedence : Z; right_assoc : bool }.

(** include/calculator.hpp:186-205 — pow, at int128_t *)
Definition cpow (x n : Z) : res Z :=
  loop (fun st : Z * Z * Z =>
          let '(x, n, r) := st in
          if n >? 0 then
            '(r', n') <- (if negb (Z.rem n 2 =? 0)
                          then r' <- schk 128 (r * x) ;; Ok (r', n - 1)
                          else Ok (r, n)) ;;
            let n2 := Z.quot n' 2 in
            x' <- (if n2 >? 0 then schk 128 (x * x) else Ok x) ;;
            Ok (inl (x', n2, r'))
          else Ok (inr r))
       (x, n, 1).

(** include/calculator.hpp:207-222 — checkZero *)
Definition checkZero (v : Z) : res Z := if v =? 0 then Fail Throw else Ok v.

(** include/calculator.hpp:224-242 — v1 << v2 (C++11 rule: representable in int128_t or undefined) *)
Definition cshl (v1 v2 : Z) : res Z :=
  if (0 <=? v2) && (v2 <? 128) && (0 <=? v1) then schk 128 (Z.shiftl v1 v2) else Fail UB.
(** include/calculator.hpp:224-242 — v1 >> v2 (arithmetic shift) *)
Definition cshr (v1 v2 : Z) : res Z :=
  if (0 <=? v2) && (v2 <? 128) then Ok (Z.shiftr v1 v2) else Fail UB.

(** include/calculator.hpp:224-242 — calculate *)
Definition calculate (v1 v2 : Z) (o : cop) : res Z :=
  match o with
  | OOr => Ok (Z.lor v1 v2)
  | OXor => Ok (Z.lxor v1 v2)
  | OAnd => Ok (Z.land v1 v2)
  | OShl => cshl v1 v2
  | OShr => cshr v1 v2
  | OAdd => schk 128 (v1 + v2)
  | OSub => schk 128 (v1 - v2)
  | OMul => schk 128 (v1 * v2)
  | ODiv => d <- checkZero v2 ;; schk 128 (Z.quot v1 d)
  | OMod => d <- checkZero v2 ;;
            schk 128 (Z.quot v1 d) ;;; Ok (Z.rem v1 d)
  | OPow => cpow v1 v2
  | OExp => p <- cpow 10 v2 ;; schk 128 (v1 * p)
  | ONull => Ok 0
  end.

(** include/calculator.hpp:249-257 — getCharacter: 0 at the end *)
Definition getCharacter (s : list ascii) : ascii :=
  match s with [] => "000"%char | c :: _ => c end.

(** include/calculator.hpp:284 — std::isspace in the "C" locale *)
Definition isspace (c : ascii) : bool :=
  let n := N_of_ascii c in (N.eqb n 32 || (N.leb 9 n && N.leb n 13))%bool.

(** include/calculator.hpp:279-286 — eatSpaces *)
Fixpoint eatSpaces (s : list ascii) : list ascii :=
  match s with
  | c :: t => if isspace c then eatSpaces t else s
  | [] => []
  end.

(** include/calculator.hpp:259-267 — expect, for a two-character operator *)
Definition expect2 (c : ascii) (o : operator) (s : list ascii) : res (operator * list ascii) :=
  match s with
  | a :: b :: t => if Ascii.eqb a c && Ascii.eqb b c then Ok (o, t) else Fail Throw
  | _ => Fail Throw
  end.

(** include/calculator.hpp:288-312 — parseOp *)
Definition parseOp (s0 : list ascii) : res (operator * list ascii) :=
  let s := eatSpaces s0 in
  match s with
  | "|"%char :: t => Ok (mkOp OOr 4 false, t)
  | "&"%char :: t => Ok (mkOp OAnd 6 false, t)
  | "<"%char :: _ => expect2 "<" (mkOp OShl 9 false) s
  | ">"%char :: _ => expect2 ">" (mkOp OShr 9 false) s
  | "+"%char :: t => Ok (mkOp OAdd 10 false, t)
  | "-"%char :: t => Ok (mkOp OSub 10 false, t)
  | "/"%char :: t => Ok (mkOp ODiv 20 false, t)
  | "%"%char :: t => Ok (mkOp OMod 20 false, t)
  | "*"%char :: t =>
      match t with
      | "*"%char :: t' => Ok (mkOp OPow 30 true, t')
      | _ => Ok (mkOp OMul 20 false, t)
      end
  | "^"%char :: t => Ok (mkOp OPow 30 true, t)
  | "e"%char :: t => Ok (mkOp OExp 40 true, t)
  | "E"%char :: t => Ok (mkOp OExp 40 true, t)
  | _ => Ok (mkOp ONull 0 false, s)
  end.

(** include/calculator.hpp:314-321 — toInteger *)
Definition toInteger (c : ascii) : Z :=
  let n := Z.of_N (N_of_ascii c) in
  if (48 <=? n) && (n <=? 57) then n - 48
  else if (97 <=? n) && (n <=? 102) then n - 97 + 10
  else if (65 <=? n) && (n <=? 70) then n - 65 + 10
  else 16.

(** include/calculator.hpp:328-334 (base 10) and 336-343 (base 16) — the digit
    loops; the end of the text reads as character 0, which is no digit *)
Fixpoint parseDigits (base value : Z) (s : list ascii) : res (Z * list ascii) :=
  match s with
  | [] => Ok (value, [])
  | c :: t =>
      let d := toInteger c in
      if d <=? base - 1 then
        v1 <- schk 128 (value * base) ;;
        v2 <- schk 128 (v1 + d) ;;
        parseDigits base v2 t
      else Ok (value, s)
  end.
(** include/calculator.hpp:328-334 — parseDecimal *)
Definition parseDecimal (s : list ascii) := parseDigits 10 0 s.
(** include/calculator.hpp:336-343 — parseHex, which skips the two characters 0x *)
Definition parseHex (s : list ascii) := parseDigits 16 0 (tl (tl s)).

(** include/calculator.hpp:345-354 — isHex *)
Definition isHex (s : list ascii) : bool :=
  match s with
  | _ :: x :: h :: _ => (Ascii.eqb x "x" || Ascii.eqb x "X") && (toInteger h <=? 15)
  | _ => false
  end.

(** include/calculator.hpp:159-184 — stack_ of OperatorValue *)
Definition cstack := list (operator * Z).

(** include/calculator.hpp:410-412 — one step test of the reduce loop *)
Definition reduces (o top : operator) : bool :=
  (precedence o <? precedence top) ||
  ((precedence o =? precedence top) && negb (right_assoc o)).

(** include/calculator.hpp:171-174 — isNull *)
Definition is_null (o : operator) : bool := match op o with ONull => true | _ => false end.

(** include/calculator.hpp:410-423 — the reduce loop.  [inl (value, stack)]: return
    value; [inr (value, stack)]: leave the loop and shift.  top() of an empty
    stack is undefined. *)
Fixpoint reduce (o : operator) (value : Z) (st : cstack) : res ((Z * cstack) + (Z * cstack)) :=
  match st with
  | [] => Fail UB
  | (top, v) :: st' =>
      if reduces o top then
        if is_null top then Ok (inl (value, st'))
        else
          value' <- calculate v value (op top) ;;
          reduce o value' st'
      else Ok (inr (value, st))
  end.

(** include/calculator.hpp:356-394 — parseValue,
    include/calculator.hpp:396-431 — parseExpr and its loop.
    [n] is fuel for the recursion (depth of calls and loop iterations). *)
Fixpoint parseValue (n : nat) (s0 : list ascii) (st : cstack) : res (Z * list ascii * cstack) :=
  match n with
  | O => Fail Fuel
  | S n =>
      let s := eatSpaces s0 in
      match s with
      | [] => Fail Throw
      | c :: t =>
          if Ascii.eqb c "0" then
            '(v, r) <- (if isHex s then parseHex s else parseDecimal s) ;; Ok (v, r, st)
          else if toInteger c <=? 9 then
            '(v, r) <- parseDecimal s ;; Ok (v, r, st)
          else if Ascii.eqb c "(" then
            '(v, r, st') <- parseExpr n t st ;;
            match eatSpaces r with
            | ")"%char :: r' => Ok (v, r', st')
            | _ => Fail Throw
            end
          else if Ascii.eqb c "~" then
            '(v, r, st') <- parseValue n t st ;; Ok (- v - 1, r, st')
          else if Ascii.eqb c "+" then parseValue n t st
          else if Ascii.eqb c "-" then
            '(v, r, st') <- parseValue n t st ;;
            v' <- schk 128 (v * -1) ;; Ok (v', r, st')
          else Fail Throw
      end
  end
with parseExpr (n : nat) (s : list ascii) (st : cstack) : res (Z * list ascii * cstack) :=
  match n with
  | O => Fail Fuel
  | S n =>
      '(v, r, st') <- parseValue n s ((mkOp ONull 0 false, 0) :: st) ;;
      exprLoop n v r st'
  end
with exprLoop (n : nat) (value : Z) (s : list ascii) (st : cstack) : res (Z * list ascii * cstack) :=
  match n with
  | O => Fail Fuel
  | S n =>
      match st with
      | [] => Ok (0, s, [])
      | _ =>
        '(o, r) <- parseOp s ;;
        x <- reduce o value st ;;
        match x with
        | inl (v, st') => Ok (v, r, st')
        | inr (v, st') =>
            '(v', r', st'') <- parseValue n r ((o, v) :: st') ;;
            exprLoop n v' r' st''
        end
      end
  end.

(** include/calculator.hpp:97-118 — ExpressionParser::eval *)
Definition eval (s : list ascii) : res Z :=
  '(v, r, _) <- parseExpr (2 * length s + 3) s [] ;;
  match r with [] => Ok v | _ => Fail Throw end.

(** src/primesum.cpp:268-272 — to_int128 *)
Definition to_int128 (s : list ascii) : res Z := eval s.
