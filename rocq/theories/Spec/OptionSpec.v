(** Specification of the command line: spellings of the options, how an argument is read,
    and what a whole command line asks for.  Independent of the parser. *)
From Coq Require Import ZArith List Bool Ascii String.
From Verif.Spec Require Import ExprSpec.
From Verif.Model Require Import Options.
Import ListNotations.
Open Scope Z_scope.

(** The documented spellings (the enumeration of options is that of the program). *)
Definition spellings (o : opt) : list string :=
  match o with
  | OPTION_ALPHA => ["-a"; "--alpha"]
  | OPTION_NUMBER => ["--number"]
  | OPTION_THREADS => ["-t"; "--threads"]
  | OPTION_STATUS => ["-s"; "--status"]
  | OPTION_TIME => ["--time"]
  | OPTION_TEST => ["--test"]
  | OPTION_HELP => ["-h"; "--help"]
  | OPTION_VERSION => ["-v"; "--version"]
  | OPTION_PI => ["--pi"]
  | OPTION_DELEGLISE_RIVAT => ["-d"; "--deleglise_rivat"]
  | OPTION_DELEGLISE_RIVAT_PARALLEL1 => ["--deleglise_rivat_parallel1"]
  | OPTION_LMO => ["-l"; "--lmo"]
  | OPTION_LMO1 => ["--lmo1"]
  | OPTION_LMO2 => ["--lmo2"]
  | OPTION_LMO3 => ["--lmo3"]
  | OPTION_LMO4 => ["--lmo4"]
  | OPTION_LMO5 => ["--lmo5"]
  | OPTION_LMO_PARALLEL1 => ["--lmo_parallel1"]
  | OPTION_P2 => ["--P2"]
  | OPTION_S1 => ["--S1"]
  | OPTION_S2_TRIVIAL => ["--S2_trivial"]
  | OPTION_S2_EASY => ["--S2_easy"]
  | OPTION_S2_HARD => ["--S2_hard"]
  end%string.
Definition spelled (s : list ascii) (o : opt) : Prop := In (string_of_list_ascii s) (spellings o).
Definition unspelled (s : list ascii) : Prop := forall o, ~ spelled s o.

Definition eq_sign : ascii := "="%char.
(** neither '=' nor a digit *)
Definition plain_char (c : ascii) : Prop := c <> eq_sign /\ ~ digit 10 c.
Definition plain (s : list ascii) : Prop := Forall plain_char s.

(** [reads a o v]: the argument a is option o with the value v. *)
Inductive reads : list ascii -> opt -> list ascii -> Prop :=
| R_name a o : spelled a o -> reads a o []                                     (* --time *)
| R_equal n v o : plain n -> spelled n o -> reads (n ++ eq_sign :: v) o v       (* --threads=4 *)
| R_digit n d v o : plain n -> spelled n o -> digit 10 d ->
    unspelled (n ++ d :: v) -> reads (n ++ d :: v) o (d :: v)                   (* -t4, but not --lmo1 *)
| R_number d v : digit 10 d -> reads (d :: v) OPTION_NUMBER (d :: v)            (* 1e13 *)
| R_equal_number c v : reads (eq_sign :: c :: v) OPTION_NUMBER (c :: v).        (* =5, undocumented *)

(** The value of an expression. *)
Definition evaluates (s : list ascii) (n : Z) : Prop := exists t, Expression t s /\ value t = Value n.

Section Spec.
Context {D : Type} (to_double : list ascii -> option D) (hw : Z).

(** What an argument asks for. *)
Inductive word :=
| Alpha (d : D)
| Number (n : Z)
| Threads (n : Z)
| Status (precision : option Z)
| Time
| Algorithm (o : opt).
Definition is_algorithm (o : opt) : bool :=
  match o with
  | OPTION_ALPHA | OPTION_NUMBER | OPTION_THREADS | OPTION_STATUS | OPTION_TIME | OPTION_TEST | OPTION_HELP | OPTION_VERSION => false
  | _ => true
  end.
Inductive asks : list ascii -> word -> Prop :=
| A_alpha a v d : reads a OPTION_ALPHA v -> to_double v = Some d -> asks a (Alpha d)
| A_number a v n : reads a OPTION_NUMBER v -> evaluates v n -> asks a (Number n)
| A_threads a v n : reads a OPTION_THREADS v -> evaluates v n -> asks a (Threads n)
| A_status a : reads a OPTION_STATUS [] -> asks a (Status None)
| A_status_n a c v n : reads a OPTION_STATUS (c :: v) -> evaluates (c :: v) n -> asks a (Status (Some n))
| A_time a v : reads a OPTION_TIME v -> asks a Time
| A_algorithm a o v : is_algorithm o = true -> reads a o v -> asks a (Algorithm o).

(** An argument that must lead to the help text: it is not an option, it asks for help,
    or its value is missing or malformed. *)
Inductive bad : list ascii -> Prop :=
| B_unknown a : (forall o v, ~ reads a o v) -> bad a
| B_help a v : reads a OPTION_HELP v -> bad a
| B_alpha a v : reads a OPTION_ALPHA v -> to_double v = None -> bad a
| B_empty a o : (o = OPTION_NUMBER \/ o = OPTION_THREADS) -> reads a o [] -> bad a
| B_zero_division a o v t : (o = OPTION_NUMBER \/ o = OPTION_THREADS \/ o = OPTION_STATUS) -> v <> [] -> reads a o v ->
    Expression t v -> value t = DivByZero -> bad a.

(** The last of the values selected by f, if there is one. *)
Definition last_of {A} (f : word -> option A) (ws : list word) (dflt : A) : A :=
  fold_left (fun r w => match f w with Some v => v | None => r end) ws dflt.
Definition clamp (lo n hi : Z) : Z := Z.max lo (Z.min n hi).

Definition numbers (ws : list word) : list Z := flat_map (fun w => match w with Number n => [n] | _ => [] end) ws.
Definition asked_threads (ws : list word) : Z :=
  last_of (fun w => match w with Threads n => Some (clamp 1 n hw) | _ => None end) ws 0.
Definition asked_precision (ws : list word) : Z :=
  last_of (fun w => match w with Status (Some n) => Some (clamp 0 n 5) | _ => None end) ws (-1).
Definition asked_alpha (ws : list word) : option D :=
  last_of (fun w => match w with Alpha d => Some (Some d) | _ => None end) ws None.
Definition asked_algorithm (ws : list word) : opt :=
  last_of (fun w => match w with Algorithm o => Some o | _ => None end) ws OPTION_PI.
Definition asked_print (ws : list word) : bool := existsb (fun w => match w with Status _ => true | _ => false end) ws.
Definition asked_time (ws : list word) : bool := existsb (fun w => match w with Status _ | Time => true | _ => false end) ws.

(** The values of --threads and --status fit an int. *)
Definition int_values (ws : list word) : Prop :=
  forall w, In w ws -> match w with Threads n | Status (Some n) => - 2 ^ 31 <= n < 2 ^ 31 | _ => True end.
End Spec.
Arguments word : clear implicits.
