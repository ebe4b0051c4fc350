(** Model of src/app/cmdoptions.cpp (reading the command line) and of int64_cast in
    src/app/main.cpp.  Arguments are lists of characters; the conversion of a decimal
    text to a double (to_double, used for --alpha only) is a parameter, as is the answer of
    omp_get_max_threads(). *)
From Coq Require Import ZArith List Bool Ascii String.
From Verif.Base Require Import Res Word.
From Verif.Model Require Import Calculator Imath.
Import ListNotations.
Open Scope Z_scope.

(** src/app/cmdoptions.hpp:19-44 — enum OptionValues *)
Inductive opt :=
| OPTION_ALPHA | OPTION_DELEGLISE_RIVAT | OPTION_DELEGLISE_RIVAT_PARALLEL1 | OPTION_HELP
| OPTION_LMO | OPTION_LMO1 | OPTION_LMO2 | OPTION_LMO3 | OPTION_LMO4 | OPTION_LMO5 | OPTION_LMO_PARALLEL1
| OPTION_NUMBER | OPTION_P2 | OPTION_PI | OPTION_S1 | OPTION_S2_EASY | OPTION_S2_HARD | OPTION_S2_TRIVIAL
| OPTION_STATUS | OPTION_TEST | OPTION_TIME | OPTION_THREADS | OPTION_VERSION.

(** src/app/cmdoptions.cpp:58-91 — initOptionMap *)
Definition optionMap : list (list ascii * opt) :=
  map (fun e => (list_ascii_of_string (fst e), snd e))
  [("-a", OPTION_ALPHA); ("--alpha", OPTION_ALPHA); ("-d", OPTION_DELEGLISE_RIVAT); ("--deleglise_rivat", OPTION_DELEGLISE_RIVAT);
   ("--deleglise_rivat_parallel1", OPTION_DELEGLISE_RIVAT_PARALLEL1); ("-h", OPTION_HELP); ("--help", OPTION_HELP);
   ("-l", OPTION_LMO); ("--lmo", OPTION_LMO); ("--lmo1", OPTION_LMO1); ("--lmo2", OPTION_LMO2); ("--lmo3", OPTION_LMO3);
   ("--lmo4", OPTION_LMO4); ("--lmo5", OPTION_LMO5); ("--lmo_parallel1", OPTION_LMO_PARALLEL1); ("--number", OPTION_NUMBER);
   ("--P2", OPTION_P2); ("--pi", OPTION_PI); ("--S1", OPTION_S1); ("--S2_easy", OPTION_S2_EASY); ("--S2_hard", OPTION_S2_HARD);
   ("--S2_trivial", OPTION_S2_TRIVIAL); ("-s", OPTION_STATUS); ("--status", OPTION_STATUS); ("--test", OPTION_TEST);
   ("--time", OPTION_TIME); ("-t", OPTION_THREADS); ("--threads", OPTION_THREADS); ("-v", OPTION_VERSION); ("--version", OPTION_VERSION)]%string.

(** src/app/cmdoptions.cpp:58-91 — equality of the keys of std::map<string, ...> *)
Fixpoint text_eqb (a b : list ascii) : bool :=
  match a, b with
  | [], [] => true
  | c :: a', d :: b' => Ascii.eqb c d && text_eqb a' b'
  | _, _ => false
  end.

(** src/app/cmdoptions.cpp:97, 109, 127, 141 — std::map: count and operator[] of a present key *)
Fixpoint find_in (m : list (list ascii * opt)) (s : list ascii) : option opt :=
  match m with
  | [] => None
  | (k, o) :: m' => if text_eqb s k then Some o else find_in m' s
  end.
(** src/app/cmdoptions.cpp:98, 110, 129 — lookup in optionMap *)
Definition lookup (s : list ascii) : option opt := find_in optionMap s.

(** src/app/cmdoptions.cpp:99 — str.find_first_of("=0123456789"): the text before the
    first such character and the rest, if there is one *)
Definition delim (c : ascii) : bool :=
  let n := Z.of_N (N_of_ascii c) in (n =? 61) || ((48 <=? n) && (n <=? 57)).
(** src/app/cmdoptions.cpp:96-106 — the text before the delimiter and the rest *)
Fixpoint split_at (s : list ascii) : option (list ascii * list ascii) :=
  match s with
  | [] => None
  | c :: s' => if delim c then Some ([], s)
               else match split_at s' with Some (a, b) => Some (c :: a, b) | None => None end
  end.

(** src/app/cmdoptions.cpp:93-114 — makeOption: id and value *)
Definition makeOption (str : list ascii) : list ascii * list ascii :=
  let '(id, value) :=
    match (match lookup str with Some _ => None | None => split_at str end) with
    | None => (str, [])
    | Some (a, b) => (a, match b with c :: b' => if Ascii.eqb c "=" then b' else b | [] => b end)
    end in
  let id := match id, value with [], _ :: _ => list_ascii_of_string "--number" | _, _ => id end in
  let id := match lookup id with None => list_ascii_of_string "--help" | Some _ => id end in
  (id, value).

Section Parse.
(** what operator>> makes of a text (None: failure), src/app/cmdoptions.cpp:32-39 *)
Context {D : Type} (to_double : list ascii -> option D).
(** omp_get_max_threads() *)
Context (hw : Z).

(** src/app/cmdoptions.hpp:46-51 — PrimeSumOptions, and the global settings changed while
    reading the options: src/primesum.cpp:36-41 (threads_, status_precision_, alpha_),
    src/print.cpp:23 (print_) *)
Record settings := mkSettings {
  s_option : opt; s_time : bool;
  s_numbers : list Z;
  s_threads : Z; s_precision : Z; s_alpha : option D; s_print : bool }.

(** src/app/cmdoptions.hpp:46-51, src/primesum.cpp:36-41, src/print.cpp:23 — initial values *)
Definition settings0 : settings := mkSettings OPTION_PI false [] 0 (-1) None false.

(** How reading the command line (src/app/cmdoptions.cpp:115-156) ends: help() and version()
    exit with code 1, --test runs the tests and exits, otherwise the settings and x are
    returned. *)
Inductive parsed := Help | Version | Test | Run (x : Z) (s : settings).

(** src/app/cmdoptions.cpp:123-149 — one pass of the loop over the arguments; an
    exception is left to parseOptions *)
Definition step (s : settings) (arg : list ascii) : res (settings + parsed) :=
  let '(id, value) := makeOption arg in
  match lookup id with
  | Some OPTION_ALPHA =>
      match to_double value with
      | Some d => Ok (inl (mkSettings (s_option s) (s_time s) (s_numbers s) (s_threads s) (s_precision s) (Some d) (s_print s)))
      | None => Fail Throw
      end
  | Some OPTION_NUMBER =>
      n <- to_int128 value ;;
      Ok (inl (mkSettings (s_option s) (s_time s) (s_numbers s ++ [n]) (s_threads s) (s_precision s) (s_alpha s) (s_print s)))
  | Some OPTION_THREADS =>
      n <- to_int128 value ;;
      Ok (inl (mkSettings (s_option s) (s_time s) (s_numbers s) (set_num_threads hw (swrap 32 n)) (s_precision s) (s_alpha s) (s_print s)))
  | Some OPTION_HELP => Ok (inr Help)
  | Some OPTION_STATUS =>
      p <- match value with
           | [] => Ok (s_precision s)
           | _ => n <- to_int128 value ;; Ok (set_status_precision (swrap 32 n))
           end ;;
      Ok (inl (mkSettings (s_option s) true (s_numbers s) (s_threads s) p (s_alpha s) true))
  | Some OPTION_TIME => Ok (inl (mkSettings (s_option s) true (s_numbers s) (s_threads s) (s_precision s) (s_alpha s) (s_print s)))
  | Some OPTION_TEST => Ok (inr Test)
  | Some OPTION_VERSION => Ok (inr Version)
  | Some o => Ok (inl (mkSettings o (s_time s) (s_numbers s) (s_threads s) (s_precision s) (s_alpha s) (s_print s)))
  | None => Fail Abort (* makeOption returns keys of the map only *)
  end.

(** src/app/cmdoptions.cpp:123-149 — the loop *)
Fixpoint steps (s : settings) (args : list (list ascii)) : res (settings + parsed) :=
  match args with
  | [] => Ok (inl s)
  | a :: args' =>
      r <- step s a ;;
      match r with inl s' => steps s' args' | inr p => Ok (inr p) end
  end.

(** src/app/cmdoptions.cpp:116-161 — parseOptions(argc, argv), args = argv[1..] *)
Definition parseOptions (args : list (list ascii)) : res parsed :=
  match steps settings0 args with
  | Ok (inr p) => Ok p
  | Ok (inl s) => match s_numbers s with [x] => Ok (Run x s) | _ => Ok Help end
  | Fail Throw => Ok Help
  | Fail e => Fail e
  end.
End Parse.

(** src/app/main.cpp:34-39 — int64_cast; the conversion of a value outside of the range
    of int64_t is modular *)
Definition int64_cast (x : Z) : res Z :=
  if x >? smax 64 then Fail Throw else Ok (swrap 64 x).
