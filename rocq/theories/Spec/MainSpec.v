(** What a run of the program has to write.  Independent of the model of main(). *)
From Coq Require Import ZArith List Bool Ascii String.
From Verif.Spec Require Import Primes LMOSpec S2Spec.
From Verif.Model Require Import Options.
Import ListNotations.
Open Scope Z_scope.

Definition text := list_ascii_of_string.
Definition lf : list ascii := text (String (ascii_of_nat 10) "").
Definition cr : list ascii := text (String (ascii_of_nat 13) "").

(** The options that select one of the five partial results and the options that select an
    algorithm for the sum of the primes. *)
Definition partial_options : list opt := [OPTION_P2; OPTION_S1; OPTION_S2_TRIVIAL; OPTION_S2_EASY; OPTION_S2_HARD].
Definition dr_options : list opt := [OPTION_PI; OPTION_DELEGLISE_RIVAT; OPTION_DELEGLISE_RIVAT_PARALLEL1].
Definition lmo_options : list opt := [OPTION_LMO; OPTION_LMO_PARALLEL1; OPTION_LMO1].
Definition lmo64_options : list opt := [OPTION_LMO2; OPTION_LMO3; OPTION_LMO4; OPTION_LMO5].

(** The partial result for x and y; the first six primes, or those up to y, are sieved. *)
Definition partial_sum (o : opt) (x y : Z) : Z :=
  let c := Z.min 6 (pi y) in
  match o with
  | OPTION_P2 => P2_sum x y
  | OPTION_S1 => S1_sum x y c
  | OPTION_S2_TRIVIAL => S2_trivial_sum x y c
  | OPTION_S2_EASY => S2_easy_sum x y c
  | OPTION_S2_HARD => S2_hard_sum x y c
  | _ => 0
  end.

(** The output: the result alone on a line, followed by the time if asked for; with
    --status after the log, a partial result with its name. *)
Definition seconds (secs : list ascii) : list ascii := text "Seconds: " ++ secs ++ lf.
Definition plain_output (secs : list ascii) (time : bool) (t : list ascii) : list ascii :=
  t ++ lf ++ (if time then seconds secs else []).
Definition status_output (log secs : list ascii) (t : list ascii) : list ascii :=
  log ++ lf ++ t ++ lf ++ seconds secs.
Definition named_output (log secs : list ascii) (name : string) (t : list ascii) : list ascii :=
  log ++ cr ++ text "                                                  " ++ cr ++ text "Status: 100%" ++ lf ++
  text name ++ text " = " ++ t ++ lf ++ seconds secs.
Definition name_of (o : opt) : string :=
  match o with
  | OPTION_P2 => "P2" | OPTION_S1 => "S1_sum" | OPTION_S2_TRIVIAL => "S2_trivial"
  | OPTION_S2_EASY => "S2_easy" | OPTION_S2_HARD => "S2_hard" | _ => ""
  end.
Definition output (log secs : list ascii) (status time : bool) (name : option string) (t : list ascii) : list ascii :=
  if status then match name with Some n => named_output log secs n t | None => status_output log secs t end
  else plain_output secs time t.
