(** Model of the text interface pi(const string&) of src/primesum.cpp and of src/app/main.cpp:
    the functions P2, S1, S2_trivial, S2_easy and S2_hard of one argument and main() itself,
    including what is written to the standard output.  The text written while a computation
    with --status is running (src/print.cpp, src/S2Status.cpp), the measured seconds and
    the texts of the help and version screens are not computed; the error messages go to
    the standard error stream and are left out.  bad_alloc does not occur in the model. *)
From Coq Require Import ZArith List Bool Ascii String.
From Verif.Base Require Import Res Word Zl IType.
From Verif.Spec Require Import IntSpec.
From Verif.Model Require Import Int256 Imath Calculator Options PhiTiny P2 S1 S2 S2Hard Oracles LMO1 LMO LMOParallel DelegliseRivat.
Import ListNotations.
Open Scope Z_scope.

(** src/primesum.cpp:70-76 — pi(const string& x, int threads); the environment of the
    computation may depend on x (61-64: pi(const string& x) passes get_num_threads()) *)
Definition pi_string (o : dr_oracles) (expr : list ascii) (threads : Z) : res (list ascii) :=
  x <- to_int128 expr ;;
  v <- pi_ o x threads ;;
  print256 (of_Z256 v).

(** src/app/main.cpp:42-54, 60-72, 80-92, 104-116, 128-140 — the common part of the five
    functions: the limit is checked and y is computed as in pi_deleglise_rivat_parallel1 *)
Definition with_y (o : dr_oracles) (x : Z) (f : Z -> res Z) : res Z :=
  if x <? 1 then Ok 0
  else
    r6 <- iroot i128 6 (dr_root6 o) x ;;
    if x >? dr_limit o then Fail Throw
    else
      r3 <- iroot i128 3 (o_root (dr_base o)) x ;;
      f (dr_y o r3 r6).

(** src/app/main.cpp:40-56 *)
Definition main_P2 (o : dr_oracles) (x threads : Z) : res Z :=
  with_y o x (fun y => P2.P2 (o_p2leg (dr_base o)) (o_p2speed (dr_base o)) (o_p2sched (dr_base o)) x y threads).
(** src/app/main.cpp:58-76 *)
Definition main_S1 (o : dr_oracles) (x : Z) : res Z :=
  with_y o x (fun y => c <- get_c y ;; S1.S1 (o_s1sched (dr_base o)) x y c).
(** src/app/main.cpp:78-100; both branches call the same function *)
Definition main_S2_trivial (o : dr_oracles) (x threads : Z) : res Z :=
  with_y o x (fun y =>
    z <- zdiv x y ;; let z := swrap 64 z in
    c <- get_c y ;;
    S2_trivial (dr_triv o) x y z c threads).
(** src/app/main.cpp:102-124; both branches call the same function *)
Definition main_S2_easy (o : dr_oracles) (x : Z) : res Z :=
  with_y o x (fun y =>
    z <- zdiv x y ;; let z := swrap 64 z in
    c <- get_c y ;;
    S2_easy_of o x y z c).
(** src/app/main.cpp:126-145 *)
Definition main_S2_hard (o : dr_oracles) (x threads : Z) : res Z :=
  with_y o x (fun y =>
    z <- zdiv x y ;; let z := swrap 64 z in
    c <- get_c y ;;
    S2_hard (dr_hard o) x y z c threads).

Section Main.
Context {D : Type}.
(** What a run of src/app/main.cpp:149-216 takes from its environment.  The tuning factor (None:
    not set) has an influence on y only, which is part of dr_oracles and par_oracles. *)
Record main_env := {
  (** src/app/cmdoptions.cpp:32-39 *)
  e_double : list ascii -> option D;
  (** omp_get_max_threads() *)
  e_hw : Z;
  e_dr : option D -> dr_oracles;
  e_lmo : option D -> par_oracles;
  (** what the computation writes with --status *)
  e_log : list ascii;
  (** a number of seconds, fixed, three decimals: src/print.cpp:116-119 *)
  e_seconds : list ascii
}.

(** src/app/main.cpp:160-192 — the switch; other values of the option leave res = 0 *)
Definition compute (e : main_env) (s : settings) (x threads : Z) : res Z :=
  let dr := e_dr e (s_alpha s) in
  let par := e_lmo e (s_alpha s) in
  match s_option s with
  | OPTION_DELEGLISE_RIVAT => pi_deleglise_rivat dr x threads
  | OPTION_DELEGLISE_RIVAT_PARALLEL1 => pi_deleglise_rivat_parallel1 dr x threads
  | OPTION_LMO => n <- int64_cast x ;; pi_lmo par n threads
  | OPTION_LMO1 => n <- int64_cast x ;; pi_lmo1 (lo_base (po_lmo par)) n
  | OPTION_LMO2 => n <- int64_cast x ;; pi_lmo2 (po_lmo par) n
  | OPTION_LMO3 => n <- int64_cast x ;; pi_lmo3 (po_lmo par) n
  | OPTION_LMO4 => n <- int64_cast x ;; pi_lmo4 (po_lmo par) n
  | OPTION_LMO5 => n <- int64_cast x ;; pi_lmo5 (po_lmo par) n
  | OPTION_LMO_PARALLEL1 => n <- int64_cast x ;; pi_lmo_parallel1 par n threads
  | OPTION_P2 => main_P2 dr x threads
  | OPTION_PI => pi_ dr x threads
  | OPTION_S1 => main_S1 dr x
  | OPTION_S2_EASY => main_S2_easy dr x
  | OPTION_S2_HARD => main_S2_hard dr x threads
  | OPTION_S2_TRIVIAL => main_S2_trivial dr x threads
  | _ => Ok 0
  end.

(** the name of a partial result, printed with --status: src/P2.cpp:202, src/S1.cpp:109,
    src/deleglise-rivat/S2_trivial.cpp:98, S2_easy.cpp:143, S2_hard.cpp:422 *)
Definition partial_name (o : opt) : option (list ascii) :=
  option_map list_ascii_of_string
    match o with
    | OPTION_P2 => Some "P2"%string
    | OPTION_S1 => Some "S1_sum"%string
    | OPTION_S2_TRIVIAL => Some "S2_trivial"%string
    | OPTION_S2_EASY => Some "S2_easy"%string
    | OPTION_S2_HARD => Some "S2_hard"%string
    | _ => None
    end.

(** src/print.cpp:109-118, src/app/main.cpp:209-210 — endl as '\n' *)
Definition newline : list ascii := [ascii_of_N 10].
(** src/print.cpp:109 — '\r' *)
Definition return_ : list ascii := [ascii_of_N 13].
(** src/print.cpp:116-119 — print_seconds *)
Definition seconds_line (e : main_env) : list ascii := list_ascii_of_string "Seconds: " ++ e_seconds e ++ newline.
(** src/print.cpp:105-114 — print(res_str, res, time) *)
Definition result_lines (e : main_env) (name result : list ascii) : list ascii :=
  return_ ++ repeat " "%char 50 ++ return_ ++ list_ascii_of_string "Status: 100%" ++ newline ++
  name ++ list_ascii_of_string " = " ++ result ++ newline ++ seconds_line e.

(** How a run of src/app/main.cpp:149-216 ends: with the help or version text and exit code 1,
    with the tests, or with an exit code and a text on the standard output. *)
Inductive ending := EndHelp | EndVersion | EndTest | EndRun (code : Z) (out : list ascii).

(** src/app/main.cpp:149-216 — main; set_print_variables(true) (51, 69, 89, 113, 137) is
    reached if x is at least 1 and the limit is not exceeded *)
Definition main (e : main_env) (args : list (list ascii)) : res ending :=
  p <- parseOptions (e_double e) (e_hw e) args ;;
  match p with
  | Help => Ok EndHelp
  | Version => Ok EndVersion
  | Test => Ok EndTest
  | Run x s =>
      let threads := get_num_threads (e_hw e) (s_threads s) in
      let log := if s_print s then e_log e else [] in
      match compute e s x threads with
      | Fail Throw => Ok (EndRun 1 log)
      | Fail f => Fail f
      | Ok v =>
          t <- print256 (of_Z256 v) ;;
          match (if s_print s && (x >=? 1) then partial_name (s_option s) else None) with
          | Some name => Ok (EndRun 0 (log ++ result_lines e name t))
          | None => Ok (EndRun 0 (log ++ (if s_print s then newline else []) ++ t ++ newline ++ (if s_time s then seconds_line e else [])))
          end
      end
  end.
End Main.
Arguments main_env : clear implicits.
