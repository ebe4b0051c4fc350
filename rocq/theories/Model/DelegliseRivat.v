(** Model of src/deleglise-rivat/pi_deleglise_rivat_parallel1.cpp and of the functions
    of src/primesum.cpp that lead to it.  int256_t values follow
    Model/Accum.v; all table accesses are checked.  The calls of
    print (lines 73-76) do not take part in the computation and are left out. *)
From Coq Require Import ZArith List Bool.
From Verif.Base Require Import Res Word Zl IType.
From Verif.Model Require Import Accum Imath Tables PhiTiny Phi P2 S1 Libdivide S2 S2LoadBalancer S2Hard Oracles.
Import ListNotations.
Open Scope Z_scope.

(** CMakeLists.txt:85-105 — which of the two implementations of S2_easy is compiled:
    src/deleglise-rivat/S2_easy.cpp, or S2_easy_libdivide.cpp with one of the variants
    of the two primitives of libdivide.h (include/libdivide.h:230 and 343) *)
Inductive easy_variant :=
| EasyPlain
| EasyLibdivide (div128 : Z -> Z -> Z -> res (Z * Z)) (mullhi : Z -> Z -> res Z).

(** What src/deleglise-rivat/pi_deleglise_rivat_parallel1.cpp:55-82 takes from its environment,
    besides [oracles]; each field cites its own lines *)
Record dr_oracles := {
  dr_base : oracles;
  (** pow((double) x, 1.0 / 6) in iroot<6> (include/imath.hpp:88) *)
  dr_root6 : Z;
  (** (int64_t) (r3 * alpha), r3 = iroot<3>(x), where alpha is get_alpha_deleglise_rivat(x):
      the tuning factor set by the user or a polynomial in log(x), clamped to
      [1, iroot<6>(x)] (src/primesum.cpp:215-235) *)
  dr_y : Z -> Z -> Z;
  (** to_int128(get_max_x(alpha)), src/primesum.cpp:129-143 *)
  dr_limit : Z;
  dr_triv : Z -> Z -> list (list Z);
  dr_easy : easy_variant;
  (** the estimate of iroot<3> and the schedule in S2_easy *)
  dr_easy_root : Z;
  dr_easy_sched : Z -> Z -> list (list Z);
  dr_hard : hard_oracles
}.

(** src/deleglise-rivat/S2_easy.cpp:110-145 and S2_easy_libdivide.cpp:158-193 — the S2_easy
    that is linked *)
Definition S2_easy_of (o : dr_oracles) : Z -> Z -> Z -> Z -> res Z :=
  match dr_easy o with
  | EasyPlain => S2_easy (dr_easy_root o) (dr_easy_sched o)
  | EasyLibdivide d m => S2_easy_libdivide d m (dr_easy_root o) (dr_easy_sched o)
  end.

(** src/deleglise-rivat/pi_deleglise_rivat_parallel1.cpp:33-45 — S2 *)
Definition DR_S2 (o : dr_oracles) (x y z c threads : Z) : res Z :=
  s2_trivial <- S2_trivial (dr_triv o) x y z c threads ;;
  s2_easy <- S2_easy_of o x y z c ;;
  s2_hard <- S2_hard (dr_hard o) x y z c threads ;;
  s2 <- t_add 256 s2_trivial s2_easy ;;
  t_add 256 s2 s2_hard.

(** src/deleglise-rivat/pi_deleglise_rivat_parallel1.cpp:55-85 *)
Definition pi_deleglise_rivat_parallel1 (o : dr_oracles) (x threads : Z) : res Z :=
  if x <? 2 then Ok 0
  else
    (* alpha = in_between(1, alpha, iroot<6>(x)) *)
    r6 <- iroot i128 6 (dr_root6 o) x ;;
    if x >? dr_limit o then Fail Throw
    else
      r3 <- iroot i128 3 (o_root (dr_base o)) x ;;
      let y := dr_y o r3 r6 in
      z <- zdiv x y ;;
      let z := swrap 64 z in
      c <- get_c y ;;
      p2 <- P2.P2 (o_p2leg (dr_base o)) (o_p2speed (dr_base o)) (o_p2sched (dr_base o)) x y threads ;;
      s1 <- S1.S1 (o_s1sched (dr_base o)) x y c ;;
      s2 <- DR_S2 o x y z c threads ;;
      t <- prime_sum_tiny y ;;
      lmo_formula s1 s2 t p2.

(** src/primesum.cpp:80-83 — pi_deleglise_rivat; src/primesum.cpp:46-49 — pi *)
Definition pi_deleglise_rivat (o : dr_oracles) (x threads : Z) : res Z := pi_deleglise_rivat_parallel1 o x threads.
(** src/primesum.cpp:46-49 — pi *)
Definition pi_ (o : dr_oracles) (x threads : Z) : res Z := pi_deleglise_rivat o x threads.
