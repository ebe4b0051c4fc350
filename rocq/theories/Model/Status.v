(** Model of the status output of src/S2Status.cpp with several threads: every thread
    performs a list of calls of S2Status::print, and the threads take atomic steps in any
    order (sequentially consistent interleaving; the unsynchronised accesses to time_ and
    percent_ are data races in the sense of the C++ standard, which this model takes as
    atomic).  Times and percentages are integers in some unit instead of doubles. *)
From Coq Require Import ZArith List Bool.
From Verif.Base Require Import Res.
From Verif.Model Require Import Imath.
Import ListNotations.
Open Scope Z_scope.

(** src/S2Status.cpp:70-74, 76 — what one call print(n, limit) measures and computes: the time
    and the percentage *)
Record call := { c_time : Z; c_percent : Z }.

(** src/S2Status.cpp:49-60, 70-94 — where a thread is inside print *)
Inductive pc :=
| Try                      (* before TryLock lock(lock_) *)
| Decide                   (* owns the lock, before reading time_ *)
| Store                    (* is_print returned true, before time_ = time *)
| Load                     (* before old = percent_ *)
| Check (old : Z)          (* before the comparison *)
| Out.                     (* percent_ is set, before the output *)

(** src/S2Status.hpp:28-32, include/OmpLock.hpp:19-31 — the shared state: percent_, time_, the lock,
    and the percentages printed so far, latest first *)
Record shared := { sh_percent : Z; sh_time : Z; sh_lock : bool; sh_out : list Z }.

(** src/S2Status.cpp:25-30, src/S2Status.hpp:28-30 — percent_ = -1, time_ = 0 *)
Definition shared0 : shared := {| sh_percent := -1; sh_time := 0; sh_lock := false; sh_out := [] |}.

(** A thread that calls S2Status::print (src/S2Status.cpp:74-98): position in the current call,
    and the calls still to make, the current first *)
Definition thread : Type := pc * list call.

Section Run.
(** epsilon_ and is_print_ (1/20 second), src/S2Status.cpp:29, src/S2Status.hpp:30 *)
Context (eps interval : Z).

(** src/S2Status.cpp:49-60, 70-94 — one atomic step of a thread *)
Definition tstep (sh : shared) (th : thread) : shared * thread :=
  match th with
  | (_, []) => (sh, th)
  | (p, c :: cs) =>
      match p with
      | Try =>
          if sh_lock sh then (sh, (Try, cs))
          else ({| sh_percent := sh_percent sh; sh_time := sh_time sh; sh_lock := true; sh_out := sh_out sh |}, (Decide, c :: cs))
      | Decide =>
          (* the comparison and the release of the lock on return *)
          let sh' := {| sh_percent := sh_percent sh; sh_time := sh_time sh; sh_lock := false; sh_out := sh_out sh |} in
          if (sh_time sh =? 0) || (c_time c - sh_time sh >=? interval) then (sh', (Store, c :: cs)) else (sh', (Try, cs))
      | Store => ({| sh_percent := sh_percent sh; sh_time := c_time c; sh_lock := sh_lock sh; sh_out := sh_out sh |}, (Load, c :: cs))
      | Load => (sh, (Check (sh_percent sh), c :: cs))
      | Check old =>
          if c_percent c - old >=? eps
          then ({| sh_percent := c_percent c; sh_time := sh_time sh; sh_lock := sh_lock sh; sh_out := sh_out sh |}, (Out, c :: cs))
          else (sh, (Try, cs))
      | Out => ({| sh_percent := sh_percent sh; sh_time := sh_time sh; sh_lock := sh_lock sh; sh_out := c_percent c :: sh_out sh |}, (Try, cs))
      end
  end.

(** step of thread number k (no source line: the choice of the scheduler) *)
Fixpoint sstep (sh : shared) (ts : list thread) (k : nat) : shared * list thread :=
  match ts, k with
  | [], _ => (sh, [])
  | t :: ts', O => let '(sh', t') := tstep sh t in (sh', t' :: ts')
  | t :: ts', S k' => let '(sh', ts'') := sstep sh ts' k' in (sh', t :: ts'')
  end.

(** No source line: a whole schedule, the numbers of the threads in the order in which they
    take steps *)
Fixpoint run (sh : shared) (ts : list thread) (sched : list nat) : shared * list thread :=
  match sched with
  | [] => (sh, ts)
  | k :: sched' => let '(sh', ts') := sstep sh ts k in run sh' ts' sched'
  end.

(** src/S2Status.cpp:62-68, 70-94 — print without other threads in between (also the version without
    OpenMP) *)
Definition print (sh : shared) (c : call) : shared :=
  if (sh_time sh =? 0) || (c_time c - sh_time sh >=? interval) then
    if c_percent c - sh_percent sh >=? eps
    then {| sh_percent := c_percent c; sh_time := c_time c; sh_lock := sh_lock sh; sh_out := c_percent c :: sh_out sh |}
    else {| sh_percent := sh_percent sh; sh_time := c_time c; sh_lock := sh_lock sh; sh_out := sh_out sh |}
  else sh.
End Run.
