(** Model of src/S2LoadBalancer.cpp.

    The object keeps measured times and quotients of them (double); they only enter
    through comparisons and through three conversions to int64_t.  The outcome of
    those is an observation, one per call of update, over which the theorems
    quantify: *)
From Coq Require Import ZArith List Bool.
From Verif.Base Require Import Res Word Zl IType.
From Verif.Model Require Import Imath.
Import ListNotations.
Open Scope Z_scope.

(** src/S2LoadBalancer.cpp:144-260 — the decisions of the load balancer that depend on measured
    times and floating-point numbers; Model/Tuning.v computes them *)
Record lb_obs := {
  (** src/S2LoadBalancer.cpp:162-168 — is_increase *)
  ob_increase : bool;
  (** src/S2LoadBalancer.cpp:170-175 — is_decrease *)
  ob_decrease : bool;
  (** src/S2LoadBalancer.cpp:247 — seconds < min_seconds_ *)
  ob_fast : bool;
  (** src/S2LoadBalancer.cpp:251-255 — (int64_t) max(1.0, segments_per_thread * factor) *)
  ob_segments : Z -> Z;
  (** src/S2LoadBalancer.cpp:180, called from line 230 —
      (int64_t) (sqrtz_ / max(1.0, log(y_))) *)
  ob_size : Z
}.

(** src/S2LoadBalancer.cpp:177-183 — update_min_size; [size] is the quotient of line 180 *)
Definition lb_min_size (size : Z) : res Z := next_power_of_2 i64 (Z.max size 512).

(** src/S2LoadBalancer.cpp:240-258 — update of the segments per thread *)
Definition lb_segments (ob : lb_obs) (segments_per_thread : Z) : res Z :=
  if ob_increase ob || ob_decrease ob then
    if ob_fast ob then schk 64 (segments_per_thread * 2)
    else Ok (ob_segments ob segments_per_thread)
  else Ok segments_per_thread.

(** include/S2LoadBalancer.hpp:48, src/S2LoadBalancer.cpp:189-192 — (min_size_, segment_size,
    segments_per_thread) *)
Definition lb_state : Type := Z * Z * Z.

(** src/S2LoadBalancer.cpp:201-212 — the first part of update *)
Definition lb_resize (sqrtz smallest_hard_leaf : Z) (ob : lb_obs) (low : Z) (st : lb_state) : res (Z * Z) :=
  let '(min_size, segment_size, segments_per_thread) := st in
  if segment_size <? sqrtz then
    if ob_increase ob then s <- schk 64 (segment_size * 2) ;; Ok (s, segments_per_thread)
    else if ob_decrease ob && (segment_size >? min_size) then Ok (Z.shiftr segment_size 1, segments_per_thread)
    else Ok (segment_size, segments_per_thread)
  else if low >? smallest_hard_leaf then
    n <- lb_segments ob segments_per_thread ;; Ok (segment_size, n)
  else Ok (segment_size, segments_per_thread).

(** src/S2LoadBalancer.cpp:214-215 and 223-224 — high *)
Definition lb_high (segment_size segments_per_thread threads low : Z) : res Z :=
  d <- schk 64 (segment_size * segments_per_thread) ;;
  d <- schk 64 (d * threads) ;;
  schk 64 (low + d).

(** src/S2LoadBalancer.cpp:189-233 — update *)
Definition lb_update (sqrtz smallest_hard_leaf : Z) (ob : lb_obs) (low threads : Z) (st : lb_state) : res lb_state :=
  let '(min_size, _, _) := st in
  ' (segment_size, segments_per_thread) <- lb_resize sqrtz smallest_hard_leaf ob low st ;;
  high <- lb_high segment_size segments_per_thread threads low ;;
  ' (segment_size, high) <-
    (if (low <=? smallest_hard_leaf) && (high >? smallest_hard_leaf) then
       high <- lb_high min_size segments_per_thread threads low ;; Ok (min_size, high)
     else Ok (segment_size, high)) ;;
  if high >=? smallest_hard_leaf then
    min_size <- lb_min_size (ob_size ob) ;;
    Ok (min_size, Z.max min_size segment_size, segments_per_thread)
  else Ok (min_size, segment_size, segments_per_thread).

(** ** Use of the load balancer: the intervals of the threads *)

(** src/deleglise-rivat/S2_hard.cpp:345-347 and src/lmo/pi_lmo_parallel1.cpp:204-206 — the
    number of threads and of segments per thread of one round *)
Definition lb_clamp (limit low segment_size segments_per_thread threads : Z) : res (Z * Z) :=
  segments <- ceil_div i64 (limit - low) segment_size ;;
  let threads := in_between 1 threads segments in
  n <- ceil_div i64 segments threads ;;
  Ok (threads, in_between 1 segments_per_thread n).

(** src/deleglise-rivat/S2_hard.cpp:121-122 and src/lmo/pi_lmo_parallel1.cpp:76-77 — the
    interval of one thread: (low, limit) *)
Definition lb_interval (segment_size segments_per_thread thread_num low limit : Z) : res (Z * Z) :=
  d <- schk 64 (segment_size * segments_per_thread) ;;
  dn <- schk 64 (d * thread_num) ;;
  low <- schk 64 (low + dn) ;;
  h <- schk 64 (low + d) ;;
  Ok (low, Z.min h limit).

(** src/deleglise-rivat/S2_hard.cpp:376-377 and src/lmo/pi_lmo_parallel1.cpp:235-236 — the
    end of a round: low and the state of the load balancer *)
Definition lb_advance (sqrtz smallest_hard_leaf : Z) (ob : lb_obs) (low threads : Z) (st : lb_state) : res (Z * lb_state) :=
  let '(_, segment_size, segments_per_thread) := st in
  d <- schk 64 (segments_per_thread * threads) ;;
  d <- schk 64 (d * segment_size) ;;
  low <- schk 64 (low + d) ;;
  lb <- lb_update sqrtz smallest_hard_leaf ob low threads st ;;
  Ok (low, lb).

(** The control flow of S2_hard_OpenMP_master and of S2 in pi_lmo_parallel1.cpp without the
    computations: src/deleglise-rivat/S2_hard.cpp:343-378, src/lmo/pi_lmo_parallel1.cpp:202-237.
    Returns, for each round, (min_size_, segment_size, segments_per_thread) and the
    intervals of the threads. *)
Definition lb_plan (sqrtz smallest_hard_leaf : Z) (obs : Z -> lb_obs) (limit threads min_size : Z) : res (list (lb_state * list (Z * Z))) :=
  loop (fun '(low, threads, (min_size, segment_size, segments_per_thread), round, out) =>
    if low <? limit then
      ' (threads, segments_per_thread) <- lb_clamp limit low segment_size segments_per_thread threads ;;
      l <- for_ 0 threads (fun i l =>
        r <- lb_interval segment_size segments_per_thread i low limit ;; Ok (l ++ [r])) [] ;;
      ' (low, st) <- lb_advance sqrtz smallest_hard_leaf (obs round) low threads (min_size, segment_size, segments_per_thread) ;;
      Ok (inl (low, threads, st, round + 1, out ++ [((min_size, segment_size, segments_per_thread), l)]))
    else Ok (inr out)) (1, threads, (min_size, min_size, 1), 0, []).
