(** Model of the floating-point parts of the computations, in IEEE 754 arithmetic
    (Model/Double.v): the tuning factor and y, the S2LoadBalancer, few_leaves.
    The C library's log and pow are parameters: any functions. *)
From Coq Require Import ZArith List Bool.
From Verif.Base Require Import Res Word Zl IType.
From Verif.Model Require Import Double Imath S2LoadBalancer S2Hard Oracles LMO LMOParallel DelegliseRivat.
Import ListNotations.
Open Scope Z_scope.

(** src/primesum.cpp:139, 194-196, 219-221, src/S2LoadBalancer.cpp:122, 126, 154, 230 — log and
    pow of the C library *)
Record libm := { m_log : double -> double; m_pow : double -> double -> double }.

(** include/imath.hpp:104-113 — in_between<int, double, int128_t>: the bounds are converted
    for the comparisons and for the result *)
Definition d_between (min : Z) (x : double) (max : Z) : double :=
  if d_lt x (d_of_Z min) then d_of_Z min
  else if d_lt (d_of_Z max) x then d_of_Z max
  else x.
(** include/imath.hpp:104-113 — in_between<double, double, int>, src/S2LoadBalancer.cpp:252 *)
Definition d_between_lb (min : double) (x : double) (max : Z) : double :=
  if d_lt x min then min
  else if d_lt (d_of_Z max) x then d_of_Z max
  else x.

(** src/primesum.cpp:184-200 — get_alpha_lmo; [user] is alpha_ (src/primesum.cpp:41, 162-170),
    [r6] is iroot<6>(x) *)
Definition get_alpha_lmo (m : libm) (user : double) (x r6 : Z) : double :=
  let alpha :=
    if d_lt user (d_of_Z 1) then
      let a := d_lit 156512 8 in
      let b := d_lit (-261411) 7 in
      let c := d_lit 990948 6 in
      let logx := m_log m (d_of_Z x) in
      d_add (d_add (d_mul a (m_pow m logx (d_of_Z 2))) (d_mul b logx)) c
    else user in
  d_between 1 alpha r6.

(** src/primesum.cpp:207-225 — get_alpha_deleglise_rivat *)
Definition get_alpha_deleglise_rivat (m : libm) (user : double) (x r6 : Z) : double :=
  let alpha :=
    if d_lt user (d_of_Z 1) then
      let a := d_lit 356618 9 in
      let b := d_lit 263762 8 in
      let c := d_lit (-125227) 6 in
      let d := d_lit 139952 5 in
      let logx := m_log m (d_of_Z x) in
      d_add (d_add (d_add (d_mul a (m_pow m logx (d_of_Z 3))) (d_mul b (m_pow m logx (d_of_Z 2)))) (d_mul c logx)) d
    else user in
  d_between 1 alpha r6.

(** (int64_t) (r3 * alpha): src/deleglise-rivat/pi_deleglise_rivat_parallel1.cpp:66,
    src/lmo/pi_lmo2.cpp:102, pi_lmo5.cpp:170, pi_lmo_parallel1.cpp:258 *)
Definition tuned_y (r3 : Z) (alpha : double) : res Z := d_to_Z 64 (d_mul (d_of_Z r3) alpha).

(** src/primesum.cpp:172-177 — get_alpha(x, y), [r3] being iroot<3>(x) *)
Definition get_alpha_xy (y r3 : Z) : double := d_div (d_of_Z y) (d_of_Z r3).

(** src/deleglise-rivat/S2_hard.cpp:88-95 — few_leaves *)
Definition few_leaves (y : Z) (alpha : double) (low high : Z) : bool :=
  let threshold := d_mul (d_mul (d_of_Z y) alpha) (d_sqrt alpha) in
  (high <? y) || d_lt threshold (d_of_Z low).

(** ** The load balancer *)
(** src/S2LoadBalancer.cpp:65-74 — get_avg *)
Definition get_avg (timings : list double) : double :=
  d_div (fold_left d_add timings (d_of_Z 0)) (d_of_Z (zlen timings)).

(** src/S2LoadBalancer.cpp:77-96 — rel_std_dev *)
Definition rel_std_dev (timings : list double) : double :=
  let avg := get_avg timings in
  if d_eq avg (d_of_Z 0) then d_of_Z 0
  else
    let sum := fold_left (fun sum t => let mean := d_sub t avg in d_add sum (d_mul mean mean)) timings (d_of_Z 0) in
    let std_dev := d_sqrt (d_div sum (d_max (d_of_Z 1) (d_sub (d_of_Z (zlen timings)) (d_of_Z 1)))) in
    d_div (d_mul (d_of_Z 100) std_dev) avg.

(** include/S2LoadBalancer.hpp:43-47 — the members that are doubles and change or depend on
    the number of threads: rsd_, count_, total_seconds_, min_seconds_, decrease_dividend_ *)
Record lb_double := {
  f_rsd : double; f_count : double; f_total : double; f_min_seconds : double; f_dividend : double }.

(** src/S2LoadBalancer.cpp:109-111 and 122-125 — the constructor and the first part of init *)
Definition lbf_init (m : libm) (threads : Z) : lb_double :=
  let log_threads := d_max (d_of_Z 1) (m_log m (d_of_Z threads)) in
  {| f_rsd := d_of_Z 40; f_count := d_of_Z 0; f_total := d_of_Z 0;
     f_min_seconds := d_mul (d_lit 1 2) log_threads;
     f_dividend := d_max (d_lit 5 1) (d_div log_threads (d_of_Z 3)) |}.

(** src/S2LoadBalancer.cpp:180 — size in update_min_size *)
Definition lbf_size (sqrtz : Z) (divisor : double) : res Z := d_to_Z 64 (d_div (d_of_Z sqrtz) (d_max (d_of_Z 1) divisor)).

(** src/S2LoadBalancer.cpp:126-127 — the first call of update_min_size *)
Definition lbf_first_size (m : libm) (x sqrtz : Z) : res Z :=
  let x_ := d_of_Z x in
  lbf_size sqrtz (d_mul (m_log m (m_log m x_)) (m_log m x_)).

(** src/S2LoadBalancer.cpp:129-130 — smallest_hard_leaf_ *)
Definition lbf_leaf (x y r3 r6 : Z) : res Z :=
  let alpha := get_alpha_xy y r3 in
  d_to_Z 64 (d_div (d_of_Z x) (d_mul (d_mul (d_of_Z y) (d_sqrt alpha)) (d_of_Z r6))).

(** src/S2LoadBalancer.cpp:151-160 — get_pivot *)
Definition get_pivot (m : libm) (s : lb_double) (seconds : double) : double :=
  let seconds := d_max (f_min_seconds s) seconds in
  let log_seconds := d_max (f_min_seconds s) (m_log m seconds) in
  let dont_decrease := d_div (f_dividend s) (d_mul seconds log_seconds) in
  let dont_decrease := d_min dont_decrease (f_rsd s) in
  d_add (f_rsd s) dont_decrease.

(** src/S2LoadBalancer.cpp:170-175 — is_decrease *)
Definition is_decrease (s : lb_double) (seconds pivot : double) : bool :=
  d_lt (f_min_seconds s) seconds && d_lt pivot (f_rsd s).

(** src/S2LoadBalancer.cpp:162-168 — is_increase; 138-141 — get_avg_seconds *)
Definition is_increase (s : lb_double) (seconds pivot : double) : bool :=
  (d_lt seconds (f_min_seconds s) || d_lt seconds (d_div (f_total s) (f_count s))) && negb (is_decrease s seconds pivot).

(** src/S2LoadBalancer.cpp:251-255 — the new segments_per_thread *)
Definition lbf_segments (pivot rsd : double) (segments_per_thread : Z) : res Z :=
  let factor := d_between_lb (d_lit 5 1) (d_div pivot rsd) 2 in
  let segments := d_max (d_of_Z 1) (d_mul (d_of_Z segments_per_thread) factor) in
  d_to_Z 64 segments.

(** No source line: the value of a conversion; an undefined one is shown as -1 *)
Definition or_ub (r : res Z) : Z := match r with Ok v => v | Fail _ => -1 end.

(** src/S2LoadBalancer.cpp:189-199 — the floating-point state after one call of update, and
    what the rest of that call (lb_update) takes from it *)
Definition lbf_step (m : libm) (y sqrtz : Z) (timings : list double) (s : lb_double) : lb_double * lb_obs :=
  let seconds := get_avg timings in
  let pivot := get_pivot m s seconds in
  let s := {| f_rsd := d_max (d_lit 1 1) (rel_std_dev timings); f_count := d_add (f_count s) (d_of_Z 1);
              f_total := d_add (f_total s) seconds; f_min_seconds := f_min_seconds s; f_dividend := f_dividend s |} in
  (s, {| ob_increase := is_increase s seconds pivot;
         ob_decrease := is_decrease s seconds pivot;
         ob_fast := d_lt seconds (f_min_seconds s);
         ob_segments := fun n => or_ub (lbf_segments pivot (f_rsd s) n);
         ob_size := or_ub (lbf_size sqrtz (m_log m (d_of_Z y))) |}).

(** The state before the n-th call of update (src/deleglise-rivat/S2_hard.cpp:377,
    src/lmo/pi_lmo_parallel1.cpp:236); [timings k] are the times measured in round k *)
Fixpoint lbf_state (m : libm) (y sqrtz threads : Z) (timings : Z -> list double) (n : nat) : lb_double :=
  match n with
  | O => lbf_init m threads
  | S k => fst (lbf_step m y sqrtz (timings (Z.of_nat k)) (lbf_state m y sqrtz threads timings k))
  end.
(** src/S2LoadBalancer.cpp:189-233 — what round r takes from the floating-point state *)
Definition lbf_obs (m : libm) (y sqrtz threads : Z) (timings : Z -> list double) (r : Z) : lb_obs :=
  snd (lbf_step m y sqrtz (timings r) (lbf_state m y sqrtz threads timings (Z.to_nat r))).

(** ** The complete computations on doubles *)
(** Settings and measurements: libm, alpha_ (src/primesum.cpp:40), the times of the rounds
    (src/deleglise-rivat/S2_hard.cpp:343-378) *)
Record measured := { me_libm : libm; me_alpha : double; me_timings : Z -> list double }.

(** The load balancer of S2_hard, src/deleglise-rivat/S2_hard.cpp:334 (z = x / y), with the
    other parts of the environment taken from [o] *)
Definition hard_measured (e : measured) (o : hard_oracles) (x y r3 threads leaf : Z) : hard_oracles :=
  let z := x / y in
  let sqrtz := Z.sqrt z in
  let threads := ideal_num_threads threads z (10 ^ 5) in
  {| ho_order := ho_order o;
     ho_few := few_leaves y (get_alpha_xy y r3);
     ho_size := or_ub (lbf_first_size (me_libm e) x sqrtz);
     ho_leaf := leaf;
     ho_obs := lbf_obs (me_libm e) y sqrtz threads (me_timings e);
     ho_sched := ho_sched o |}.

(** src/deleglise-rivat/pi_deleglise_rivat_parallel1.cpp:55-85 with the values computed from
    doubles: y (line 66), smallest_hard_leaf_ (src/S2LoadBalancer.cpp:130; it is computed
    when S2_hard starts, here before), the load balancer and few_leaves *)
Definition pi_measured (e : measured) (o : dr_oracles) (x threads : Z) : res Z :=
  if x <? 2 then Ok 0
  else
    r6 <- iroot i128 6 (dr_root6 o) x ;;
    if x >? dr_limit o then Fail Throw
    else
      r3 <- iroot i128 3 (o_root (dr_base o)) x ;;
      y <- tuned_y r3 (get_alpha_deleglise_rivat (me_libm e) (me_alpha e) x r6) ;;
      leaf <- lbf_leaf x y r3 r6 ;;
      pi_ {| dr_base := dr_base o; dr_root6 := dr_root6 o; dr_y := fun _ _ => y; dr_limit := dr_limit o;
             dr_triv := dr_triv o; dr_easy := dr_easy o; dr_easy_root := dr_easy_root o; dr_easy_sched := dr_easy_sched o;
             dr_hard := hard_measured e (dr_hard o) x y r3 threads leaf |} x threads.

(** src/lmo/pi_lmo2.cpp:95-116, pi_lmo3.cpp:133-154, pi_lmo4.cpp:143-164, pi_lmo5.cpp:163-190,
    [f] being the function, with y computed from doubles *)
Definition lmo_measured (f : lmo_oracles -> Z -> res Z) (e : measured) (o : lmo_oracles) (x : Z) : res Z :=
  if x <? 2 then Ok 0
  else
    r6 <- iroot i128 6 (lo_root6 o) x ;;
    r3 <- iroot i64 3 (lo_root3 o) x ;;
    y <- tuned_y r3 (get_alpha_lmo (me_libm e) (me_alpha e) x r6) ;;
    f {| lo_base := lo_base o; lo_root6 := lo_root6 o; lo_root3 := lo_root3 o; lo_y := fun _ _ => y |} x.

(** src/lmo/pi_lmo_parallel1.cpp:251-278 with y and the load balancer (line 193, z = x / y + 1)
    computed from doubles *)
Definition par_measured (e : measured) (o : par_oracles) (x threads : Z) : res Z :=
  if x <? 2 then Ok 0
  else
    let lo := po_lmo o in
    r6 <- iroot i128 6 (lo_root6 lo) x ;;
    r3 <- iroot i128 3 (lo_root3 lo) x ;;
    y <- tuned_y r3 (get_alpha_lmo (me_libm e) (me_alpha e) x r6) ;;
    leaf <- lbf_leaf x y r3 r6 ;;
    let z := x / y + 1 in
    let sqrtz := Z.sqrt z in
    pi_lmo_parallel1
      {| po_lmo := {| lo_base := lo_base lo; lo_root6 := lo_root6 lo; lo_root3 := lo_root3 lo; lo_y := fun _ _ => y |};
         po_size := or_ub (lbf_first_size (me_libm e) x sqrtz); po_leaf := leaf;
         po_obs := lbf_obs (me_libm e) y sqrtz (ideal_num_threads threads z (10 ^ 5)) (me_timings e);
         po_sched := po_sched o |} x threads.
