(** Model of include/PhiTiny.hpp and src/PhiTiny.cpp. *)
From Coq Require Import ZArith List Bool.
From Verif.Base Require Import Res Word Zl.
Import ListNotations.
Open Scope Z_scope.

(** src/PhiTiny.cpp:26 — PhiTiny::primes *)
Definition tiny_primes : list Z := [0; 2; 3; 5; 7; 11; 13].
(** src/PhiTiny.cpp:29 — PhiTiny::prime_products *)
Definition tiny_products : list Z := [1; 2; 6; 30; 210; 2310; 30030].
(** src/PhiTiny.cpp:32 — PhiTiny::totients *)
Definition tiny_totients : list Z := [1; 1; 2; 8; 48; 480; 5760].
(** src/PhiTiny.cpp:35 — PhiTiny::pi *)
Definition tiny_pi : list Z := [0; 0; 1; 2; 2; 3; 3; 4; 4; 4; 4; 5; 5].

(** include/PhiTiny.hpp:53-56 — max_a *)
Definition tiny_max_a : Z := zlen tiny_primes - 1.

(** include/PhiTiny.hpp:34-41 — PhiTiny::phi(x, a).  [chk] is the arithmetic of
    the type T of x: checked for the signed types, modular for uint32_t.  The
    assertion a <= max_a() is undefined behaviour when it fails (out of range). *)
Definition tiny_phi (chk : Z -> res Z) (tabs : list (list Z)) (x a : Z) : res Z :=
  pp <- aget tiny_products a ;;
  t <- aget tiny_totients a ;;
  row <- aget tabs a ;;
  v <- aget row (Z.rem x pp) ;;
  m <- chk (Z.quot x pp * t) ;;
  chk (m + v).

(** src/PhiTiny.cpp:40-56 — PhiTiny::PhiTiny, the rows phi_[1..6] *)
Definition PhiTiny_init : res (list (list Z)) :=
  for_ 1 (tiny_max_a + 1) (fun a tabs =>
    pp <- aget tiny_products a ;;
    row <- for_ 0 pp (fun x row =>
      u <- tiny_phi (schk 32) tabs x (a - 1) ;;
      p <- aget tiny_primes a ;;
      v <- tiny_phi (schk 32) tabs (Z.quot x p) (a - 1) ;;
      phi_xa <- schk 32 (u - v) ;;
      aset row x (swrap 16 phi_xa)) (amake pp 0) ;;
    aset tabs a row) ([0] :: amake 6 []).

(** include/PhiTiny.hpp:43-51 — PhiTiny::get_c *)
Definition get_c (y : Z) : res Z :=
  assert_ (0 <=? y) UB ;;;
  if 13 <=? y then Ok tiny_max_a else aget tiny_pi y.

(** include/PhiTiny.hpp:68-71 — is_phi_tiny *)
Definition is_phi_tiny (a : Z) : bool := a <=? tiny_max_a.

(** include/PhiTiny.hpp:73-80 — phi_tiny<int64_t>; the singleton phiTiny
    (src/PhiTiny.cpp:38) is the parameter [tabs] *)
Definition phi_tiny (tabs : list (list Z)) (x a : Z) : res Z :=
  if x <=? umax 32 then tiny_phi (fun z => Ok (uwrap 32 z)) tabs (uwrap 32 x) a
  else tiny_phi (schk 64) tabs x a.
