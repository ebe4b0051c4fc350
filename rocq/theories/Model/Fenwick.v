(** Model of include/BinaryIndexedTree.hpp.  The int64_t products and the int128_t sums are
    checked for overflow.  Indices use the same bit operations as the code; every access
    of tree_ is checked. *)
From Coq Require Import ZArith List Bool.
From Verif.Base Require Import Res Word Zl.
Import ListNotations.
Open Scope Z_scope.

(** include/BinaryIndexedTree.hpp:41 — std::vector::resize with value-initialised new elements *)
Definition vresize (l : list Z) (n : Z) : list Z := firstn (Z.to_nat n) l ++ amake (n - zlen l) 0.

(** include/BinaryIndexedTree.hpp:38-53 — init; [size] is sieve.size(), [get pos] is
    sieve[pos] as 0 or 1 and [old] the previous contents of tree_ *)
Definition bit_init (old : list Z) (size : Z) (get : Z -> res Z) (low : Z) : res (list Z) :=
  let size_ := size / 2 in
  for_ 0 size_ (fun i tree =>
    let i2 := i * 2 in
    s <- get i2 ;;
    n <- schk 64 (low + i2) ;;
    v <- schk 64 (n * s) ;;
    tree <- aset tree i v ;;
    let k := Z.land (i + 1) (Z.lnot i) in
    loop (fun '(k, j, tree) =>
      let k := Z.shiftr k 1 in
      if k =? 0 then Ok (inr tree)
      else
        a <- aget tree i ;;
        b <- aget tree (j - 1) ;;
        v <- schk 128 (a + b) ;;
        tree <- aset tree i v ;;
        Ok (inl (k, Z.land j (j - 1), tree))) (k, i, tree)) (vresize old size_).

(** include/BinaryIndexedTree.hpp:55-69 — update; size_ is the length of tree_ *)
Definition bit_update (tree : list Z) (n low : Z) : res (list Z) :=
  d <- schk 64 (n - low) ;;
  loop (fun '(pos, tree) =>
    a <- aget tree pos ;;
    v <- schk 128 (a - n) ;;
    tree <- aset tree pos v ;;
    let pos := Z.lor pos (pos + 1) in
    Ok (if pos <? zlen tree then inl (pos, tree) else inr tree)) (Z.shiftr d 1, tree).

(** include/BinaryIndexedTree.hpp:71-82 — sum *)
Definition bit_sum (tree : list Z) (pos : Z) : res Z :=
  let pos := Z.shiftr pos 1 in
  sum <- aget tree pos ;;
  loop (fun '(pos, sum) =>
    let pos := Z.land pos (pos - 1) in
    if pos =? 0 then Ok (inr sum)
    else b <- aget tree (pos - 1) ;; sum <- schk 128 (sum + b) ;; Ok (inl (pos, sum))) (pos + 1, sum).
