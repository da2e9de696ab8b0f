(** Tile_Model.v -- algorithm/arch/avx2/Tile.hpp and algorithm/arch/neon64/Tile.hpp (identical code):
    the sequence of functor calls issued by tile().  Paths are relative to /repo/include/blast/math. *)
From Coq Require Import Arith List Bool PeanoNat.
From Verif Require Import Base.
Import ListNotations.

(** One functor call: f_full(ker, i, j) or f_partial(ker, i, j, m, n) with
    ker : RegisterMatrix<ET, RM * SS, KN, columnMajor>. *)
Record call := Call { k_rm : nat; k_n : nat; k_i : nat; k_j : nat; k_m : nat; k_nn : nat; k_full : bool }.

(** algorithm/arch/avx2/Tile.hpp:49 *)
Definition TILE_STEP := 4.

Section Tile.
Variable SS : nat.
(** Number of kernel columns.  tile() uses STEP = TILE_STEP; the loops of dense/Ger.hpp:49-131 and of the other
    algorithms that predate tile() are the column-major traversal with SS and STEP both replaced by TileSize_v<T>. *)
Variable STEP : nat.

(** detail::tile_backend<ET, KM, KN, SO>(arch, m, n, i, f_full, f_partial), KM = RM * SS
    (algorithm/arch/avx2/Tile.hpp:16-41) *)
Definition tile_backend (RM KN m n i : nat) : list call :=
  let r := steps (n + 1) (fun j => j + KN <=? n) KN 0 in
  let j := snd r in
  if i + RM * SS <=? m then
    map (fun j => Call RM KN i j (RM * SS) KN true) (fst r) ++
    (if j <? n then [Call RM KN i j (RM * SS) (n - j) false] else [])
  else
    map (fun j => Call RM KN i j (m - i) KN false) (fst r) ++
    (if j <? n then [Call RM KN i j (m - i) (n - j) false] else []).

(** The three row loops of a block column starting at column j (algorithm/arch/avx2/Tile.hpp:60-84 with full = true,
    cols = STEP; :95-119 with full = false, cols = n - j). *)
Definition tile_column (full : bool) (m j cols : nat) : list call :=
  let r3 := steps (m + 1) (fun i => (i + 3 * SS <=? m) && negb (i + 4 * SS =? m)) (3 * SS) 0 in
  let r2 := steps (m + 1) (fun i => i + 2 * SS <=? m) (2 * SS) (snd r3) in
  let r1 := steps (m + 1) (fun i => i + 1 * SS <=? m) (1 * SS) (snd r2) in
  let i := snd r1 in
  map (fun i => Call 3 STEP i j (3 * SS) cols full) (fst r3) ++
  map (fun i => Call 2 STEP i j (2 * SS) cols full) (fst r2) ++
  map (fun i => Call 1 STEP i j (1 * SS) cols full) (fst r1) ++
  (if i <? m then [Call 1 STEP i j (m - i) cols false] else []).

(** detail::tile<ET, columnMajor>(arch, traversal_order, m, n, f_full, f_partial)
    (algorithm/arch/avx2/Tile.hpp:44-137) *)
Definition tile (traversal : order) (m n : nat) : list call :=
  match traversal with
  | columnMajor =>
      let rj := steps (n + 1) (fun j => j + STEP <=? n) STEP 0 in
      let j := snd rj in
      concat (map (fun j => tile_column true m j STEP) (fst rj)) ++
      (if j <? n then tile_column false m j (n - j) else [])
  | rowMajor =>
      let r3 := steps (m + 1) (fun i => (i + 2 * SS <? m) && negb (i + 4 * SS =? m)) (3 * SS) 0 in
      let r2 := steps (m + 1) (fun i => i + 1 * SS <? m) (2 * SS) (snd r3) in
      let r1 := steps (m + 1) (fun i => i + 0 * SS <? m) (1 * SS) (snd r2) in
      concat (map (fun i => tile_backend 3 STEP m n i) (fst r3)) ++
      concat (map (fun i => tile_backend 2 STEP m n i) (fst r2)) ++
      concat (map (fun i => tile_backend 1 STEP m n i) (fst r1))
  end.
End Tile.
