(** Tile64_Model.v -- the loops of tile() in 64-bit size_t arithmetic.  Paths are relative to /repo/include/blast/math. *)
From Coq Require Import NArith List Bool.
From Verif Require Import Base Layout_Model Words_Model.
Import ListNotations.
Local Open Scope N_scope.

(** One functor call (as in Tile_Model, with size_t arguments): f_full(ker, i, j) or f_partial(ker, i, j, m, n) *)
Record call64 := Call64 { w_rm : N; w_n : N; w_i : N; w_j : N; w_m : N; w_nn : N; w_full : bool }.
(** for (; cond(i); i += step): the values of i for which the body is executed, and the last value of i; None if the loop has not ended after [fuel] tests *)
Fixpoint steps64 (fuel : nat) (cond : N -> bool) (step i : N) : option (list N * N) :=
  match fuel with
  | O => None
  | S fuel => if cond i then match steps64 fuel cond step (add64 i step) with Some (l, e) => Some (i :: l, e) | None => None end
              else Some ([], i)
  end.
Definition obind {A B} (x : option A) (f : A -> option B) : option B := match x with Some a => f a | None => None end.
(** n - j for size_t *)
Definition sub64 (a b : N) : N := (a + W64 - b) mod W64.
Definition ne64 (a b : N) : bool := negb (a =? b).

Section Tile.
Variables SS STEP : N.
(** detail::tile_backend<ET, KM, KN, SO>(arch, m, n, i, f_full, f_partial), KM = RM * SS (algorithm/arch/avx2/Tile.hpp:16-41) *)
Definition tile_backend64 (fuel : nat) (RM KN m n i : N) : option (list call64) :=
  obind (steps64 fuel (fun j => add64 j KN <=? n) KN 0) (fun r => let j := snd r in
  if add64 i (RM * SS) <=? m then
    Some (map (fun j => Call64 RM KN i j (RM * SS) KN true) (fst r) ++
          (if j <? n then [Call64 RM KN i j (RM * SS) (sub64 n j) false] else []))
  else
    Some (map (fun j => Call64 RM KN i j (sub64 m i) KN false) (fst r) ++
          (if j <? n then [Call64 RM KN i j (sub64 m i) (sub64 n j) false] else []))).
(** The row loops of a block column (algorithm/arch/avx2/Tile.hpp:60-84 with full = true, cols = STEP; :95-119 with full = false, cols = n - j) *)
Definition tile_column64 (fuel : nat) (full : bool) (m j cols : N) : option (list call64) :=
  obind (steps64 fuel (fun i => (add64 i (3 * SS) <=? m) && ne64 (add64 i (4 * SS)) m) (3 * SS) 0) (fun r3 =>
  obind (steps64 fuel (fun i => add64 i (2 * SS) <=? m) (2 * SS) (snd r3)) (fun r2 =>
  obind (steps64 fuel (fun i => add64 i (1 * SS) <=? m) (1 * SS) (snd r2)) (fun r1 =>
  let i := snd r1 in
  Some (map (fun i => Call64 3 STEP i j (3 * SS) cols full) (fst r3) ++
        map (fun i => Call64 2 STEP i j (2 * SS) cols full) (fst r2) ++
        map (fun i => Call64 1 STEP i j (1 * SS) cols full) (fst r1) ++
        (if i <? m then [Call64 1 STEP i j (sub64 m i) cols false] else []))))).
(** All the calls of a loop body, in order *)
Fixpoint all64 (l : list (option (list call64))) : option (list call64) :=
  match l with [] => Some [] | x :: l => obind x (fun a => obind (all64 l) (fun b => Some (a ++ b))) end.
(** detail::tile<ET, columnMajor>(arch, traversal_order, m, n, f_full, f_partial) (algorithm/arch/avx2/Tile.hpp:44-137).  Simplification: when the
    outer loop does not end, none of the calls made before is reported. *)
Definition tile64 (fuel : nat) (traversal : order) (m n : N) : option (list call64) :=
  match traversal with
  | columnMajor =>
      obind (steps64 fuel (fun j => add64 j STEP <=? n) STEP 0) (fun rj => let j := snd rj in
      obind (all64 (map (fun j => tile_column64 fuel true m j STEP) (fst rj))) (fun a =>
      obind (if j <? n then tile_column64 fuel false m j (sub64 n j) else Some []) (fun b => Some (a ++ b))))
  | rowMajor =>
      obind (steps64 fuel (fun i => (add64 i (2 * SS) <? m) && ne64 (add64 i (4 * SS)) m) (3 * SS) 0) (fun r3 =>
      obind (all64 (map (fun i => tile_backend64 fuel 3 STEP m n i) (fst r3))) (fun a =>
      obind (steps64 fuel (fun i => add64 i (1 * SS) <? m) (2 * SS) (snd r3)) (fun r2 =>
      obind (all64 (map (fun i => tile_backend64 fuel 2 STEP m n i) (fst r2))) (fun b =>
      obind (steps64 fuel (fun i => add64 i (0 * SS) <? m) (1 * SS) (snd r2)) (fun r1 =>
      obind (all64 (map (fun i => tile_backend64 fuel 1 STEP m n i) (fst r1))) (fun c => Some (a ++ b ++ c)))))))
  end.
End Tile.
