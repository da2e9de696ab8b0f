(** Syrk_Model.v -- dense/Syrk.hpp.  Paths are relative to /repo/include/blast/math. *)
From Coq Require Import Arith List Bool PeanoNat.
From Verif Require Import Base Layout_Model Simd_Model Reg_Model Tile_Model Gemm_Model Ger_Model.
Import ListNotations.

Section Syrk.
Variable SS : nat.
Variable cc : nat.      (* TileSize / SimdSize, see Ger_Model *)
Variable T : Type.
Variable O : Ops T.
Notation TS := (TS SS cc).

(** The row loops of a block column starting at the diagonal (dense/Syrk.hpp:41-87 with full = true, cols = TILE_SIZE;
    :94-142 with full = false, cols = M - j). *)
Definition syrk_column (full : bool) (M j cols : nat) : list call :=
  let f := M - j + 1 in
  let r3 := steps f (fun i => (i + 3 * TS <=? M) && negb (i + 4 * TS =? M)) (3 * TS) j in
  let r2 := steps f (fun i => i + 2 * TS <=? M) (2 * TS) (snd r3) in
  let r1 := steps f (fun i => i + 1 * TS <=? M) (1 * TS) (snd r2) in
  let i := snd r1 in
  map (fun i => Call 3 TS i j (3 * TS) cols full) (fst r3) ++
  map (fun i => Call 2 TS i j (2 * TS) cols full) (fst r2) ++
  map (fun i => Call 1 TS i j (1 * TS) cols full) (fst r1) ++
  (if i <? M then [Call 1 TS i j (M - i) cols false] else []).

(** The loop over block columns (dense/Syrk.hpp:36-39, 92). *)
Definition syrk_calls (M : nat) : list call :=
  let rj := steps (M + 1) (fun j => j + TS <=? M) TS 0 in
  let j := snd rj in
  concat (map (fun j => syrk_column true M j TS) (fst rj)) ++
  (if j <? M then syrk_column false M j (M - j) else []).

(** One kernel: load, gemm with A and A^T, storeLower on the diagonal and store below it.
    [right] tells the calls of the right side (:90-143), which load ker.rows() rows of C also in the corner (:136). *)
Definition syrk_call (al : alloc) (K : nat) (alpha : T) (A : view) (beta : T) (C D : view) (c : call) (m : mem T)
    : res (mem T) :=
  let RM := k_rm c * cc in let N := k_n c in let i := k_i c in let j := k_j c in
  let pc := v_ptr SS true C i j in let pd := v_ptr SS true D i j in
  let pa := v_ptr SS true A i 0 in let pb := ptrans SS (v_ptr SS true A j 0) in
  if k_full c then
    r <- reg_loadb SS T O al N RM beta pc m (reg0 T O) ;;
    r <- reg_gemm SS T O al N RM K alpha pa pb m r ;;
    if i =? j then reg_storeLower SS T al N RM pd r m else reg_store SS T al N RM pd r m
  else
    let right := k_nn c <? TS in
    r <- reg_loadb_mn SS T O al N RM beta pc (if right then k_rm c * TS else k_m c) (k_nn c) m (reg0 T O) ;;
    r <- reg_gemm_mn SS T O al N RM K alpha pa pb (k_m c) (k_nn c) m r ;;
    if i =? j then reg_storeLower_mn SS T al N RM pd (k_m c) (k_nn c) r m
    else reg_store_mn SS T al N RM pd (k_m c) (k_nn c) r m.

(** syrkLower(alpha, A, beta, C, D) (dense/Syrk.hpp:15-145) for dense column-major matrices. *)
Definition syrkLower (al : alloc) (alpha : T) (A : view) (beta : T) (C D : view) (m : mem T) : res (mem T) :=
  let M := v_m A in let K := v_n A in
  if negb ((v_m C =? M) && (v_n C =? M)) then Throw InvalidArgument else
  if negb ((v_m D =? M) && (v_n D =? M)) then Throw InvalidArgument else
  foldM (syrk_call al K alpha A beta C D) (syrk_calls M) m.
End Syrk.
