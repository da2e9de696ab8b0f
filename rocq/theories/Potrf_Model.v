(** Potrf_Model.v -- dense/Potrf.hpp and panel/Potrf.hpp.  Paths are relative to /repo/include/blast/math. *)
From Coq Require Import Arith List Bool PeanoNat.
From Verif Require Import Base Layout_Model Simd_Model Reg_Model Tile_Model Gemm_Model Ger_Model.
Import ListNotations.

Section Potrf.
Variable SS : nat.
(** Row step in SIMD registers: TileSize / SimdSize in dense/Potrf.hpp:97-104, 1 in panel/Potrf.hpp:97-104. *)
Variable cc : nat.
(** Columns per kernel: 4 in dense/Potrf.hpp:87, min((registerCapacity - 4) / 3, SS) in panel/Potrf.hpp:87. *)
Variable KN : nat.
Variable T : Type.
Variable O : Ops T.
Notation TS := (TS SS cc).

(** The accumulation loop: ker.ger(-1, column(a(0,l)), row) for l < k, row l of b given by [brow]
    (dense/Potrf.hpp:40-41, panel/Potrf.hpp:44-45) *)
Definition potrf_gers (al : alloc) (RM k : nat) (a : mptr) (brow : nat -> vptr) (m : mem T) (r : regs T) : res (regs T) :=
  for_ 0 k (fun l r => reg_ger_alpha SS T O al KN RM (om1 O) (VMat columnVector (poff SS a 0 l)) (brow l) m r) r.

(** potrf_backend<KM, KN>(k, i, A, L) with KM = rm * TS (dense/Potrf.hpp:20-63) *)
Definition potrf_dense_call (al : alloc) (A L : view) (k i rm : nat) (m : mem T) : res (mem T) :=
  let M := v_m A in let N := v_n A in let RM := rm * cc in let KM := rm * TS in
  r <- reg_loadb SS T O al KN RM (o1 O) (v_ptr SS true A i k) m (reg0 T O) ;;
  let a := v_ptr SS true L i 0 in let b := v_ptr SS true L k 0 in
  r <- potrf_gers al RM k a (fun l => VMat rowVector (poff SS (ptrans SS b) l 0)) m r ;;
  let p := v_ptr SS true L i k in
  if i =? k then
    r <- reg_potrf SS T O KN RM r ;;
    if k + KN <=? N then reg_storeLower SS T al KN RM p r m
    else reg_storeLower_mn SS T al KN RM p (min (M - i) KM) (N - k) r m
  else
    r <- reg_trsm SS T O al KN RM (ptrans SS (v_ptr SS true L k k)) m r ;;
    if k + KN <=? N then reg_store SS T al KN RM p r m
    else reg_store_mn SS T al KN RM p (min (M - i) KM) (N - k) r m.

(** potrf_backend<KM, KN>(k, i, A, L) for panel matrices (panel/Potrf.hpp:23-56): the diagonal block is stored whole *)
Definition potrf_panel_call (al : alloc) (A L : view) (k i rm : nat) (m : mem T) : res (mem T) :=
  let M := v_m A in let N := v_n A in let RM := rm * cc in let KM := rm * TS in
  r <- reg_load SS T O al KN RM (v_ptr SS true A i k) m (reg0 T O) ;;
  let a := v_ptr SS true L i 0 in let b := v_ptr SS true L k 0 in
  r <- potrf_gers al RM k a (fun l => vtrans SS (VMat columnVector (poff SS b 0 l))) m r ;;
  let p := v_ptr SS true L i k in
  r <- (if i =? k then reg_potrf SS T O KN RM r
        else reg_trsm SS T O al KN RM (ptrans SS (v_ptr SS true L k k)) m r) ;;
  if k + KN <=? N then reg_store SS T al KN RM p r m
  else reg_store_mn SS T al KN RM p (min (M - i) KM) (N - k) r m.

(** The loops over i and k (dense/Potrf.hpp:88-105, panel/Potrf.hpp:88-105) *)
Definition potrf_column (call : nat -> nat -> nat -> mem T -> res (mem T)) (M k : nat) (m : mem T) : res (mem T) :=
  let f := M + 1 in
  let r3 := steps f (fun i => i + 2 * TS <? M) (3 * TS) k in
  let r2 := steps f (fun i => i + 1 * TS <? M) (2 * TS) (snd r3) in
  let r1 := steps f (fun i => i + 0 * TS <? M) (1 * TS) (snd r2) in
  m <- foldM (fun i m => call k i 3 m) (fst r3) m ;;
  m <- foldM (fun i m => call k i 2 m) (fst r2) m ;;
  foldM (fun i m => call k i 1 m) (fst r1) m.
Definition potrf_loops (call : nat -> nat -> nat -> mem T -> res (mem T)) (M N : nat) (m : mem T) : res (mem T) :=
  foldM (fun k m => potrf_column call M k m) (fst (steps (N + 1) (fun k => k <? N) KN 0)) m.

(** The size checks (dense/Potrf.hpp:78-85, panel/Potrf.hpp:71-78) *)
Definition potrf_check (A L : view) (body : res (mem T)) : res (mem T) :=
  if v_m A <? v_n A then Throw InvalidArgument else
  if negb (v_m L =? v_m A) then Throw InvalidArgument else
  if negb (v_n L =? v_n A) then Throw InvalidArgument else body.

(** potrf(A, L) (dense/Potrf.hpp:66-106, panel/Potrf.hpp:57-106) for column-major matrices *)
Definition potrf_dense (al : alloc) (A L : view) (m : mem T) : res (mem T) :=
  potrf_check A L (potrf_loops (potrf_dense_call al A L) (v_m A) (v_n A) m).
Definition potrf_panel (al : alloc) (A L : view) (m : mem T) : res (mem T) :=
  potrf_check A L (potrf_loops (potrf_panel_call al A L) (v_m A) (v_n A) m).
End Potrf.
