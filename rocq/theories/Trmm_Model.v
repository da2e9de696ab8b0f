(** Trmm_Model.v -- algorithm/Trmm.hpp.  Paths are relative to /repo/include/blast/math. *)
From Coq Require Import Arith List Bool PeanoNat.
From Verif Require Import Base Layout_Model Simd_Model Reg_Model Tile_Model Gemm_Model Ger_Model.
Import ListNotations.

Section Trmm.
Variable SS : nat.
Variable cc : nat.      (* TileSize / SimdSize, see Ger_Model *)
Variable T : Type.
Variable O : Ops T.
Notation TS := (TS SS cc).

(** One iteration of the column loops of detail::trmmLeftUpper_backend<KM, KN>(M - i, N, alpha, A(i,i), B(i,0), C(i,0))
    (algorithm/Trmm.hpp:35-70): [c] is the block at row i = k_i c, column j = k_j c.  KM <= M - i: full width (:35-41) /
    last columns (:43-49); otherwise the last rows (:56-62, :64-70).  The kernel object is shared by the iterations in
    the code, but every iteration resets it first. *)
Definition trmmL_call (al : alloc) (M : nat) (alpha : T) (A B C : mptr) (c : call) (m : mem T) : res (mem T) :=
  let RM := k_rm c * cc in let KM := k_rm c * TS in let N := k_n c in let i := k_i c in let j := k_j c in
  let a := poff SS A i i in let b := poff SS B i 0 in let pc := poff SS C i 0 in
  r <- reg_reset T O N RM (reg0 T O) ;;
  if k_full c then
    r <- reg_trmm_left SS T O al N RM alpha a Upper false (poff SS b 0 j) m r ;;
    r <- reg_gemm SS T O al N RM (M - i - KM) alpha (poff SS a 0 KM) (poff SS b KM j) m r ;;
    reg_store SS T al N RM (poff SS pc 0 j) r m
  else
    r <- reg_gemm_mn SS T O al N RM (M - i) alpha a (poff SS b 0 j) (k_m c) (k_nn c) m r ;;
    reg_store_mn SS T al N RM (poff SS pc 0 j) (k_m c) (k_nn c) r m.

(** trmm(M, N, alpha, A, uplo, diagonal_unit, B, C): C = alpha*A*B (algorithm/Trmm.hpp:93-128).  The row loops with the
    backend's column loops are the row-major traversal of Tile_Model with SS and STEP equal to TILE_SIZE. *)
Definition trmmL_ptr (al : alloc) (M N : nat) (alpha : T) (A : mptr) (ul : uplo) (unit : bool) (B C : mptr) (m : mem T)
    : res (mem T) :=
  if negb (order_eqb (mp_so A) columnMajor && order_eqb (mp_so C) columnMajor) then IllFormed else
  if unit then Throw LogicError else
  match ul with
  | Upper => foldM (trmmL_call al M alpha A B C) (tile TS TS rowMajor M N) m
  | Lower => Throw LogicError
  end.

(** The kernels of trmm(M, N, alpha, B, A, uplo, diagonal_unit, C) (algorithm/Trmm.hpp:165-193 main part,
    195-202 bottom side, 207-240 right side and corner, where there is no gemm). *)
Definition trmmR_call (al : alloc) (N : nat) (alpha : T) (B A : mptr) (unit : bool) (C : mptr) (c : call) (m : mem T)
    : res (mem T) :=
  let RM := k_rm c * cc in let KN := k_n c in let i := k_i c in let j := k_j c in
  if k_full c then
    r <- reg_trmm_right SS T O al KN RM alpha (poff SS B i j) (poff SS A j j) Lower unit m (reg0 T O) ;;
    r <- reg_gemm SS T O al KN RM (N - j - TS) alpha (poff SS B i (j + TS)) (poff SS A (j + TS) j) m r ;;
    reg_store SS T al KN RM (poff SS C i j) r m
  else
    r <- reg_trmm_right_mn SS T O al KN RM alpha (poff SS B i j) (poff SS A j j) Lower unit (k_m c) (k_nn c) m (reg0 T O) ;;
    r <- (if k_nn c <? TS then Ok r
          else reg_gemm_mn SS T O al KN RM (N - j - TS) alpha (poff SS B i (j + TS)) (poff SS A (j + TS) j) (k_m c) (k_nn c) m r) ;;
    reg_store_mn SS T al KN RM (poff SS C i j) (k_m c) (k_nn c) r m.

(** trmm(M, N, alpha, B, A, uplo, diagonal_unit, C): C = alpha*B*A (algorithm/Trmm.hpp:149-246) *)
Definition trmmR_ptr (al : alloc) (M N : nat) (alpha : T) (B A : mptr) (ul : uplo) (unit : bool) (C : mptr) (m : mem T)
    : res (mem T) :=
  if negb (order_eqb (mp_so B) columnMajor && order_eqb (mp_so C) columnMajor) then IllFormed else
  match ul with
  | Lower => foldM (trmmR_call al N alpha B A unit C) (tile TS TS columnMajor M N) m
  | Upper => Throw LogicError
  end.

(** trmm(alpha, A, uplo, diag, B, C) (algorithm/Trmm.hpp:262-282) *)
Definition trmmL (al : alloc) (alpha : T) (A : marg) (ul : uplo) (unit : bool) (B C : marg) (m : mem T) : res (mem T) :=
  let M := g_rows B in let N := g_cols B in
  if negb ((g_rows A =? M) && (g_cols A =? M)) then Throw InvalidArgument else
  if negb ((g_rows C =? M) && (g_cols C =? N)) then Throw InvalidArgument else
  trmmL_ptr al M N alpha (g_ptr SS A) ul unit (g_ptr SS B) (g_ptr SS C) m.

(** trmm(alpha, B, A, uplo, diag, C) (algorithm/Trmm.hpp:298-313) *)
Definition trmmR (al : alloc) (alpha : T) (B A : marg) (ul : uplo) (unit : bool) (C : marg) (m : mem T) : res (mem T) :=
  let M := g_rows B in let N := g_cols B in
  if negb ((g_rows A =? N) && (g_cols A =? N)) then Throw InvalidArgument else
  if negb ((g_rows C =? M) && (g_cols C =? N)) then Throw InvalidArgument else
  trmmR_ptr al M N alpha (g_ptr SS B) (g_ptr SS A) ul unit (g_ptr SS C) m.
End Trmm.
