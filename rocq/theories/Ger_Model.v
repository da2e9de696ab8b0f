(** Ger_Model.v -- dense/Ger.hpp.  Paths are relative to /repo/include/blast/math. *)
From Coq Require Import Arith List Bool PeanoNat.
From Verif Require Import Base Layout_Model Simd_Model Reg_Model Tile_Model Gemm_Model.
Import ListNotations.

Section Ger.
Variable SS : nat.
Variable cc : nat.      (* TileSize_v<T> / SimdSize_v<T>: 1 on AVX2 (double), 2 on NEON (double); system/Tile.hpp:12-20 *)
Variable T : Type.
Variable O : Ops T.
Definition TS : nat := cc * SS.

(** The bodies of the loops of ger(M, N, alpha, x, y, A, B) (dense/Ger.hpp:60-130): a call on the block (i, j) with a
    RegisterMatrix<ET, k_rm * TILE_SIZE, TILE_SIZE>; unsized in the main part, sized at the bottom and right side. *)
Definition ger_call (al : alloc) (alpha : T) (x y : vptr) (A B : mptr) (c : call) (m : mem T) : res (mem T) :=
  let RM := k_rm c * cc in let N := k_n c in
  let a := poff SS A (k_i c) (k_j c) in let b := poff SS B (k_i c) (k_j c) in
  let xi := voff SS x (k_i c) in let yj := voff SS y (k_j c) in
  if k_full c then
    r <- reg_loadb SS T O al N RM (o1 O) a m (reg0 T O) ;;
    r <- reg_ger_alpha SS T O al N RM alpha xi yj m r ;;
    reg_store SS T al N RM b r m
  else
    r <- reg_loadb_mn SS T O al N RM (o1 O) a (k_m c) (k_nn c) m (reg0 T O) ;;
    r <- reg_ger_alpha_mn SS T O al N RM alpha xi yj (k_m c) (k_nn c) m r ;;
    reg_store_mn SS T al N RM b (k_m c) (k_nn c) r m.

(** ger(M, N, alpha, x, y, A, B) for column-major pointers (dense/Ger.hpp:46-131): the loop structure is the
    column-major traversal of Tile_Model with SS and the number of columns both equal to TILE_SIZE. *)
Definition ger_ptr (al : alloc) (M N : nat) (alpha : T) (x y : vptr) (A B : mptr) (m : mem T) : res (mem T) :=
  if negb (order_eqb (mp_so A) columnMajor && order_eqb (mp_so B) columnMajor) then IllFormed else
  foldM (ger_call al alpha x y A B) (tile TS TS columnMajor M N) m.

(** A vector argument: its size and ptr(x) (math/dense/StaticVectorPointer.hpp:200-226,
    math/dense/DynamicVectorPointer.hpp:194-220: pointer to the elements with their spacing). *)
Record varg := VArg { x_size : nat; x_ptr : vptr }.

(** ger(alpha, x, y, A, B), column-major (dense/Ger.hpp:158-185) *)
Definition ger_cm (al : alloc) (alpha : T) (x y : varg) (A B : marg) (m : mem T) : res (mem T) :=
  let M := x_size x in let N := x_size y in
  if negb (g_rows A =? M) then Throw InvalidArgument else
  if negb (g_cols A =? N) then Throw InvalidArgument else
  if negb (g_rows B =? M) then Throw InvalidArgument else
  if negb (g_cols B =? N) then Throw InvalidArgument else
  ger_ptr al M N alpha (x_ptr x) (x_ptr y) (g_ptr SS A) (g_ptr SS B) m.

(** ger(alpha, x, y, A, B), row-major (dense/Ger.hpp:245-262) *)
Definition ger_rm (al : alloc) (alpha : T) (x y : varg) (A B : marg) (m : mem T) : res (mem T) :=
  let M := x_size x in let N := x_size y in
  if negb ((g_rows A =? M) && (g_cols A =? N)) then Throw InvalidArgument else
  for_ 0 M (fun i m => for_ 0 N (fun j m =>
    a <- rd al m (g_addr SS A i j) ;;
    xi <- rd al m (vaddr SS (x_ptr x) i) ;;
    yj <- rd al m (vaddr SS (x_ptr y) j) ;;
    wr al m (g_addr SS B i j) (oadd O a (omul O (omul O alpha xi) yj))) m) m.
End Ger.
