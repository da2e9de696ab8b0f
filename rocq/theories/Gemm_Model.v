(** Gemm_Model.v -- algorithm/Gemm.hpp.  Paths are relative to /repo/include/blast/math. *)
From Coq Require Import Arith List Bool PeanoNat.
From Verif Require Import Base Layout_Model Simd_Model Reg_Model Tile_Model.
Import ListNotations.

Section Gemm.
Variable SS : nat.
Variable T : Type.
Variable O : Ops T.

(** A Matrix argument of an algorithm: a container or a submatrix of one ([view]), or its transpose expression. *)
Record marg := MArg { g_view : view; g_trans : bool }.
(** rows(), columns() (expressions/MatTransExpr.hpp:56-65: exchanged) *)
Definition g_rows (a : marg) : nat := if g_trans a then v_n (g_view a) else v_m (g_view a).
Definition g_cols (a : marg) : nat := if g_trans a then v_m (g_view a) else v_n (g_view a).
(** address of a(i, j) *)
Definition g_addr (a : marg) (i j : nat) : nat :=
  if g_trans a then v_addr SS (g_view a) j i else v_addr SS (g_view a) i j.
(** ptr(a): math/Matrix.hpp:30-50 (aligned iff IsAligned) on the view or on the transpose expression *)
Definition g_ptr (a : marg) : mptr :=
  if g_trans a then t_ptr SS (v_af (g_view a)) (TransExpr (g_view a)) 0 0 else v_ptr0 SS (g_view a).
(** StorageOrder_v of the argument (expressions/MatTransExpr.hpp:222: flipped) *)
Definition g_so (a : marg) : order :=
  let so := c_so (v_cont (g_view a)) in if g_trans a then order_neg so else so.

(** A default-constructed RegisterMatrix: all registers zero (RegisterMatrix.hpp:64-67). *)
Definition reg0 : regs T := fun _ _ _ => o0 O.

(** The functors passed to tile() by gemm(M, N, K, alpha, A, B, beta, C, D) (algorithm/Gemm.hpp:52-60) *)
Definition gemm_call (al : alloc) (K : nat) (alpha : T) (A B : mptr) (beta : T) (C D : mptr) (c : call) (m : mem T)
    : res (mem T) :=
  let a := poff SS A (k_i c) 0 in
  let b := poff SS (punalign SS B) 0 (k_j c) in
  let c' := poff SS C (k_i c) (k_j c) in
  let d := poff SS D (k_i c) (k_j c) in
  if k_full c then kgemm SS T O al (k_n c) (k_rm c) K alpha a b beta c' d reg0 m
  else kgemm_mn SS T O al (k_n c) (k_rm c) K alpha a b beta c' d (k_m c) (k_nn c) reg0 m.

(** gemm(M, N, K, alpha, A, B, beta, C, D) (algorithm/Gemm.hpp:45-62).  RegisterMatrix exists only for columnMajor
    (RegisterMatrix.hpp:39 static_assert), tile() instantiates it with the storage order of D. *)
Definition gemm_ptr (al : alloc) (M N K : nat) (alpha : T) (A B : mptr) (beta : T) (C D : mptr) (m : mem T)
    : res (mem T) :=
  if negb (order_eqb (mp_so D) columnMajor) then IllFormed else
  foldM (gemm_call al K alpha A B beta C D) (tile SS TILE_STEP (cachePreferredTraversal D) M N) m.

(** gemm(alpha, A, B, beta, C, D) (algorithm/Gemm.hpp:80-97) *)
Definition gemm (al : alloc) (alpha : T) (A B : marg) (beta : T) (C D : marg) (m : mem T) : res (mem T) :=
  let M := g_rows A in let N := g_cols B in let K := g_cols A in
  if negb (g_rows B =? K) then Throw InvalidArgument else
  if negb ((g_rows C =? M) && (g_cols C =? N)) then Throw InvalidArgument else
  if negb ((g_rows D =? M) && (g_cols D =? N)) then Throw InvalidArgument else
  gemm_ptr al M N K alpha (g_ptr A) (g_ptr B) beta (g_ptr C) (g_ptr D) m.

(** gemm(A, B, C, D) (algorithm/Gemm.hpp:113-118) *)
Definition gemm4 (al : alloc) (A B C D : marg) (m : mem T) : res (mem T) := gemm al (o1 O) A B (o1 O) C D m.
End Gemm.
