(** Words_Model.v -- construction and indexing of the dynamic containers in 64-bit size_t arithmetic.  Paths are relative to /repo/include/blast/math. *)
From Coq Require Import NArith.
From Verif Require Import Base Layout_Model.
Local Open Scope N_scope.

Definition add64 (a b : N) : N := (a + b) mod W64.
Definition mul64 (a b : N) : N := (a * b) mod W64.

(** spacing_ {nextMultiple(SO == columnMajor ? m : n, SimdSize_v<T>)} (dense/DynamicMatrix.hpp:36),
    spacing_ {SS * (SO == columnMajor ? n : m)} (panel/DynamicPanelMatrix.hpp:60) *)
Definition spacing64 (SS : N) (k : kind) (so : order) (m n : N) : N :=
  match k, so with
  | Dense, columnMajor => nextMultiple64 m SS
  | Dense, rowMajor => nextMultiple64 n SS
  | Panel, columnMajor => mul64 SS n
  | Panel, rowMajor => mul64 SS m
  end.
(** The array size spacing_ * (SO == columnMajor ? n : m) (dense/DynamicMatrix.hpp:39, also reset(): 131-134),
    capacity_ {spacing_ * nextMultiple(SO == columnMajor ? m : n, SS)} (panel/DynamicPanelMatrix.hpp:61) *)
Definition count64 (SS : N) (k : kind) (so : order) (m n : N) : N :=
  let sp := spacing64 SS k so m n in
  match k, so with
  | Dense, columnMajor => mul64 sp n
  | Dense, rowMajor => mul64 sp m
  | Panel, columnMajor => mul64 sp (nextMultiple64 m SS)
  | Panel, rowMajor => mul64 sp (nextMultiple64 n SS)
  end.
(** elementIndex(i, j) (dense/DynamicMatrix.hpp:147-150, panel/DynamicPanelMatrix.hpp:184-189) *)
Definition index64 (SS : N) (k : kind) (so : order) (m n i j : N) : N :=
  let sp := spacing64 SS k so m n in
  match k, so with
  | Dense, columnMajor => add64 i (mul64 j sp)
  | Dense, rowMajor => add64 (mul64 i sp) j
  | Panel, columnMajor => add64 (add64 (mul64 (i / SS) sp) (i mod SS)) (mul64 j SS)
  | Panel, rowMajor => add64 (add64 (mul64 (j / SS) sp) (j mod SS)) (mul64 i SS)
  end.
(** DynamicMatrix(m, n) (dense/DynamicMatrix.hpp:33-41), DynamicPanelMatrix(m, n) (panel/DynamicPanelMatrix.hpp:57-67): the number of elements of the new array, or
    None when new[] throws std::bad_array_new_length because the array is larger than [limit] bytes (implementation-defined).  [sz]: sizeof(T).
    Simplification: the allocator itself never fails. *)
Definition construct64 (SS sz limit : N) (k : kind) (so : order) (m n : N) : option N :=
  let c := count64 SS k so m n in if c * sz <=? limit then Some c else None.
