(** RowPtr_Model.v -- rows of matrices as vector arguments: the traits of Row and ptr(row).  Paths are relative to /repo/include/blast/math. *)
From Coq Require Import Arith List Bool PeanoNat.
From Verif Require Import Base Layout_Model Simd_Model.

Section RowPtr.
Variable SS : nat.

(** Row<MT> (matrix_, i_, j_, n_) where MT is a container or a Submatrix of one: views/Row.hpp:17-153.  (Layout_Model.rowview is the special case of a container.)
    [vr_const]: MT is const, so that Reference and Pointer are those to constant elements (views/Row.hpp:37-46). *)
Record vrow := VRow { vr_v : view; vr_i : nat; vr_j : nat; vr_n : nat; vr_const : bool }.
(** row(matrix, i), row(matrix, i, j, n): views/Row.hpp:238-261; MT is deduced as a const type for a const matrix *)
Definition vrow_of (v : view) (i : nat) : vrow := VRow v i 0 (v_n v) false.
Definition vrow_of_const (v : view) (i : nat) : vrow := VRow v i 0 (v_n v) true.
Definition vrow_part (v : view) (i j n : nat) : vrow := VRow v i j n false.
(** subvector(Row&& row, j, n) (views/Row.hpp:133-136), for temporaries; subvector(Row const& row, j, n) (:146-149), for all others, also if they are not const: the result is a Row<MT const> *)
Definition vrow_sub (r : vrow) (j n : nat) : vrow := VRow (vr_v r) (vr_i r) (vr_j r + j) n (vr_const r).
Definition vrow_sub_named (r : vrow) (j n : nat) : vrow := VRow (vr_v r) (vr_i r) (vr_j r + j) n true.
(** row[k] = matrix_(i_, j_ + k): views/Row.hpp:86-99 *)
Definition vrow_addr (r : vrow) (k : nat) : nat := v_addr SS (vr_v r) (vr_i r) (vr_j r + k).

(** IsAligned<Row<MT>>: views/Row.hpp:164-165; it does not depend on the column the row part starts at *)
Definition row_aligned (v : view) : bool := v_af v && v_pf v.
(** IsStaticallySpaced<Row<MT>>: views/Row.hpp:199-209; IsStatic<Submatrix<MT, AF>> is IsStatic<MT> (views/Submatrix.hpp:188-189) *)
Definition row_statically_spaced (v : view) : bool :=
  match c_kind (v_cont v), c_so (v_cont v) with
  | Dense, columnMajor => c_static (v_cont v)
  | Dense, rowMajor => true
  | Panel, columnMajor => true
  | Panel, rowMajor => false
  end.
(** Spacing<Row<MT>>: views/Row.hpp:215-225; None: no specialisation *)
Definition row_spacing (v : view) : option nat :=
  match c_kind (v_cont v), c_so (v_cont v) with
  | Dense, so => if c_static (v_cont v) then Some (match so with rowMajor => 1 | columnMajor => c_spacing SS (v_cont v) end) else None
  | Panel, columnMajor => Some SS
  | Panel, rowMajor => None
  end.
(** concept Vector (typetraits/Vector.hpp:19-28): p = data(v) must be valid for a pointer p to non-constant elements *)
Definition row_is_vector (r : vrow) : bool := negb (vr_const r).
(** row[k] = x: operator[] (views/Row.hpp:91-103) returns Reference *)
Definition row_set {T} (al : alloc) (r : vrow) (k : nat) (x : T) (m : mem T) : res (mem T) :=
  if vr_const r then IllFormed else wr al m (vrow_addr r k) x.
(** row = rhs (views/Row.hpp:83-88): for a vector of another type calls assign(row, rhs), and no function assign takes vectors (Matrix.hpp:72, expressions/PanelMatrix.hpp:64, 73, 82, 171
    take matrices, Blaze's take Blaze vectors); for the same type the implicit copy assignment is selected, which is deleted because of the const members. *)
Definition row_assign {T} (r : vrow) (rhs : nat -> T) (m : mem T) : res (mem T) := IllFormed.
(** ptr<AF>(row, k): dense/StaticVectorPointer.hpp:237-244 (needs Spacing) or dense/DynamicVectorPointer.hpp:216-223 (calls spacing(row), which does not exist) *)
Definition row_ptr (af : bool) (r : vrow) (k : nat) : res vptr :=
  if negb (row_is_vector r) then IllFormed else
  if row_statically_spaced (vr_v r)
  then match row_spacing (vr_v r) with Some s => Ok (VStat s af (vrow_addr r k)) | None => IllFormed end
  else IllFormed.
(** ptr(row): Vector.hpp:24-44, requires IsDenseVector_v, which is IsDenseMatrix_v of the matrix (views/Row.hpp:185-186) *)
Definition row_ptr0 (r : vrow) : res vptr :=
  match c_kind (v_cont (vr_v r)) with Dense => row_ptr (row_aligned (vr_v r)) r 0 | Panel => IllFormed end.
End RowPtr.
