(** PanelView_Model.v -- checked views of panel matrices: submatrices (also nested), rows, transposition expressions.
    Paths are relative to /repo/include/blast/math. *)
From Coq Require Import Arith NArith List Bool PeanoNat.
From Verif Require Import Base Layout_Model.
Import ListNotations.

Section PanelView.
Variable SS : nat.

(** a + b of two std::size_t: 64-bit words *)
Definition word_add (a b : N) : N := ((a + b) mod W64)%N.
(** PanelSubmatrix(matrix, i, j, m, n) (views/submatrix/Panel.hpp:83-110) with std::size_t arguments; submatrix(PanelMatrix, row, column, m, n)
    (PanelMatrix.hpp:14-25).  Simplification: data_(&matrix_(row(), column())) is only an address computation here.
    IsRowMajorMatrix_v, IsColumnMajorMatrix_v: the storage order of the operand; panelSize_ = SIMD size (panel/PanelSize.hpp:26). *)
Definition panel_sub (c : container) (i j m n : N) : res view :=
  if (N.of_nat (c_rows c) <? word_add i m)%N || (N.of_nat (c_cols c) <? word_add j n)%N then Throw InvalidArgument
  else if match c_so c with rowMajor => (0 <? j mod N.of_nat SS)%N | columnMajor => false end then Throw LogicError
  else if match c_so c with columnMajor => (0 <? i mod N.of_nat SS)%N | rowMajor => false end then Throw LogicError
  else Ok (View c (N.to_nat i) (N.to_nat j) (N.to_nat m) (N.to_nat n) true false).
(** submatrix(PanelSubmatrix, row, column, m, n) (views/submatrix/Panel.hpp:262-273): a view of the operand of the given view *)
Definition panel_subsub (v : view) (i j m n : N) : res view :=
  panel_sub (v_cont v) (word_add (N.of_nat (v_i v)) i) (word_add (N.of_nat (v_j v)) j) m n.
(** PanelSubmatrix::at(i, j) (views/submatrix/Panel.hpp:203-224): the address of the element *)
Definition panel_at (v : view) (i j : nat) : res nat :=
  if v_m v <=? i then Throw OutOfRange else if v_n v <=? j then Throw OutOfRange else Ok (v_addr SS v i j).
(** PMatTransExpr::at(i, j) (expressions/PMatTransExpr.hpp:101-110) *)
Definition trans_at (t : transexpr) (i j : nat) : res nat :=
  if v_n (t_op t) <=? i then Throw OutOfRange else if v_m (t_op t) <=? j then Throw OutOfRange else Ok (t_addr SS t i j).

(** PanelSubmatrix::offset() (views/submatrix/Panel.hpp:147-152): SO == (columnMajor ? i_ : j_) % panelSize_, that is, the truth value of SO == i_ % panelSize_, where
    rowMajor = 0 and columnMajor = 1 (StorageOrder.hpp:10-14) *)
Definition order_number (so : order) : nat := match so with rowMajor => 0 | columnMajor => 1 end.
Definition ps_offset (v : view) : nat := if order_number (c_so (v_cont v)) =? v_i v mod SS then 1 else 0.

(** row(PanelMatrix, row) (PanelMatrix.hpp:29-40), PanelMatrixRow(matrix, i) (views/row/Panel.hpp:62-77) *)
Record prow := PRow { pr_cont : container; pr_i : nat }.
Definition panel_row (c : container) (i : nat) : res prow :=
  if c_rows c <=? i then Throw InvalidArgument else Ok (PRow c i).
(** size() (:92-95) *)
Definition pr_size (r : prow) : nat := c_cols (pr_cont r).
(** operator[](j) (:127-138): the address of the element *)
Definition pr_addr (r : prow) (j : nat) : nat := c_addr SS (pr_cont r) (pr_i r) j.
(** at(j) (:154-169) calls operator()(row, j), which the class does not have: not instantiable.
    load<SS>(j) (:141-148) calls matrix_.load<SS>(row, j), which no panel matrix class has, and is rejected for column-major matrices. *)
Definition pr_at (r : prow) (j : nat) : res nat := IllFormed.
Definition pr_load (r : prow) (j : nat) : res nat := IllFormed.
(** offset() (:99-103): SO == rowMajor ? matrix_.offset() : 0.  Both branches are compiled; only StaticPanelMatrix has offset()
    (panel/StaticPanelMatrix.hpp:146-149: 0). *)
Definition pr_offset (r : prow) : res nat := if c_static (pr_cont r) then Ok 0 else IllFormed.
End PanelView.
