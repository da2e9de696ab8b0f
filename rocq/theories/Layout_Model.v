(** Layout_Model.v -- storage layout of the containers, matrix/vector pointers and views.
    All paths are relative to /repo/include/blast.  Addresses count elements. *)
From Coq Require Import Arith List Bool PeanoNat NArith.
From Verif Require Import Base.
Import ListNotations.

(** util/NextMultiple.hpp:24-27  nextMultiple(value, factor), on unbounded integers. *)
Definition nextMultiple (value factor : nat) : nat :=
  value + (factor - value mod factor) mod factor.

(** util/NextMultiple.hpp:24-27  the same expression evaluated in 64-bit unsigned arithmetic
    (size_t): every +,- is taken modulo 2^64. *)
Definition W64 : N := (2 ^ 64)%N.
Definition nextMultiple64 (value factor : N) : N :=
  ((value + ((factor + W64 - value mod factor) mod W64) mod factor) mod W64)%N.

(** Which family of containers / pointers: row/column-major dense or panel-major. *)
Inductive kind := Dense | Panel.

Section Layout.
Variable SS : nat.   (* SimdSize_v<T>, also PanelSize_v<T> (math/panel/PanelSize.hpp) *)

(* ------------------------------------------------------------------------------------------ *)
(** ** Containers *)

(** An owning container: DynamicMatrix / StaticMatrix / DynamicPanelMatrix / StaticPanelMatrix.
    [c_base] is data(); it is aligned to CACHE_LINE_SIZE = 64 bytes (alignas / align_val_t),
    hence in element units a multiple of SS. *)
Record container := Cont {
  c_kind : kind; c_static : bool; c_so : order; c_rows : nat; c_cols : nat; c_base : nat }.

(** dense/DynamicMatrix.hpp:36, dense/StaticMatrix.hpp:152,
    panel/DynamicPanelMatrix.hpp:60, panel/StaticPanelMatrix.hpp:169 *)
Definition c_spacing (c : container) : nat :=
  match c_kind c, c_so c with
  | Dense, columnMajor => nextMultiple (c_rows c) SS
  | Dense, rowMajor    => nextMultiple (c_cols c) SS
  | Panel, columnMajor => SS * c_cols c
  | Panel, rowMajor    => SS * c_rows c
  end.

(** Number of elements allocated: dense/DynamicMatrix.hpp:39, dense/StaticMatrix.hpp:153,
    panel/DynamicPanelMatrix.hpp:61 (over-allocates), panel/StaticPanelMatrix.hpp:166-170 *)
Definition c_capacity (c : container) : nat :=
  let sp := c_spacing c in
  let tiles n := n / SS + (if 0 <? n mod SS then 1 else 0) in
  match c_kind c, c_so c with
  | Dense, columnMajor => sp * c_cols c
  | Dense, rowMajor    => sp * c_rows c
  | Panel, columnMajor => if c_static c then tiles (c_rows c) * sp else sp * nextMultiple (c_rows c) SS
  | Panel, rowMajor    => if c_static c then tiles (c_cols c) * sp else sp * nextMultiple (c_cols c) SS
  end.

(** elementIndex: dense/DynamicMatrix.hpp:147-150, dense/StaticMatrix.hpp:162-165,
    panel/DynamicPanelMatrix.hpp:184-189, panel/StaticPanelMatrix.hpp:179-184 *)
Definition c_index (c : container) (i j : nat) : nat :=
  let sp := c_spacing c in
  match c_kind c, c_so c with
  | Dense, columnMajor => i + j * sp
  | Dense, rowMajor    => i * sp + j
  | Panel, columnMajor => i / SS * sp + i mod SS + j * SS
  | Panel, rowMajor    => j / SS * sp + j mod SS + i * SS
  end.

(** &m(i, j) *)
Definition c_addr (c : container) (i j : nat) : nat := c_base c + c_index c i j.

(** The buffer obtained by the constructor. *)
Definition c_alloc (c : container) : alloc :=
  fun a => (c_base c <=? a) && (a <? c_base c + c_capacity c).

(** operator()(i,j) const / operator()(i,j) = v on a container
    (dense/DynamicMatrix.hpp:86-95, panel/StaticPanelMatrix.hpp:107-116, ...). *)
Definition c_get {T} (al : alloc) (c : container) (m : mem T) (i j : nat) : res T := rd al m (c_addr c i j).
Definition c_set {T} (al : alloc) (c : container) (m : mem T) (i j : nat) (v : T) : res (mem T) :=
  wr al m (c_addr c i j) v.

(* ------------------------------------------------------------------------------------------ *)
(** ** Matrix pointers *)

(** DynamicMatrixPointer / StaticMatrixPointer / DynamicPanelMatrixPointer / StaticPanelMatrixPointer.
    The static and the dynamic classes differ only in whether the spacing is a template parameter;
    one record models both. *)
Record mptr := MPtr {
  mp_kind : kind; mp_so : order; mp_af : bool; mp_pf : bool; mp_base : nat; mp_sp : nat }.

(** ptrOffset: dense/DynamicMatrixPointer.hpp:200-206, dense/StaticMatrixPointer.hpp:197-200,
    panel/DynamicPanelMatrixPointer.hpp:224-241, panel/StaticPanelMatrixPointer.hpp:217-234.
    In element units, address % (SS*sizeof(T)) / sizeof(T) is [base mod SS] (element-aligned addresses).
    Offsets are restricted to non-negative values (the only ones used by the algorithms). *)
Definition ptr_offset (k : kind) (so : order) (af : bool) (base sp i j : nat) : nat :=
  match k with
  | Dense => match so with columnMajor => base + i + sp * j | rowMajor => base + sp * i + j end
  | Panel =>
      let rem := if af then 0 else base mod SS in
      let ptr := base - rem in
      let i := match so with columnMajor => i + rem | rowMajor => i end in
      let j := match so with columnMajor => j | rowMajor => j + rem end in
      match so with
      | columnMajor => ptr + (i / SS) * sp + i mod SS + j * SS
      | rowMajor    => ptr + i * SS + (j / SS) * sp + j mod SS
      end
  end.

(** address of p[i, j] (operator[], e.g. dense/DynamicMatrixPointer.hpp:124-127) *)
Definition addr (p : mptr) (i j : nat) : nat :=
  ptr_offset (mp_kind p) (mp_so p) (mp_af p) (mp_base p) (mp_sp p) i j.

(** p(i, j) (operator(), e.g. dense/DynamicMatrixPointer.hpp:110-113) *)
Definition poff (p : mptr) (i j : nat) : mptr :=
  MPtr (mp_kind p) (mp_so p) (mp_af p) (mp_pf p) (addr p i j) (mp_sp p).

(** ~p (e.g. panel/DynamicPanelMatrixPointer.hpp:171-174: constructs from (ptr_, spacing_, 0, 0)) *)
Definition punalign (p : mptr) : mptr :=
  MPtr (mp_kind p) (mp_so p) false (mp_pf p)
       (ptr_offset (mp_kind p) (mp_so p) false (mp_base p) (mp_sp p) 0 0) (mp_sp p).

(** p.trans() (e.g. dense/DynamicMatrixPointer.hpp:161-164, panel/DynamicPanelMatrixPointer.hpp:177-180) *)
Definition ptrans (p : mptr) : mptr :=
  MPtr (mp_kind p) (order_neg (mp_so p)) (mp_af p) (mp_pf p)
       (ptr_offset (mp_kind p) (order_neg (mp_so p)) (mp_af p) (mp_base p) (mp_sp p) 0 0) (mp_sp p).

(** p.hmove(inc): dense/DynamicMatrixPointer.hpp:167-175, panel/DynamicPanelMatrixPointer.hpp:183-195 *)
Definition hmove (p : mptr) (inc : nat) : mptr :=
  let b := mp_base p in let sp := mp_sp p in
  let b' := match mp_kind p, mp_so p with
            | Dense, columnMajor => b + sp * inc
            | Dense, rowMajor => b + inc
            | Panel, columnMajor => b + SS * inc
            | Panel, rowMajor => b + (sp * (inc / SS) + inc mod SS)
            end in
  MPtr (mp_kind p) (mp_so p) (mp_af p) (mp_pf p) b' sp.

(** p.vmove(inc): dense/DynamicMatrixPointer.hpp:178-186, panel/DynamicPanelMatrixPointer.hpp:198-210 *)
Definition vmove (p : mptr) (inc : nat) : mptr :=
  let b := mp_base p in let sp := mp_sp p in
  let b' := match mp_kind p, mp_so p with
            | Dense, rowMajor => b + sp * inc
            | Dense, columnMajor => b + inc
            | Panel, rowMajor => b + SS * inc
            | Panel, columnMajor => b + (sp * (inc / SS) + inc mod SS)
            end in
  MPtr (mp_kind p) (mp_so p) (mp_af p) (mp_pf p) b' sp.

(** cachePreferredTraversal: dense/DynamicMatrixPointer.hpp:32, panel/DynamicPanelMatrixPointer.hpp:32 *)
Definition cachePreferredTraversal (p : mptr) : order :=
  match mp_kind p with Dense => mp_so p | Panel => order_neg (mp_so p) end.

(* ------------------------------------------------------------------------------------------ *)
(** ** Views *)

(** What the algorithms receive as a "Matrix": a window of a container.  A container itself is the
    window (0, 0, rows, columns) with its own alignment/padding traits (true, true).
    views/Submatrix.hpp: Submatrix<MT, AF> keeps a reference to the operand container, the offset
    and the size (:148-156); submatrix of a submatrix refers to the original operand with summed offsets
    (:246-281), so nesting never builds chains. *)
Record view := View {
  v_cont : container; v_i : nat; v_j : nat; v_m : nat; v_n : nat; v_af : bool; v_pf : bool }.

Definition whole (c : container) : view := View c 0 0 (c_rows c) (c_cols c) true true.

(** views/Submatrix.hpp:227-231 submatrix<AF>(matrix, row, column, m, n); traits :176-188 *)
Definition submatrix (af : bool) (c : container) (r cl m n : nat) : view := View c r cl m n af false.

(** views/Submatrix.hpp:248-252, 269-273 submatrix<AF>(Submatrix, row, column, m, n) *)
Definition subsubmatrix (af : bool) (v : view) (r cl m n : nat) : view :=
  View (v_cont v) (v_i v + r) (v_j v + cl) m n af false.

(** views/Submatrix.hpp:118-131 operator()(i,j): matrix_(i_ + i, j_ + j) *)
Definition v_addr (v : view) (i j : nat) : nat := c_addr (v_cont v) (v_i v + i) (v_j v + j).

(** views/Submatrix.hpp:54 data_ = &matrix(i_, j_); data() of a container is its buffer. *)
Definition v_data (v : view) : nat := c_addr (v_cont v) (v_i v) (v_j v).

(** ptr<AF>(m, i, j): dense/DynamicMatrixPointer.hpp:242-263, dense/StaticMatrixPointer.hpp:238-251,
    panel/DynamicPanelMatrixPointer.hpp:274-287, panel/StaticPanelMatrixPointer.hpp:269-282 *)
Definition v_ptr (af : bool) (v : view) (i j : nat) : mptr :=
  let c := v_cont v in let sp := c_spacing c in
  MPtr (c_kind c) (c_so c) af (v_pf v) (ptr_offset (c_kind c) (c_so c) af (v_data v) sp i j) sp.

(** ptr(m): math/Matrix.hpp:30-50 *)
Definition v_ptr0 (v : view) : mptr := v_ptr (v_af v) v 0 0.

(** Read/write through a view (views/Submatrix.hpp:118-131). *)
Definition v_get {T} (al : alloc) (v : view) (m : mem T) (i j : nat) : res T := rd al m (v_addr v i j).
Definition v_set {T} (al : alloc) (v : view) (m : mem T) (i j : nat) (x : T) : res (mem T) :=
  wr al m (v_addr v i j) x.

(** views/Submatrix.hpp:290-296 reset(Submatrix&) *)
Definition v_reset {T} (al : alloc) (O : Ops T) (v : view) (m : mem T) : res (mem T) :=
  for_ 0 (v_m v) (fun i m => for_ 0 (v_n v) (fun j m => v_set al v m i j (o0 O)) m) m.

(** views/Row.hpp:48-60, 86-99: Row view (matrix, i, j, n); row[k] = matrix(i, j + k). *)
Record rowview := RowView { r_cont : container; r_i : nat; r_j : nat; r_n : nat }.
Definition row_of (c : container) (i : nat) : rowview := RowView c i 0 (c_cols c).
Definition row_part (c : container) (i j n : nat) : rowview := RowView c i j n.
Definition r_addr (r : rowview) (k : nat) : nat := c_addr (r_cont r) (r_i r) (r_j r + k).
(** views/Row.hpp:127-143 subvector(row, j, n) *)
Definition subvector (r : rowview) (j n : nat) : rowview := RowView (r_cont r) (r_i r) (r_j r + j) n.
(** views/Row.hpp:269-274 reset(Row&) *)
Definition r_reset {T} (al : alloc) (O : Ops T) (r : rowview) (m : mem T) : res (mem T) :=
  for_ 0 (r_n r) (fun k m => wr al m (r_addr r k) (o0 O)) m.

(** Transposition expressions: expressions/MatTransExpr.hpp:41-75 and PMatTransExpr.hpp:80-170:
    element (i,j) is the operand's (j,i), sizes exchanged, StorageOrder flipped (:222). *)
Record transexpr := TransExpr { t_op : view }.
Definition t_rows (t : transexpr) := v_n (t_op t).
Definition t_cols (t : transexpr) := v_m (t_op t).
Definition t_addr (t : transexpr) (i j : nat) := v_addr (t_op t) j i.
(** ptr(trans(m)): data()/spacing() of the operand with flipped order. *)
Definition t_ptr (af : bool) (t : transexpr) (i j : nat) : mptr :=
  let v := t_op t in let c := v_cont v in let sp := c_spacing c in
  MPtr (c_kind c) (order_neg (c_so c)) af (v_pf v)
       (ptr_offset (c_kind c) (order_neg (c_so c)) af (v_data v) sp i j) sp.

(** views/submatrix/Panel.hpp:83-107 checked constructor of PanelSubmatrix. *)
Definition panel_submatrix (c : container) (r cl m n : nat) : res view :=
  if (c_rows c <? r + m) || (c_cols c <? cl + n) then Throw InvalidArgument
  else if match c_so c with rowMajor => 0 <? cl mod SS | columnMajor => false end then Throw LogicError
  else if match c_so c with columnMajor => 0 <? r mod SS | rowMajor => false end then Throw LogicError
  else Ok (View c r cl m n true false).

(** views/submatrix/Panel.hpp:146-149 PanelSubmatrix::offset(), as written:
    SO == (columnMajor ? i_ : j_) % panelSize_, i.e. a comparison whose result is 0 or 1. *)
Definition panel_submatrix_offset (v : view) : nat :=
  let so := match c_so (v_cont v) with columnMajor => 1 | rowMajor => 0 end in
  if so =? (v_i v) mod SS then 1 else 0.

End Layout.
