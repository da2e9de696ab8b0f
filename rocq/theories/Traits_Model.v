(** Traits_Model.v -- the compile-time traits of matrix types, and the overload of ptr() they select, for arbitrarily nested views.
    Paths are relative to /repo/include/blast/math.  Blaze's own matrix types are not modelled. *)
From Coq Require Import List Bool Arith PeanoNat.
From Verif Require Import Base Layout_Model.
Import ListNotations.

(** Matrix types: StaticMatrix / StaticPanelMatrix with sizes, DynamicMatrix / DynamicPanelMatrix, Submatrix<MT, AF> (views/Submatrix.hpp),
    PanelSubmatrix<MT, SO> (views/submatrix/Panel.hpp), MatTransExpr<MT> (expressions/MatTransExpr.hpp), MT const *)
Inductive mty :=
  | TStatic (k : kind) (so : order) (rows cols : nat)
  | TDyn (k : kind) (so : order)
  | TSub (t : mty) (af : bool)
  | TPanelSub (t : mty)
  | TTrans (t : mty)
  | TConst (t : mty).

(** IsStatic (dense/StaticMatrix.hpp:209, dense/DynamicMatrix.hpp:201, panel/StaticPanelMatrix.hpp:275, panel/DynamicPanelMatrix.hpp:219,
    views/Submatrix.hpp:189, expressions/MatTransExpr.hpp:186, typetraits/IsStatic.hpp:25).  PanelSubmatrix has no specialisation: as a Blaze matrix it gets the
    default of Blaze, false (blaze/math/typetraits/IsStatic.hpp:21-23). *)
Fixpoint is_static (t : mty) : bool :=
  match t with
  | TStatic _ _ _ _ => true
  | TDyn _ _ => false
  | TSub t _ => is_static t
  | TPanelSub _ => false
  | TTrans t => is_static t
  | TConst t => is_static t
  end.
(** IsDenseMatrix (typetraits/IsDenseMatrix.hpp:18 false by default, dense/StaticMatrix.hpp:205, dense/DynamicMatrix.hpp:197, views/Submatrix.hpp:196,
    expressions/MatTransExpr.hpp:195).  There is no specialisation for const types. *)
Fixpoint is_dense (t : mty) : bool :=
  match t with
  | TStatic k _ _ _ | TDyn k _ => match k with Dense => true | Panel => false end
  | TSub t _ => is_dense t
  | TPanelSub _ => false
  | TTrans t => is_dense t
  | TConst _ => false
  end.
(** IsPanelMatrix (typetraits/IsPanelMatrix.hpp:31-84: pointer convertible to PanelMatrix const *, also for const types; expressions/MatTransExpr.hpp:204).
    Submatrix is not derived from PanelMatrix; the specialisation for MatTransExpr does not match const types. *)
Fixpoint is_panel (t : mty) : bool :=
  match t with
  | TStatic k _ _ _ | TDyn k _ => match k with Dense => false | Panel => true end
  | TSub _ _ => false
  | TPanelSub _ => true
  | TTrans t => is_panel t
  | TConst t => match t with TTrans _ => false | _ => is_panel t end
  end.
(** StorageOrder_v (dense/StaticMatrix.hpp:217, dense/DynamicMatrix.hpp:205, panel/DynamicPanelMatrix.hpp:197, panel/StaticPanelMatrix.hpp:248,
    views/Submatrix.hpp:217, expressions/MatTransExpr.hpp:222, typetraits/StorageOrder.hpp:29); None: no specialisation (PanelSubmatrix) *)
Fixpoint storage_order (t : mty) : option order :=
  match t with
  | TStatic _ so _ _ | TDyn _ so => Some so
  | TSub t _ => storage_order t
  | TPanelSub _ => None
  | TTrans t => option_map order_neg (storage_order t)
  | TConst t => storage_order t
  end.
(** IsAligned (dense/StaticMatrix.hpp:221, dense/DynamicMatrix.hpp:209, panel/DynamicPanelMatrix.hpp:230, panel/StaticPanelMatrix.hpp:286, views/Submatrix.hpp:173,
    expressions/MatTransExpr.hpp:168, typetraits/IsAligned.hpp:25); PanelSubmatrix: the default of Blaze, false *)
Fixpoint is_aligned (t : mty) : bool :=
  match t with
  | TStatic _ _ _ _ | TDyn _ _ => true
  | TSub _ af => af
  | TPanelSub _ => false
  | TTrans t => is_aligned t
  | TConst t => is_aligned t
  end.
(** IsPadded (dense/StaticMatrix.hpp:225, dense/DynamicMatrix.hpp:213, panel/DynamicPanelMatrix.hpp:244, panel/StaticPanelMatrix.hpp:300, views/Submatrix.hpp:182,
    expressions/MatTransExpr.hpp:177, typetraits/IsPadded.hpp:25) *)
Fixpoint is_padded (t : mty) : bool :=
  match t with
  | TStatic _ _ _ _ | TDyn _ _ => true
  | TSub _ _ => false
  | TPanelSub _ => false
  | TTrans t => is_padded t
  | TConst t => is_padded t
  end.
Section S.
Variable SS : nat.
(** Spacing_v (dense/StaticMatrix.hpp:213, panel/StaticPanelMatrix.hpp:236, views/Submatrix.hpp:210, expressions/MatTransExpr.hpp:213); None: no specialisation
    (dynamic matrices, const types) *)
Fixpoint spacing_v (t : mty) : option nat :=
  match t with
  | TStatic k so r c => Some (c_spacing SS (Cont k true so r c 0))
  | TDyn _ _ => None
  | TSub t _ => spacing_v t
  | TPanelSub _ => None
  | TTrans t => spacing_v t
  | TConst _ => None
  end.

(** The pointer class selected by ptr<AF>(m, i, j) for an lvalue of type t: kind, storage order, alignment, padding, spacing if it is a template argument.
    dense/StaticMatrixPointer.hpp:238-251, dense/DynamicMatrixPointer.hpp:242-263, panel/StaticPanelMatrixPointer.hpp:269-282,
    panel/DynamicPanelMatrixPointer.hpp:274-287: for a const lvalue the overloads with MT const& are selected, with MT the type without const.
    IllFormed: no overload, or a trait that is not defined for the type. *)
Record ptype := PType { p_kind : kind; p_so : order; p_af : bool; p_pf : bool; p_sp : option nat }.
Definition unconst (t : mty) : mty := match t with TConst t => t | _ => t end.
Definition ptr_type (af : bool) (t : mty) : res ptype :=
  let t := unconst t in
  let kind := if is_dense t then Some Dense else if is_panel t then Some Panel else None in
  match kind, storage_order t with
  | Some k, Some so =>
      if is_static t then match spacing_v t with Some s => Ok (PType k so af (is_padded t) (Some s)) | None => IllFormed end
      else Ok (PType k so af (is_padded t) None)
  | _, _ => IllFormed
  end.

(** Matrix objects: a container, a Submatrix (alignment flag, whether the viewed type is const, viewed object, i, j, m, n), a PanelSubmatrix, trans(v) *)
Inductive mval :=
  | VC (c : container)
  | VSub (af cst : bool) (v : mval) (i j m n : nat)
  | VPSub (cst : bool) (v : mval) (i j m n : nat)
  | VTr (v : mval).
Fixpoint type_of (v : mval) : mty :=
  match v with
  | VC c => if c_static c then TStatic (c_kind c) (c_so c) (c_rows c) (c_cols c) else TDyn (c_kind c) (c_so c)
  | VSub af cst v _ _ _ _ => TSub (if cst then TConst (type_of v) else type_of v) af
  | VPSub cst v _ _ _ _ => TPanelSub (if cst then TConst (type_of v) else type_of v)
  | VTr v => TTrans (type_of v)
  end.
(** rows(), columns() (views/Submatrix.hpp:80-93, expressions/MatTransExpr.hpp:50-61) *)
Fixpoint mv_rows (v : mval) : nat := match v with VC c => c_rows c | VSub _ _ _ _ _ m _ | VPSub _ _ _ _ m _ => m | VTr v => mv_cols v end
with mv_cols (v : mval) : nat := match v with VC c => c_cols c | VSub _ _ _ _ _ _ n | VPSub _ _ _ _ _ n => n | VTr v => mv_rows v end.
(** The address of v(i, j) (views/Submatrix.hpp:118-131, expressions/MatTransExpr.hpp:42-47) *)
Fixpoint mv_addr (v : mval) (i j : nat) : nat :=
  match v with
  | VC c => c_addr SS c i j
  | VSub _ _ v i0 j0 _ _ | VPSub _ v i0 j0 _ _ => mv_addr v (i0 + i) (j0 + j)
  | VTr v => mv_addr v j i
  end.
(** spacing() (views/Submatrix.hpp:110-113, expressions/MatTransExpr.hpp:75-78) *)
Fixpoint mv_spacing (v : mval) : nat :=
  match v with VC c => c_spacing SS c | VSub _ _ v _ _ _ _ | VPSub _ v _ _ _ _ => mv_spacing v | VTr v => mv_spacing v end.
(** data(): the buffer of a container; data_ = &matrix_(i_, j_) (views/Submatrix.hpp:54), which does not compile for a MatTransExpr, whose elements are returned by
    value (expressions/MatTransExpr.hpp:42); data of the operand (expressions/MatTransExpr.hpp:63-72).  PanelSubmatrix: &matrix(i, j). *)
Fixpoint mv_data (v : mval) : res nat :=
  match v with
  | VC c => Ok (c_base c)
  | VSub _ _ v i j _ _ | VPSub _ v i j _ _ => _ <- mv_data v ;; match v with VTr _ => IllFormed | _ => Ok (mv_addr v i j) end
  | VTr v => mv_data v
  end.
(** ptr<AF>(v, i, j) and ptr(v) = ptr<IsAligned_v<MT>>(v, 0, 0) (Matrix.hpp:30-50) *)
Definition mv_ptr (af : bool) (v : mval) (i j : nat) : res mptr :=
  t <- ptr_type af (type_of v) ;;
  d <- mv_data v ;;
  let sp := match p_sp t with Some s => s | None => mv_spacing v end in
  Ok (MPtr (p_kind t) (p_so t) (p_af t) (p_pf t) (ptr_offset SS (p_kind t) (p_so t) (p_af t) d sp i j) sp).
Definition mv_ptr0 (v : mval) : res mptr := mv_ptr (is_aligned (type_of v)) v 0 0.

(** submatrix<AF>(v, i, j, m, n) for v a non-const lvalue, or a const lvalue or temporary (views/Submatrix.hpp:227-231, 248-252, 269-273): a submatrix of a
    submatrix views the same object *)
Definition make_sub (af cst : bool) (v : mval) (i j m n : nat) : mval :=
  match v with
  | VSub _ cst0 w i0 j0 _ _ => VSub af (cst || cst0) w (i0 + i) (j0 + j) m n
  | _ => VSub af cst v i j m n
  end.
(** trans(v): expressions/MatTransExpr.hpp:141-160 (the transpose of a transpose expression is its operand) *)
Definition make_trans (v : mval) : mval := match v with VTr w => w | _ => VTr v end.
End S.
