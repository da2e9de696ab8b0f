(** AssignOp_Model.v -- which assign() an assignment between a panel matrix and another matrix calls.
    Paths are relative to /repo/include/blast/math. *)
From Coq Require Import Arith List Bool PeanoNat.
From Verif Require Import Base Layout_Model Simd_Model Gemm_Model Container_Model Assign_Model.
Import ListNotations.

(** The class of an operand: DynamicPanelMatrix / StaticPanelMatrix (or a Blaze view of one) derive from PanelMatrix<MT, SO>, which derives from
    blaze::Matrix<MT, SO> (expressions/PanelMatrix.hpp:19-22); Blaze's dense matrices derive from blaze::DenseMatrix, which derives from blaze::Matrix (documented by Blaze);
    blast::DynamicMatrix, StaticMatrix, Submatrix and the transposes derive from neither (dense/DynamicMatrix.hpp:29, dense/StaticMatrix.hpp:35, views/Submatrix.hpp:33). *)
Inductive family := PanelFamily | BlazeDenseFamily | BlastFamily.
(** The static type of the expression that denotes it: its own class, PanelMatrix<..>& or blaze::DenseMatrix<..>&, blaze::Matrix<..>&. *)
Inductive static_type := OwnClass | MiddleBase | RootBase.
Record operand := Operand { o_family : family; o_type : static_type }.

(** The parameter types of the overloads: MA& with the constraint Matrix<MA> (Matrix.hpp:71-72, typetraits/Matrix.hpp:19-28); PanelMatrix<MT, SO>&;
    blaze::DenseMatrix<MT, SO>&; blaze::Matrix<MT, SO>&. *)
Inductive param := AnyMatrix | PanelParam | DenseParam | BlazeParam.
(** The conversion an argument needs: None -- not viable; Some 0 -- identity; Some n -- derived-to-base over n levels.  A base class has neither an ElementType nor
    operator()(i, j) and does not satisfy the constraint Matrix; a class not derived from blaze::Matrix converts to none of the bases. *)
Definition depth (t : static_type) : nat := match t with OwnClass => 2 | MiddleBase => 1 | RootBase => 0 end.
Definition conversion (p : param) (o : operand) : option nat :=
  match p, o_family o with
  | AnyMatrix, _ => match o_type o with OwnClass => Some 0 | _ => None end
  | _, BlastFamily => None
  | PanelParam, PanelFamily | DenseParam, BlazeDenseFamily => match o_type o with RootBase => None | t => Some (depth t - 1) end
  | PanelParam, BlazeDenseFamily | DenseParam, PanelFamily => None
  | BlazeParam, _ => Some (depth (o_type o))
  end.

(** The overloads of assign visible where a panel matrix is assigned: Matrix.hpp:71-85 (included by expressions/PanelMatrix.hpp:12), expressions/PanelMatrix.hpp:81-159
    and :161-231, and, by argument-dependent lookup, blaze::assign(blaze::Matrix&, blaze::Matrix const&).  (The two overloads at :63-78 take products of panel matrices, which Blaze's
    operator* does not build.) *)
Inductive overload := GenericAssign | DenseFromPanel | PanelFromDense | BlazeAssign.
Definition params (f : overload) : param * param :=
  match f with
  | GenericAssign => (AnyMatrix, AnyMatrix) | DenseFromPanel => (DenseParam, PanelParam)
  | PanelFromDense => (PanelParam, DenseParam) | BlazeAssign => (BlazeParam, BlazeParam)
  end.
Definition overloads : list overload := [GenericAssign; DenseFromPanel; PanelFromDense; BlazeAssign].
Definition ranks (f : overload) (a b : operand) : option (nat * nat) :=
  match conversion (fst (params f)) a, conversion (snd (params f)) b with Some x, Some y => Some (x, y) | _, _ => None end.
(** f is a better match than g: no argument needs a worse conversion, some argument a better one *)
Definition better (f g : nat * nat) : bool :=
  (fst f <=? fst g) && (snd f <=? snd g) && ((fst f <? fst g) || (snd f <? snd g)).
Definition overload_eqb (f g : overload) : bool :=
  match f, g with
  | GenericAssign, GenericAssign | DenseFromPanel, DenseFromPanel | PanelFromDense, PanelFromDense | BlazeAssign, BlazeAssign => true
  | _, _ => false
  end.
Definition best (a b : operand) (f : overload) : bool :=
  match ranks f a b with
  | None => false
  | Some r => forallb (fun g => overload_eqb f g || match ranks g a b with None => true | Some s => better r s end) overloads
  end.
(** None: no viable overload or an ambiguous call. *)
Definition selected (a b : operand) : option overload := find (best a b) overloads.

Section Call.
Variable SS : nat.
Variable T : Type.
Variable O : Ops T.
(** The call assign(a, b) where the expressions have the static types ta and tb.  blaze::assign calls member functions that panel matrices do not have (documented by Blaze): the
    instantiation fails. *)
Definition assign_call (al : alloc) (ta tb : operand) (a b : view) (m : mem T) : res (mem T) :=
  match selected ta tb with
  | Some GenericAssign => m_assign SS T al (MArg a false) (MArg b false) m
  | Some DenseFromPanel => assign_dense_panel SS T O al a b m
  | Some PanelFromDense => assign_panel_dense SS T O al a b m
  | Some BlazeAssign | None => IllFormed
  end.
(** panel = rhs: operator=(blaze::Matrix<MT, SO2> const& rhs) { assign( *this, *rhs); } (panel/DynamicPanelMatrix.hpp:111-118, panel/StaticPanelMatrix.hpp:188-224).  The
    parameter accepts any reference to a class derived from blaze::Matrix; *rhs is a reference to the class itself.  (A right-hand side of exactly the type of the left-hand side is
    handled by the copy assignment instead: Lifetime_Model.v.) *)
Definition panel_operator_assign (al : alloc) (tb : operand) (a b : view) (m : mem T) : res (mem T) :=
  match conversion BlazeParam tb with
  | None => IllFormed
  | Some _ => assign_call al (Operand PanelFamily OwnClass) (Operand (o_family tb) OwnClass) a b m
  end.
(** dense = panel for a Blaze dense matrix of the same size: Blaze's operator=(Matrix const& rhs) ends in assign( *this, *rhs ) (documented; sizes are adapted or checked by Blaze
    before). *)
Definition blaze_operator_assign (al : alloc) (a b : view) (m : mem T) : res (mem T) :=
  assign_call al (Operand BlazeDenseFamily OwnClass) (Operand PanelFamily OwnClass) a b m.
End Call.
