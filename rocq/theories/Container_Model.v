(** Container_Model.v -- construction, scalar assignment, reset() of the containers, comparison, and the assignments
    between dense and panel matrices.  Paths are relative to /repo/include/blast/math. *)
From Coq Require Import Arith List Bool PeanoNat ZArith.
From Verif Require Import Base Layout_Model Simd_Model.
Import ListNotations.

Section Container.
Variable SS : nat.
Variable T : Type.
Variable O : Ops T.

(** std::fill_n(p, n, v) *)
Definition fill_n (al : alloc) (p n : nat) (v : T) (m : mem T) : res (mem T) :=
  for_ 0 n (fun k m => wr al m (p + k) v) m.

(** Default construction.  DynamicMatrix(m, n) (dense/DynamicMatrix.hpp:33-42) and DynamicPanelMatrix(m, n)
    (panel/DynamicPanelMatrix.hpp:57-68): new T[capacity] {} value-initialises the whole buffer;
    StaticMatrix() (dense/StaticMatrix.hpp:35-40), StaticPanelMatrix() (panel/StaticPanelMatrix.hpp:59-64): fill_n. *)
Definition c_construct (al : alloc) (c : container) (m : mem T) : res (mem T) :=
  fill_n al (c_base c) (c_capacity SS c) (o0 O) m.

(** StaticMatrix(v) (dense/StaticMatrix.hpp:43-46) *)
Definition c_construct_value (al : alloc) (c : container) (v : T) (m : mem T) : res (mem T) :=
  fill_n al (c_base c) (c_capacity SS c) v m.

(** determineColumns(list) of blaze: the length of the longest row *)
Definition determineColumns (l : list (list T)) : nat := fold_left (fun a r => max a (length r)) l 0.

(** for each element of the row: v_[elementIndex(i, j)] = element; ++j *)
Fixpoint init_row (al : alloc) (c : container) (i j : nat) (r : list T) (m : mem T) : res (mem T) :=
  match r with
  | [] => Ok m
  | x :: r => m <- c_set SS al c m i j x ;; init_row al c i (j + 1) r m
  end.
Fixpoint init_rows (al : alloc) (c : container) (i : nat) (l : list (list T)) (m : mem T) : res (mem T) :=
  match l with
  | [] => Ok m
  | r :: l => m <- init_row al c i 0 r m ;; init_rows al c (i + 1) l m
  end.
(** StaticMatrix(list) (dense/StaticMatrix.hpp:66-88), StaticPanelMatrix(list) (panel/StaticPanelMatrix.hpp:67-90) *)
Definition c_construct_list (al : alloc) (c : container) (l : list (list T)) (m : mem T) : res (mem T) :=
  m <- fill_n al (c_base c) (c_capacity SS c) (o0 O) m ;;
  if negb (length l =? c_rows c) || (c_cols c <? determineColumns l) then Throw InvalidArgument else
  init_rows al c 0 l m.

(** operator=(val) (dense/DynamicMatrix.hpp:62-69, dense/StaticMatrix.hpp:91-98, panel/DynamicPanelMatrix.hpp:88-95,
    panel/StaticPanelMatrix.hpp:93-100) *)
Definition c_fill (al : alloc) (c : container) (v : T) (m : mem T) : res (mem T) :=
  for_ 0 (c_rows c) (fun i m => for_ 0 (c_cols c) (fun j m => c_set SS al c m i j v) m) m.

(** reset(): dense/DynamicMatrix.hpp:131-134 and panel/DynamicPanelMatrix.hpp:168-171 fill
    spacing_ * (SO == columnMajor ? n_ : m_) elements, dense/StaticMatrix.hpp:144-147 capacity_ elements.
    StaticPanelMatrix has no reset(). *)
Definition c_reset (al : alloc) (c : container) (m : mem T) : res (mem T) :=
  match c_kind c, c_static c with
  | Panel, true => IllFormed
  | Dense, true => fill_n al (c_base c) (c_capacity SS c) (o0 O) m
  | _, false => fill_n al (c_base c) (c_spacing SS c * match c_so c with columnMajor => c_cols c | rowMajor => c_rows c end) (o0 O) m
  end.

(** StaticVector<T, N> (dense/StaticVector.hpp): capacity nextMultiple(N, SS), element i at v_[i]. *)
Record svector := SVec { sv_size : nat; sv_base : nat }.
Definition sv_capacity (v : svector) : nat := nextMultiple (sv_size v) SS.
Definition sv_alloc (v : svector) : alloc := fun a => (sv_base v <=? a) && (a <? sv_base v + sv_capacity v).
Definition sv_addr (v : svector) (i : nat) : nat := sv_base v + i.
(** StaticVector() :36-41, StaticVector(v) :44-47, operator=(val) :67-72, reset() :111-114: fill_n(v_, capacity_, value) *)
Definition sv_fill (al : alloc) (v : svector) (x : T) (m : mem T) : res (mem T) :=
  fill_n al (sv_base v) (sv_capacity v) x m.
(** StaticVector(list) (:61-64): copy_n of min(list.size(), N) elements, then fill up to the end of v_ *)
Definition sv_construct_list (al : alloc) (v : svector) (l : list T) (m : mem T) : res (mem T) :=
  let k := min (length l) (sv_size v) in
  m <- for_ 0 k (fun i m => wr al m (sv_base v + i) (nth i l (o0 O))) m ;;
  fill_n al (sv_base v + k) (sv_capacity v - k) (o0 O) m.

(** operator==(a, b) of two matrices (Matrix.hpp:53-68): the loops stop at the first difference. *)
Fixpoint eq_row (al : alloc) (m : mem T) (n j : nat) (a b : nat -> nat) : res bool :=
  match n with
  | 0 => Ok true
  | S n => x <- rd al m (a j) ;; y <- rd al m (b j) ;; if negb (oeqb O x y) then Ok false else eq_row al m n (j + 1) a b
  end.
Fixpoint eq_rows (al : alloc) (m : mem T) (n N i : nat) (a b : nat -> nat -> nat) : res bool :=
  match n with
  | 0 => Ok true
  | S n => r <- eq_row al m N 0 (a i) (b i) ;; if r then eq_rows al m n N (i + 1) a b else Ok false
  end.
Definition m_eq (al : alloc) (m : mem T) (a b : view) : res bool :=
  if negb ((v_m a =? v_m b) && (v_n a =? v_n b)) then Throw InvalidArgument
  else eq_rows al m (v_m a) (v_n a) 0 (v_addr SS a) (v_addr SS b).

(* ------------------------------------------------------------------------------------------ *)
(** ** Assignment between dense and panel matrices (expressions/PanelMatrix.hpp) *)

(** (lhs)(i, j) = (rhs)(i, j) for all elements of rhs *)
Definition copy_elements (al : alloc) (L R : view) (m : mem T) : res (mem T) :=
  for_ 0 (v_m R) (fun i m => for_ 0 (v_n R) (fun j m => x <- v_get SS al R m i j ;; v_set SS al L m i j x) m) m.

(** for (i = 0; i + SS <= m; i += SS): pr = ptr<aligned>(rhs, i, 0); pl = ptr<aligned>(lhs, i, 0);
    for j < n: pl(0, j).store(pr(0, j).load())   (:104-111, :191-198) *)
Definition copy_panels (al : alloc) (L R : view) (m : mem T) : res (mem T) :=
  foldM (fun i m => for_ 0 (v_n R) (fun j m =>
      x <- mp_load SS T O al (poff SS (v_ptr SS true R i 0) 0 j) m ;;
      mp_store SS T al (poff SS (v_ptr SS true L i 0) 0 j) x m) m)
    (fst (steps (v_m R + 1) (fun i => i + SS <=? v_m R) SS 0)) m.

(** assign(DenseMatrix& lhs, PanelMatrix const& rhs) (:82-159).  The blaze dense matrix is modelled like blast's own dense
    matrices (aligned columns padded to a multiple of SS).  The size checks are BLAZE_INTERNAL_ASSERTs (off by default). *)
Definition assign_dense_panel (al : alloc) (L R : view) (m : mem T) : res (mem T) :=
  match c_so (v_cont L), c_so (v_cont R) with
  | columnMajor, columnMajor =>
      m <- copy_panels al L R m ;;
      let rem := v_m R mod SS in
      if 0 <? rem then
        let i := v_m R - rem in
        for_ 0 (v_n R) (fun j m =>
          x <- mp_load SS T O al (poff SS (v_ptr SS true R i 0) 0 j) m ;;
          mp_storem SS T al (poff SS (v_ptr SS true L i 0) 0 j) x (idx_lt (Z.of_nat rem)) m) m
      else Ok m
  | _, _ => copy_elements al L R m
  end.

(** assign(PanelMatrix& lhs, DenseMatrix const& rhs) (:162-231) *)
Definition assign_panel_dense (al : alloc) (L R : view) (m : mem T) : res (mem T) :=
  let s := c_spacing SS (v_cont R) in
  match c_so (v_cont L), c_so (v_cont R) with
  | columnMajor, columnMajor =>
      m <- copy_panels al L R m ;;
      let rem := v_m R mod SS in
      if 0 <? rem then
        let i := v_m R - rem in
        let pr := v_data SS R + i in
        let pl := v_addr SS L i 0 in
        for_ 0 (v_n R) (fun j m => for_ 0 rem (fun i1 m =>
          x <- rd al m (pr + (i1 + s * j)) ;; wr al m (pl + (i1 + SS * j)) x) m) m
      else Ok m
  | columnMajor, rowMajor =>
      for_ 0 (v_m R) (fun i m =>
        let pr := v_data SS R + s * i in
        let pl := v_addr SS L i 0 in
        for_ 0 (v_n R) (fun j m => x <- rd al m (pr + j) ;; wr al m (pl + SS * j) x) m) m
  | _, _ => copy_elements al L R m
  end.
End Container.
