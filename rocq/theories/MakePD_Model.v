(** MakePD_Model.v -- randomize and makePositiveDefinite.  Paths are relative to /repo/include/blast/math. *)
From Coq Require Import Arith List Bool PeanoNat.
From Verif Require Import Base Layout_Model Gemm_Model Ref_Model Container_Model.
Import ListNotations.

Section MakePD.
Variable SS : nat.
Variable T : Type.
Variable O : Ops T.

(** The random engine (algorithm/Randomize.hpp:18-22) is one global object; a scalar randomize(a)
    (algorithm/Randomize.hpp:26-32) takes the next value of its stream.  [draw k] is the k-th value of the stream
    mapped to the element type, the state is the number of values taken so far and the memory. *)
Definition rng := nat.

(** randomize(m) (algorithm/Randomize.hpp:51-57; the view overload :60-65 forwards to it): rows outside, columns inside *)
Definition randomize (al : alloc) (draw : nat -> T) (v : view) (s : rng * mem T) : res (rng * mem T) :=
  for_ 0 (v_m v) (fun i s => for_ 0 (v_n v) (fun j (s : rng * mem T) =>
    m <- v_set SS al v (snd s) i j (draw (fst s)) ;; Ok (fst s + 1, m)) s) s.

(** The matrices that have a free function reset: DynamicMatrix (dense/DynamicMatrix.hpp:189-193) and StaticMatrix
    (dense/StaticMatrix.hpp:197-201), which reset the whole buffer, and Submatrix (views/Submatrix.hpp:290-296). *)
Inductive target := OnContainer (c : container) | OnView (v : view).
Definition t_view (t : target) : view := match t with OnContainer c => whole c | OnView v => v end.
Definition t_reset (al : alloc) (t : target) (m : mem T) : res (mem T) :=
  match t with
  | OnContainer c => match c_kind c with Dense => c_reset SS T O al c m | Panel => IllFormed end
  | OnView v => v_reset SS al O v m
  end.

(** makePositiveDefinite(matrix) (algorithm/MakePositiveDefinite.hpp:25-41; the view overload :50-55 forwards to it).
    DynamicMatrix<ET> tmp(N, N) is column-major; [tb] is the address the allocation returned (it is assumed not to fail).
    [ofN n] is ET(n).  The buffer of tmp is released at the end; its contents are unspecified afterwards. *)
Definition makePositiveDefinite (al : alloc) (tb : nat) (draw : nat -> T) (ofN : nat -> T) (t : target) (s : rng * mem T) : res (rng * mem T) :=
  let v := t_view t in
  let N := v_n v in
  if negb (v_m v =? N) then Throw InvalidArgument else
  let tmp := Cont Dense false columnMajor N N tb in
  let al' := fun a => al a || c_alloc SS tmp a in
  m <- c_construct SS T O al' tmp (snd s) ;;
  s <- randomize al' draw (whole tmp) (fst s, m) ;;
  m <- t_reset al' t (snd s) ;;
  m <- ref_gemm SS T O al' (o1 O) (MArg (whole tmp) false) (MArg (whole tmp) true) (o0 O) (MArg v false) (MArg v false) m ;;
  m <- for_ 0 N (fun i m => x <- v_get SS al' v m i i ;; v_set SS al' v m i i (oadd O x (ofN N))) m ;;
  Ok (fst s, m).

(* ------------------------------------------------------------------------------------------ *)
(** ** Panel containers (math/DynamicPanelMatrix.hpp, math/StaticPanelMatrix.hpp) *)

(** The squareness test: DynamicPanelMatrix.hpp:184-186, 221-223, 334-336 throw, StaticPanelMatrix.hpp:186, 221, 326 static_assert *)
Definition square_check {R} (c : container) (body : res R) : res R :=
  if c_rows c =? c_cols c then body else if c_static c then IllFormed else Throw InvalidArgument.

(** randomize(matrix(i, j)): one value of the stream *)
Definition rand_elem (al : alloc) (draw : nat -> T) (c : container) (i j : nat) (s : rng * mem T) : res (rng * mem T) :=
  m <- c_set SS al c (snd s) i j (draw (fst s)) ;; Ok (fst s + 1, m).

(** makeSymmetric(matrix) and makeSymmetric(matrix, min, max) (DynamicPanelMatrix.hpp:179-200, 216-237; StaticPanelMatrix.hpp:180-199,
    215-234); for real element types also makeHermitian (DynamicPanelMatrix.hpp:253-278, 294-319; StaticPanelMatrix.hpp:248-271,
    286-309), where conj is the identity. *)
Definition makeSymmetric (al : alloc) (draw : nat -> T) (c : container) (s : rng * mem T) : res (rng * mem T) :=
  square_check c (for_ 0 (c_rows c) (fun i s =>
    s <- for_ 0 i (fun j s =>
      s <- rand_elem al draw c i j s ;;
      x <- c_get SS al c (snd s) i j ;;
      m <- c_set SS al c (snd s) j i x ;; Ok (fst s, m)) s ;;
    rand_elem al draw c i i s) s).

(** makePositiveDefinite(matrix) (DynamicPanelMatrix.hpp:328-358, StaticPanelMatrix.hpp:318-349): the temporary A is a panel
    matrix of the same type at address [tb]. *)
Definition makePositiveDefinite_panel (al : alloc) (tb : nat) (draw : nat -> T) (ofN : nat -> T) (c : container) (s : rng * mem T) : res (rng * mem T) :=
  square_check c (
  let n := c_rows c in
  m <- c_fill SS T al c (o0 O) (snd s) ;;
  m <- for_ 0 n (fun i m => c_set SS al c m i i (ofN n)) m ;;
  let A := Cont (c_kind c) (c_static c) (c_so c) n n tb in
  let al' := fun a => al a || c_alloc SS A a in
  m <- c_construct SS T O al' A m ;;
  s <- randomize al' draw (whole A) (fst s, m) ;;
  m <- gemm4 SS T O al' (MArg (whole A) false) (MArg (whole A) true) (MArg (whole c) false) (MArg (whole c) false) (snd s) ;;
  Ok (fst s, m)).
End MakePD.
