(** Assign_Model.v -- element-wise assignment of matrices.  Paths are relative to /repo/include/blast/math. *)
From Coq Require Import Arith List Bool PeanoNat.
From Verif Require Import Base Layout_Model Gemm_Model.
Import ListNotations.

Section Assign.
Variable SS : nat.
Variable T : Type.

(** assign(a, b) (Matrix.hpp:71-85), also Submatrix::operator=(MT2 const&) (views/Submatrix.hpp:75-80).  (Assigning a
    Submatrix to another one of the very same type does not compile: its implicit copy assignment is deleted and preferred.)
    The operands are containers, windows or transposes of such. *)
Definition m_assign (al : alloc) (a b : marg) (m : mem T) : res (mem T) :=
  let M := g_rows a in let N := g_cols a in
  if negb (M =? g_rows b) || negb (N =? g_cols b) then Throw InvalidArgument else
  for_ 0 M (fun i m => for_ 0 N (fun j m =>
    x <- rd al m (g_addr SS b i j) ;; wr al m (g_addr SS a i j) x) m) m.
End Assign.
