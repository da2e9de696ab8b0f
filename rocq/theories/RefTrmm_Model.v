(** RefTrmm_Model.v -- which function reference::trmm(alpha, A, uplo, diag, B, C) calls (reference/Trmm.hpp:164-176).
    Paths are relative to /repo/include/blast/math. *)
From Coq Require Import Arith List Bool PeanoNat.
From Verif Require Import Base Layout_Model Simd_Model Gemm_Model Trmm_Model Ref_Model.
Import ListNotations.

(** C++ overload resolution among function templates with the same template and function parameter lists: a candidate is viable if its constraints hold; the viable
    candidate whose constraints include those of every other viable candidate, and which is the only one, is called; otherwise the call is ill-formed.
    Simplification: the constraints are conjunctions of the atomic constraints below, identified by the parameter they are about. *)
Inductive atom := IsMatrixPointer (k : nat) | IsColumnMajor (k : nat).   (* MatrixPointer<MP_k, ST>; StorageOrder_v<MP_k> == columnMajor *)
Definition atom_eqb (a b : atom) : bool :=
  match a, b with
  | IsMatrixPointer i, IsMatrixPointer j | IsColumnMajor i, IsColumnMajor j => i =? j
  | _, _ => false
  end.
Definition satisfied (orders : nat -> order) (a : atom) : bool :=
  match a with IsMatrixPointer _ => true | IsColumnMajor k => order_eqb (orders k) columnMajor end.
Section Resolve.
Variable X : Type.
Record candidate := Cand { constraints : list atom; result : res X }.
Definition viable (orders : nat -> order) (c : candidate) : bool := forallb (satisfied orders) (constraints c).
Definition subsumes (c d : candidate) : bool := forallb (fun a => existsb (atom_eqb a) (constraints c)) (constraints d).
Definition resolve (orders : nat -> order) (cs : list candidate) : res X :=
  let vs := filter (viable orders) cs in
  match filter (fun c => forallb (subsumes c) vs) vs with
  | [c] => result c
  | _ => IllFormed
  end.
End Resolve.

Section RefTrmm.
Variables SS cc : nat.
Variable T : Type.
Variable O : Ops T.
(** The two candidates with parameters (size_t, size_t, ST, MPA, UpLo, bool, MPB, MPC): reference::trmm (reference/Trmm.hpp:41-44), found by unqualified lookup, and
    blast::trmm (algorithm/Trmm.hpp:90-93), found by argument-dependent lookup (the pointer classes and UpLo are members of namespace blast) if its declaration is visible where
    the template is instantiated: [seen].  (The right-hand trmm of either namespace has a matrix pointer in the place of uplo and is not viable.) *)
Definition trmmL_candidates (seen : bool) (al : alloc) (M N : nat) (alpha : T) (A : mptr) (ul : uplo) (diag : bool) (B C : mptr) (m : mem T) : list (candidate (mem T)) :=
  Cand _ [IsMatrixPointer 0; IsMatrixPointer 1; IsMatrixPointer 2] (ref_trmmL_ptr SS T O al M N alpha A ul diag B C m) ::
  (if seen then [Cand _ [IsMatrixPointer 0; IsMatrixPointer 1; IsMatrixPointer 2; IsColumnMajor 0; IsColumnMajor 2] (trmmL_ptr SS cc T O al M N alpha A ul diag B C m)]
   else []).
(** reference::trmm(alpha, A, uplo, diag, B, C) (reference/Trmm.hpp:164-176): the inner call, trmm(m, n, alpha, ptr(A), uplo, diag, ptr(B), ptr(C)), is not qualified.
    [Ref_Model.ref_trmmL] is the case seen = false. *)
Definition ref_trmmL_in (seen : bool) (al : alloc) (alpha : T) (A : marg) (ul : uplo) (diag : bool) (B C : marg) (m : mem T) : res (mem T) :=
  let M := g_rows B in let N := g_cols B in
  if negb (g_rows A =? M) || negb (g_cols A =? M) || negb (g_rows C =? M) || negb (g_cols C =? N) then Throw InvalidArgument else
  resolve _ (fun k => match k with 0 => g_so A | 1 => g_so B | _ => g_so C end)
    (trmmL_candidates seen al M N alpha (g_ptr SS A) ul diag (g_ptr SS B) (g_ptr SS C) m).
End RefTrmm.
