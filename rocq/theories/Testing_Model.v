(** Testing_Model.v -- the comparison predicates of the test support header.  Paths are relative to /repo/include. *)
From Coq Require Import Arith List Bool.
From Verif Require Import Base.
Import ListNotations.

(** testing::AssertionResult, without the message except for the position *)
Inductive verdict := Success | SizeMismatch | Mismatch (i j : nat).

Section S.
Context {T : Type} (O : Ops T).

(** std::isnan(x) *)
Definition isnan (x : T) : bool := negb (oeqb O x x).
(** x > y *)
Definition gt (x y : T) : bool := oltb O y x.
(** for i in l: if t(i) returns something, return it *)
Fixpoint first_of {A} (l : list nat) (t : nat -> option A) : option A :=
  match l with [] => None | i :: l => match t i with Some a => Some a | None => first_of l t end end.
Definition scan2 (M N : nat) (bad : nat -> nat -> bool) : verdict :=
  match first_of (seq 0 M) (fun i => first_of (seq 0 N) (fun j => if bad i j then Some (i, j) else None)) with
  | Some (i, j) => Mismatch i j
  | None => Success
  end.
Definition scan1 (N : nat) (bad : nat -> bool) : verdict :=
  match first_of (seq 0 N) (fun j => if bad j then Some j else None) with Some j => Mismatch j 0 | None => Success end.

(** A matrix argument: rows, columns, operator()(i, j).  Vectors: size, operator[]. *)
Record tmat := TMat { t_rows : nat; t_cols : nat; t_at : nat -> nat -> T }.
Record tvec := TVec { t_size : nat; t_el : nat -> T }.

(** approxEqual(Matrix lhs, Matrix rhs, abs_tol, rel_tol): test/Testing.hpp:58-83 *)
Definition approx_matrix (lhs rhs : tmat) (abs_tol rel_tol : T) : verdict :=
  if negb (t_rows rhs =? t_rows lhs) || negb (t_cols rhs =? t_cols lhs) then SizeMismatch
  else scan2 (t_rows lhs) (t_cols lhs) (fun i j =>
    let a := t_at lhs i j in let b := t_at rhs i j in let delta := osub O a b in
    negb (Bool.eqb (isnan a) (isnan b)) || gt (oabs O delta) (oadd O abs_tol (omul O rel_tol (oabs O b)))).
(** approxEqual(Vector lhs, Vector rhs, abs_tol, rel_tol): test/Testing.hpp:87-105; the unqualified abs is taken to be the absolute
    value of the element type *)
Definition approx_vector (lhs rhs : tvec) (abs_tol rel_tol : T) : verdict :=
  if negb (t_size rhs =? t_size lhs) then SizeMismatch
  else scan1 (t_size lhs) (fun j =>
    gt (oabs O (osub O (t_el lhs j) (t_el rhs j))) (oadd O abs_tol (omul O rel_tol (oabs O (t_el rhs j))))).
(** approxEqual(Vector lhs, Vector rhs, abs_tol) with a tolerance for each element (initializer_list or vector): test/Testing.hpp:108-142 *)
Definition approx_vector_each (lhs rhs abs_tol : tvec) : verdict :=
  if negb (t_size lhs =? t_size abs_tol) || negb (t_size rhs =? t_size abs_tol) then SizeMismatch
  else scan1 (t_size abs_tol) (fun j => gt (oabs O (osub O (t_el lhs j) (t_el rhs j))) (t_el abs_tol j)).
(** approxEqual(Scalar actual, Scalar expected, abs_tol, rel_tol): test/Testing.hpp:147-158 *)
Definition approx_scalar (actual expected abs_tol rel_tol : T) : bool :=
  negb (gt (oabs O (osub O actual expected)) (oadd O abs_tol (omul O rel_tol (oabs O expected)))).
(** exactEqual for matrices and vectors: test/Testing.hpp:162-198 *)
Definition exact_matrix (lhs rhs : tmat) : verdict :=
  if negb (t_rows rhs =? t_rows lhs) || negb (t_cols rhs =? t_cols lhs) then SizeMismatch
  else scan2 (t_rows lhs) (t_cols lhs) (fun i j => negb (oeqb O (t_at lhs i j) (t_at rhs i j))).
Definition exact_vector (lhs rhs : tvec) : verdict :=
  if negb (t_size rhs =? t_size lhs) then SizeMismatch
  else scan1 (t_size lhs) (fun j => negb (oeqb O (t_el lhs j) (t_el rhs j))).
End S.
