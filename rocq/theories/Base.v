(** Base.v -- outcomes, loops, scalars and memory shared by all model files.
    Nothing here models a particular function of /repo; these are the semantic
    domains in which the functions of /repo are modelled. *)
From Coq Require Import Arith Lia List Bool PeanoNat.
Import ListNotations.

(** Exceptions thrown by the library (std::invalid_argument, std::logic_error, std::out_of_range). *)
Inductive exn := InvalidArgument | LogicError | OutOfRange.

(** Outcome of running a piece of C++ code.
    [UB]         : out-of-bounds access or misaligned aligned-SIMD access;
    [Terminate]  : an exception escapes a noexcept function (std::terminate);
    [IllFormed]  : this template instantiation does not compile (static_assert). *)
Inductive res (A : Type) : Type :=
| Ok (a : A) | UB | Throw (e : exn) | Terminate | IllFormed.
Arguments Ok {A} a. Arguments UB {A}. Arguments Throw {A} e.
Arguments Terminate {A}. Arguments IllFormed {A}.

Definition bind {A B} (x : res A) (f : A -> res B) : res B :=
  match x with
  | Ok a => f a | UB => UB | Throw e => Throw e | Terminate => Terminate | IllFormed => IllFormed
  end.
Notation "x <- e1 ;; e2" := (bind e1 (fun x => e2))
  (at level 61, e1 at next level, right associativity).

(** A noexcept function: an exception leaving it calls std::terminate. *)
Definition noexcept {A} (x : res A) : res A :=
  match x with Throw _ => Terminate | _ => x end.

(** for (i = lo; i < lo + n; ++i) s = f(i, s) *)
Fixpoint loop {St} (n lo : nat) (f : nat -> St -> res St) (s : St) : res St :=
  match n with
  | 0 => Ok s
  | S n' => s' <- f lo s ;; loop n' (S lo) f s'
  end.

(** for (i = lo; i < hi; ++i) s = f(i, s) *)
Definition for_ {St} (lo hi : nat) (f : nat -> St -> res St) (s : St) : res St :=
  loop (hi - lo) lo f s.

(** Sequential execution over a list of calls. *)
Fixpoint foldM {A St} (f : A -> St -> res St) (l : list A) (s : St) : res St :=
  match l with
  | [] => Ok s
  | a :: l' => s' <- f a s ;; foldM f l' s'
  end.

(** while-style loop "for (; cond(i); i += step)": the visited values of i and the final i.
    [fuel] bounds the number of iterations; the proofs show that the given fuel suffices. *)
Fixpoint steps (fuel : nat) (cond : nat -> bool) (step i : nat) : list nat * nat :=
  match fuel with
  | 0 => ([], i)
  | S f => if cond i then let r := steps f cond step (i + step) in (i :: fst r, snd r)
           else ([], i)
  end.

(** Scalar operations: an arbitrary implementation of the element type's arithmetic. *)
Record Ops (T : Type) := mkOps {
  o0 : T;                      (* T{} / 0 *)
  o1 : T;                      (* T(1) *)
  om1 : T;                     (* T(-1) *)
  oadd : T -> T -> T;
  osub : T -> T -> T;
  omul : T -> T -> T;
  odiv : T -> T -> T;
  ofma : T -> T -> T -> T;     (* ofma a b c = a*b+c *)
  ofnma : T -> T -> T -> T;    (* ofnma a b c = -(a*b)+c *)
  osqrt : T -> T;
  oabs : T -> T;
  oltb : T -> T -> bool;       (* a < b *)
  oeqb : T -> T -> bool        (* a == b *)
}.
Arguments o0 {T} o. Arguments o1 {T} o. Arguments om1 {T} o.
Arguments oadd {T} o. Arguments osub {T} o. Arguments omul {T} o. Arguments odiv {T} o.
Arguments ofma {T} o. Arguments ofnma {T} o. Arguments osqrt {T} o. Arguments oabs {T} o.
Arguments oltb {T} o. Arguments oeqb {T} o.

(** Memory: addresses count elements of type T; which addresses are allocated is a
    separate map because no modelled algorithm allocates or frees memory. *)
Definition mem (T : Type) := nat -> T.
Definition alloc := nat -> bool.

Definition mupd {T} (m : mem T) (a : nat) (v : T) : mem T :=
  fun x => if x =? a then v else m x.

(** Scalar read / write of one element. *)
Definition rd {T} (al : alloc) (m : mem T) (a : nat) : res T :=
  if al a then Ok (m a) else UB.
Definition wr {T} (al : alloc) (m : mem T) (a : nat) (v : T) : res (mem T) :=
  if al a then Ok (mupd m a v) else UB.

(** Flags: math/StorageOrder.hpp:10-20, math/TransposeFlag.hpp:10-26, math/UpLo.hpp:10-16,
    math/Side.hpp:10-16. *)
Inductive order := rowMajor | columnMajor.
Definition order_neg (o : order) := match o with rowMajor => columnMajor | columnMajor => rowMajor end.
Definition order_eqb (a b : order) :=
  match a, b with rowMajor, rowMajor => true | columnMajor, columnMajor => true | _, _ => false end.
Inductive tflag := rowVector | columnVector.
Definition tflag_neg (t : tflag) := match t with rowVector => columnVector | columnVector => rowVector end.
Definition tflag_eqb (a b : tflag) :=
  match a, b with rowVector, rowVector => true | columnVector, columnVector => true | _, _ => false end.
Inductive uplo := Lower | Upper.
Inductive side := LeftSide | RightSide.
