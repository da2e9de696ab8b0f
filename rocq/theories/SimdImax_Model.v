(** SimdImax_Model.v -- the element-wise maximum of two SIMD vectors with indices.  Paths are relative to /repo/include/blast/math. *)
From Coq Require Import Arith List Bool PeanoNat.
From Verif Require Import Base Simd_Model.

(** The element types SIMD vectors are used with. *)
Inductive scalar_type := Float32 | Float64 | Int32 | Int64.
Definition scalar_eqb (a b : scalar_type) : bool :=
  match a, b with Float32, Float32 | Float64, Float64 | Int32, Int32 | Int64, Int64 => true | _, _ => false end.
(** SimdSize_v<T> (simd/SimdSize.hpp:32) for registers of [bytes] bytes *)
Definition simd_lanes (bytes : nat) (t : scalar_type) : nat := bytes / match t with Float32 | Int32 => 4 | Float64 | Int64 => 8 end.

Section Imax2.
Variable bytes : nat.
Variables F I : Type.
Variable O : Ops F.
(** max(a, b) (simd/SimdVec.hpp:378-382): lane-wise xsimd::max, which is a > b ? a : b (AVX) *)
Definition vmax (a b : vec F) : vec F := fun l => if oltb O (b l) (a l) then a l else b l.
(** blend(a, b, mask) (simd/SimdVec.hpp:343-346) is a template with one element type, deduced from both the vectors and the mask; the mask b > a has the element type of b.
    imax(a, idxa, b, idxb) (dense/Iamax.hpp:42-50): requires the same number of lanes; make_tuple(max(a, b), blend(idxa, idxb, b > a)). *)
Definition imax2 (float index : scalar_type) (a : vec F) (idxa : vec I) (b : vec F) (idxb : vec I) : res (vec F * vec I) :=
  if negb (simd_lanes bytes float =? simd_lanes bytes index) then IllFormed else
  if negb (scalar_eqb float index) then IllFormed else
  Ok (vmax a b, vblend I idxa idxb (vgt F O b a)).
End Imax2.
