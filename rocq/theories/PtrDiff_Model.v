(** PtrDiff_Model.v -- pointer arithmetic as the machine does it: byte addresses, 64-bit words, offsets of type ptrdiff_t that may be negative and are converted to size_t
    when they meet an operand of type size_t.  Paths are relative to /repo/include/blast/math.
    Simplification: a flat address space; adding an integer to a pointer is 64-bit addition of the scaled integer (the C++ standard gives no meaning to the intermediate
    pointers outside of the array; the machine does). *)
From Coq Require Import ZArith.
From Verif Require Import Base Layout_Model.
Local Open Scope Z_scope.

(** Conversion to size_t. *)
Definition u64 (x : Z) : Z := x mod 2 ^ 64.
(** T * + integer: the integer (signed or unsigned) scaled by sizeof(T) = [sz] bytes *)
Definition padd (sz p u : Z) : Z := u64 (p + sz * u).

Section PtrDiff.
Variables SS sz : Z.   (* SimdSize_v<T>, sizeof(T) *)

(** ptrOffset(i, j): dense/DynamicMatrixPointer.hpp:200-206 (ptr_ + i + spacing_ * j, with spacing_ of type size_t), dense/StaticMatrixPointer.hpp:197-200
    (i + spacing() * j is of type size_t), panel/DynamicPanelMatrixPointer.hpp:224-241, panel/StaticPanelMatrixPointer.hpp:217-234 (SS and spacing are of type size_t: rem, i / SS,
    i % SS and j * SS are computed in size_t).  Simplification: i += rem is converted to size_t, to ptrdiff_t and to size_t again, here once. *)
Definition ptr_offset64 (k : kind) (st : bool) (so : order) (af : bool) (p sp i j : Z) : Z :=
  match k with
  | Dense =>
      if st then padd sz p (match so with columnMajor => u64 (u64 i + u64 (sp * u64 j)) | rowMajor => u64 (u64 (sp * u64 i) + u64 j) end)
      else match so with
           | columnMajor => padd sz (padd sz p i) (u64 (sp * u64 j))
           | rowMajor => padd sz (padd sz p (u64 (sp * u64 i))) j
           end
  | Panel =>
      let rem := if af then 0 else (u64 p mod (SS * sz)) / sz in
      let q := padd sz p (- rem) in
      let i := match so with columnMajor => u64 (u64 i + rem) | rowMajor => u64 i end in
      let j := match so with columnMajor => u64 j | rowMajor => u64 (u64 j + rem) end in
      match so with
      | columnMajor => padd sz (padd sz (padd sz q (u64 (i / SS * sp))) (i mod SS)) (u64 (j * SS))
      | rowMajor => padd sz (padd sz (padd sz q (u64 (i * SS))) (u64 (j / SS * sp))) (j mod SS)
      end
  end.
(** hmove(inc): dense/DynamicMatrixPointer.hpp:167-175, panel/DynamicPanelMatrixPointer.hpp:183-195 *)
Definition hmove64 (k : kind) (so : order) (p sp inc : Z) : Z :=
  padd sz p (match k, so with
             | Dense, columnMajor => u64 (sp * u64 inc)
             | Dense, rowMajor => inc
             | Panel, columnMajor => u64 (SS * u64 inc)
             | Panel, rowMajor => u64 (u64 (sp * (u64 inc / SS)) + u64 inc mod SS)
             end).
(** vmove(inc): dense/DynamicMatrixPointer.hpp:178-186, panel/DynamicPanelMatrixPointer.hpp:198-210 *)
Definition vmove64 (k : kind) (so : order) (p sp inc : Z) : Z :=
  padd sz p (match k, so with
             | Dense, rowMajor => u64 (sp * u64 inc)
             | Dense, columnMajor => inc
             | Panel, rowMajor => u64 (SS * u64 inc)
             | Panel, columnMajor => u64 (u64 (sp * (u64 inc / SS)) + u64 inc mod SS)
             end).
(** Vector pointers: ptr_ + spacing_ * i (dense/DynamicVectorPointer.hpp:186-189), ptr_ + i * spacing() (dense/StaticVectorPointer.hpp:209-212) *)
Definition voff64 (p s i : Z) : Z := padd sz p (u64 (s * u64 i)).
(** isSimdAligned(ptr) (simd/IsSimdAligned.hpp:30-33), isAligned(ptr) (panel/DynamicPanelMatrixPointer.hpp:244-247): the ptrdiff_t is converted to size_t *)
Definition aligned64 (p : Z) : bool := u64 p mod (SS * sz) =? 0.
End PtrDiff.
