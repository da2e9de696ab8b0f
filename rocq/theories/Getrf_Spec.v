(** Getrf_Spec.v -- the elements of the blocked factorisation, operation by operation.

    With block size NB, element (i,j) of the result is obtained from element (i,j) of the row-interchanged input b by subtracting
    the products x k * y k (x: row i of the result, y: column j of the result, k < min i j) in the following order:
    - for each whole block of NB products: their sum is accumulated from zero with fused multiply-adds, then multiplied by -1 and added
      (this is what C17 states of gemm with alpha = -1 and beta = 1);
    - the products of the last, incomplete block one by one: by fused multiply-adds with -x k inside the panel (what C35 states of
      getf2), by separate products and subtractions to the right of the panel (what C31 states of trsm);
    - an element below the diagonal is finally divided by the diagonal element of its column. *)
From Coq Require Import Arith Bool.
From Verif Require Import Base Spec LU_Proofs RoundLU_Proofs.

Section Spec.
Context {T : Type} (O : Ops T) (NB M : nat).
Fixpoint block_updates (q : nat) (x y : nat -> T) (b : T) : T :=
  match q with
  | 0 => b
  | S t => ofma O (o1 O) (block_updates t x y b) (omul O (fma_chain O NB (fun k => x (NB * t + k)) (fun k => y (NB * t + k)) (o0 O)) (om1 O))
  end.
(** Element (i,j) before the division; F: the result, B: the row-interchanged input, M: the number of rows. *)
Definition lu_num (F B : nat -> nat -> T) (i j : nat) : T :=
  let c := min i j in let q := c / NB in let e := NB * q + NB in
  let x := fun k => F i (NB * q + k) in let y := fun k => F (NB * q + k) j in
  let s := block_updates q (F i) (fun k => F k j) (B i j) in
  if (i <? e) && (e <=? j) && (e <? M) then sub_chain O (c - NB * q) x y s else el_chain (el_cm O) (c - NB * q) x y s.
Definition blocked_elem (F B : nat -> nat -> T) (i j : nat) : T :=
  if j <? i then odiv O (lu_num F B i j) (F j j) else lu_num F B i j.
(** The pivot of column l is not zero and, if the magnitudes of the numerators of the column are comparable, none is larger. *)
Definition good_pivot (F B : nat -> nat -> T) (l : nat) : Prop :=
  oeqb O (F l l) (o0 O) = false /\
  (comparable O (M - l) (fun i => lu_num F B (l + i) l) -> forall i, l <= i < M -> oltb O (oabs O (F l l)) (oabs O (lu_num F B i l)) = false).
End Spec.
