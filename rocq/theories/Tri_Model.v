(** Tri_Model.v -- dense/Trsm.hpp, dense/Trsv.hpp: substitution on arbitrary dense (Blaze) matrices and vectors.
    Paths are relative to /repo/include/blast/math. *)
From Coq Require Import Arith List Bool PeanoNat.
From Verif Require Import Base.

(** A dense matrix (or view) used only through rows(), columns() and operator()(i, j): its sizes and the address of each
    element.  Simplification: blaze's own classes are not modelled, only these observations. *)
Record dmat := DMat { d_m : nat; d_n : nat; d_at : nat -> nat -> nat }.
(** A dense vector used only through size() and operator[]. *)
Record dvec := DVec { v_size : nat; v_at : nat -> nat }.

Section Tri.
Variable T : Type.
Variable O : Ops T.

(** for (k = lo; k < hi; ++k) acc -= A(i, k) * X(k)  (dense/Trsm.hpp:45-46, 57-58; dense/Trsv.hpp:34-35, 62-63).
    Simplification: the product and the difference are rounded separately (no contraction by the compiler). *)
Definition acc_sub (al : alloc) (m : mem T) (lo hi : nat) (a x : nat -> nat) (acc : T) : res T :=
  for_ lo hi (fun k acc => u <- rd al m (a k) ;; v <- rd al m (x k) ;; Ok (osub O acc (omul O u v))) acc.

(** One element: acc = B(i,j); the accumulation; X(i,j) = acc or acc / A(i,i) (dense/Trsm.hpp:43-51, 55-63) *)
Definition trsm_elem (al : alloc) (unit : bool) (A : nat -> nat -> nat) (b x : nat -> nat) (lo hi i : nat) (m : mem T) : res (mem T) :=
  acc <- rd al m (b i) ;;
  acc <- acc_sub al m lo hi (A i) x acc ;;
  if unit then wr al m (x i) acc
  else (d <- rd al m (A i i) ;; wr al m (x i) (odiv O acc d)).

(** trsm<UPLO, UNIT>(A, B, X) (dense/Trsm.hpp:18-65) *)
Definition trsm (al : alloc) (ul : uplo) (unit : bool) (A B X : dmat) (m : mem T) : res (mem T) :=
  let M := d_m B in let N := d_n B in
  if negb (d_m A =? M) || negb (d_n A =? M) then Throw InvalidArgument else
  if negb (d_m X =? M) || negb (d_n X =? N) then Throw InvalidArgument else
  for_ 0 N (fun j m =>
    match ul with
    | Lower => for_ 0 M (fun i m => trsm_elem al unit (d_at A) (fun i => d_at B i j) (fun i => d_at X i j) 0 i i m) m
    | Upper => for_ 0 M (fun t m => let i := M - 1 - t in   (* i = M; i-- > 0 *)
                 trsm_elem al unit (d_at A) (fun i => d_at B i j) (fun i => d_at X i j) (i + 1) M i m) m
    end) m.

(** trsvLeftLower(A, b, x), trsvLeftUpper(A, b, x) (dense/Trsv.hpp:14-39, 42-67).
    Simplification: resize(x, N) is modelled for an x that already has size N (then it does nothing); for another size it
    reallocates x or throws, which is blaze's behaviour and not modelled. *)
Definition trsv (al : alloc) (ul : uplo) (A : dmat) (b x : dvec) (m : mem T) : res (mem T) :=
  let N := v_size b in
  if negb (d_m A =? N) || negb (d_n A =? N) then Throw InvalidArgument else
  match ul with
  | Lower => for_ 0 N (fun i m => trsm_elem al false (d_at A) (v_at b) (v_at x) 0 i i m) m
  | Upper => for_ 0 N (fun t m => let i := N - 1 - t in trsm_elem al false (d_at A) (v_at b) (v_at x) (i + 1) N i m) m
  end.
End Tri.
