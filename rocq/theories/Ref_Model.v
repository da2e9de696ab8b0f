(** Ref_Model.v -- the reference kernels math/reference/{Axpy,Gemm,Ger,Trmm,Trsm}.hpp.
    Paths are relative to /repo/include/blast/math. *)
From Coq Require Import Arith List Bool PeanoNat.
From Verif Require Import Base Layout_Model Simd_Model Gemm_Model Ger_Model Tri_Model.

Section Ref.
Variable SS : nat.
Variable T : Type.
Variable O : Ops T.

(** The element designated by ( *(~p)(i, j) ) and by ( *(~v)(i) ): operator* of the matrix and vector pointers. *)
Definition deref (p : mptr) (i j : nat) : nat := mp_base (poff SS (punalign SS p) i j).
Definition vderef (v : vptr) (i : nat) : nat := vaddr SS (voff SS (vunalign SS v) i) 0.

(** axpy(M, N, alpha, A, B, C) (reference/Axpy.hpp:36-41) *)
Definition ref_axpy_ptr (al : alloc) (M N : nat) (alpha : T) (A B C : mptr) (m : mem T) : res (mem T) :=
  for_ 0 M (fun i m => for_ 0 N (fun j m =>
    a <- rd al m (deref A i j) ;; b <- rd al m (deref B i j) ;;
    wr al m (deref C i j) (oadd O (omul O alpha a) b)) m) m.
(** axpy(alpha, A, B, C) (reference/Axpy.hpp:64-75) *)
Definition ref_axpy (al : alloc) (alpha : T) (A B C : marg) (m : mem T) : res (mem T) :=
  let M := g_rows C in let N := g_cols C in
  if negb (g_rows A =? M) || negb (g_cols A =? N) || negb (g_rows B =? M) || negb (g_cols B =? N) then Throw InvalidArgument else
  ref_axpy_ptr al M N alpha (g_ptr SS A) (g_ptr SS B) (g_ptr SS C) m.

(** gemm(M, N, K, alpha, A, B, beta, C, D) (reference/Gemm.hpp:42-57) *)
Definition ref_gemm_ptr (al : alloc) (M N K : nat) (alpha : T) (A B : mptr) (beta : T) (C D : mptr) (m : mem T) : res (mem T) :=
  for_ 0 M (fun i m => for_ 0 N (fun j m =>
    v <- for_ 0 K (fun k v => a <- rd al m (deref A i k) ;; b <- rd al m (deref B k j) ;; Ok (oadd O v (omul O a b))) (o0 O) ;;
    c <- rd al m (deref C i j) ;;
    wr al m (deref D i j) (oadd O (omul O alpha v) (omul O beta c))) m) m.
(** gemm(alpha, A, B, beta, C, D) (reference/Gemm.hpp:76-93) *)
Definition ref_gemm (al : alloc) (alpha : T) (A B : marg) (beta : T) (C D : marg) (m : mem T) : res (mem T) :=
  let M := g_rows A in let N := g_cols B in let K := g_cols A in
  if negb (g_rows B =? K) then Throw InvalidArgument else
  if negb (g_rows C =? M) || negb (g_cols C =? N) then Throw InvalidArgument else
  if negb (g_rows D =? M) || negb (g_cols D =? N) then Throw InvalidArgument else
  ref_gemm_ptr al M N K alpha (g_ptr SS A) (g_ptr SS B) beta (g_ptr SS C) (g_ptr SS D) m.

(** ger(m, n, alpha, x, y, a, b) (reference/Ger.hpp:35-40) *)
Definition ref_ger_ptr (al : alloc) (M N : nat) (alpha : T) (x y : vptr) (A B : mptr) (m : mem T) : res (mem T) :=
  for_ 0 M (fun i m => for_ 0 N (fun j m =>
    a <- rd al m (deref A i j) ;; u <- rd al m (vderef x i) ;; v <- rd al m (vderef y j) ;;
    wr al m (deref B i j) (oadd O a (omul O (omul O alpha u) v))) m) m.

(** v = 0; for k = lo..hi-1: v += (diag && k == d) ? b(k) : product of a(k) and b(k), the factor of A first if [afirst]
    (reference/Trmm.hpp:52-54, 63-65, 113-115, 124-126) *)
Definition trmm_acc (al : alloc) (m : mem T) (diag afirst : bool) (d lo hi : nat) (a b : nat -> nat) : res T :=
  for_ lo hi (fun k v =>
    t <- (if diag && (k =? d) then rd al m (b k)
          else (u <- rd al m (a k) ;; w <- rd al m (b k) ;; Ok (if afirst then omul O u w else omul O w u))) ;;
    Ok (oadd O v t)) (o0 O).

(** trmm(m, n, alpha, A, uplo, diag, B, C): C := alpha * A * B (reference/Trmm.hpp:44-71) *)
Definition ref_trmmL_ptr (al : alloc) (M N : nat) (alpha : T) (A : mptr) (ul : uplo) (diag : bool) (B C : mptr) (m : mem T) : res (mem T) :=
  let elem i j lo hi m :=
    v <- trmm_acc al m diag true i lo hi (fun k => deref A i k) (fun k => deref B k j) ;;
    wr al m (deref C i j) (omul O alpha v) in
  for_ 0 N (fun j m =>
    match ul with
    | Upper => for_ 0 M (fun i m => elem i j i M m) m
    | Lower => for_ 0 M (fun t m => let i := M - 1 - t in elem i j 0 (i + 1) m) m
    end) m.
(** trmm(m, n, alpha, B, A, uplo, diag, C): C := alpha * B * A (reference/Trmm.hpp:105-132) *)
Definition ref_trmmR_ptr (al : alloc) (M N : nat) (alpha : T) (B A : mptr) (ul : uplo) (diag : bool) (C : mptr) (m : mem T) : res (mem T) :=
  let elem i j lo hi m :=
    v <- trmm_acc al m diag false j lo hi (fun k => deref A k j) (fun k => deref B i k) ;;
    wr al m (deref C i j) (omul O alpha v) in
  for_ 0 M (fun i m =>
    match ul with
    | Lower => for_ 0 N (fun j m => elem i j j N m) m
    | Upper => for_ 0 N (fun t m => let j := N - 1 - t in elem i j 0 (j + 1) m) m
    end) m.
(** trmm(alpha, A, uplo, diag, B, C), trmm(alpha, B, A, uplo, diag, C) (reference/Trmm.hpp:166-176, 210-220).
    ref_trmmL: for a program in which algorithm/Trmm.hpp is not visible; see RefTrmm_Model for the resolution of the unqualified call in line 175. *)
Definition ref_trmmL (al : alloc) (alpha : T) (A : marg) (ul : uplo) (diag : bool) (B C : marg) (m : mem T) : res (mem T) :=
  let M := g_rows B in let N := g_cols B in
  if negb (g_rows A =? M) || negb (g_cols A =? M) || negb (g_rows C =? M) || negb (g_cols C =? N) then Throw InvalidArgument else
  ref_trmmL_ptr al M N alpha (g_ptr SS A) ul diag (g_ptr SS B) (g_ptr SS C) m.
Definition ref_trmmR (al : alloc) (alpha : T) (B A : marg) (ul : uplo) (diag : bool) (C : marg) (m : mem T) : res (mem T) :=
  let M := g_rows B in let N := g_cols B in
  if negb (g_rows A =? N) || negb (g_cols A =? N) || negb (g_rows C =? M) || negb (g_cols C =? N) then Throw InvalidArgument else
  ref_trmmR_ptr al M N alpha (g_ptr SS B) (g_ptr SS A) ul diag (g_ptr SS C) m.

(** One element of the solvers: v = alpha * B; the accumulation; X = diag ? v : v / A(d,d); operator[] of the pointers
    (reference/Trsm.hpp:52-56, 62-66, 113-117, 123-127) *)
Definition rtrsm_elem (al : alloc) (diag : bool) (alpha : T) (b x d : nat) (lo hi : nat) (f g : nat -> nat) (m : mem T) : res (mem T) :=
  v <- rd al m b ;;
  v <- acc_sub T O al m lo hi f g (omul O alpha v) ;;
  if diag then wr al m x v else (q <- rd al m d ;; wr al m x (odiv O v q)).
(** trsm(m, n, A, uplo, diag, X, alpha, B): A * X = alpha * B (reference/Trsm.hpp:44-73) *)
Definition ref_trsmL_ptr (al : alloc) (M N : nat) (A : mptr) (ul : uplo) (diag : bool) (X : mptr) (alpha : T) (B : mptr) (m : mem T) : res (mem T) :=
  let elem i j lo hi m := rtrsm_elem al diag alpha (addr SS B i j) (addr SS X i j) (addr SS A i i) lo hi
                            (fun k => addr SS A i k) (fun k => addr SS X k j) m in
  for_ 0 N (fun j m =>
    match ul with
    | Lower => for_ 0 M (fun i m => elem i j 0 i m) m
    | Upper => for_ 0 M (fun t m => let i := M - 1 - t in elem i j (i + 1) M m) m
    end) m.
(** trsm(m, n, X, A, uplo, diag, alpha, B): X * A = alpha * B (reference/Trsm.hpp:105-134) *)
Definition ref_trsmR_ptr (al : alloc) (M N : nat) (X A : mptr) (ul : uplo) (diag : bool) (alpha : T) (B : mptr) (m : mem T) : res (mem T) :=
  let elem i j lo hi m := rtrsm_elem al diag alpha (addr SS B i j) (addr SS X i j) (addr SS A j j) lo hi
                            (fun k => addr SS X i k) (fun k => addr SS A k j) m in
  for_ 0 M (fun i m =>
    match ul with
    | Upper => for_ 0 N (fun j m => elem i j 0 j m) m
    | Lower => for_ 0 N (fun t m => let j := N - 1 - t in elem i j (j + 1) N m) m
    end) m.
(** trsm(A, uplo, diag, X, alpha, B), trsm(X, A, uplo, diag, alpha, B) (reference/Trsm.hpp:164-175, 206-217) *)
Definition ref_trsmL (al : alloc) (A : marg) (ul : uplo) (diag : bool) (X : marg) (alpha : T) (B : marg) (m : mem T) : res (mem T) :=
  let M := g_rows B in let N := g_cols B in
  if negb (g_rows A =? M) || negb (g_cols A =? M) || negb (g_rows X =? M) || negb (g_cols X =? N) then Throw InvalidArgument else
  ref_trsmL_ptr al M N (g_ptr SS A) ul diag (g_ptr SS X) alpha (g_ptr SS B) m.
Definition ref_trsmR (al : alloc) (X A : marg) (ul : uplo) (diag : bool) (alpha : T) (B : marg) (m : mem T) : res (mem T) :=
  let M := g_rows B in let N := g_cols B in
  if negb (g_rows A =? N) || negb (g_cols A =? N) || negb (g_rows X =? M) || negb (g_cols X =? N) then Throw InvalidArgument else
  ref_trsmR_ptr al M N (g_ptr SS X) (g_ptr SS A) ul diag alpha (g_ptr SS B) m.
End Ref.
