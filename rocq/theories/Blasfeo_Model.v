(** Blasfeo_Model.v -- the products and factorisations of the BLASFEO wrappers.  Paths are relative to /repo/include/blasfeo/blasfeo_api.
    The BLASFEO library is not part of the repository: its routines are modelled by their documented effect (element by element, in
    column order, without checks; parameters of type int).  How it rounds and how it blocks the computation is not modelled. *)
From Coq Require Import Arith NArith List Bool PeanoNat.
From Verif Require Import Base Interop_Model.
Import ListNotations.

(** An operand of a library call: a matrix structure and the int offsets of its window. *)
Record warg := WArg { w_mat : smat; w_i : option nat; w_j : option nat }.

Section S.
Variables (T : Type) (O : Ops T) (al : alloc).

(** Element (i, j) of the window; a negative offset addresses memory before the matrix. *)
Definition w_rd (w : warg) (i j : nat) (s : mem T) : res T :=
  match w_i w, w_j w with Some a, Some b => rd al s (sm_at (w_mat w) (a + i) (b + j)) | _, _ => UB end.
Definition w_wr (w : warg) (i j : nat) (x : T) (s : mem T) : res (mem T) :=
  match w_i w, w_j w with Some a, Some b => wr al s (sm_at (w_mat w) (a + i) (b + j)) x | _, _ => UB end.
(** sum of x(l) * y(l) for lo <= l < hi *)
Definition dot (lo hi : nat) (x y : nat -> res T) : res T :=
  for_ lo hi (fun l acc => a <- x l ;; b <- y l ;; Ok (oadd O acc (omul O a b))) (o0 O).
(** A negative number of terms is an empty sum. *)
Definition terms (k : option nat) : nat := match k with Some k => k | None => 0 end.
(** for j < n: for lo(j) <= i < m: f(i, j), where loops to a negative bound do nothing *)
Definition tri_loops (lo : nat -> nat) (m n : option nat) (f : nat -> nat -> mem T -> res (mem T)) (s : mem T) : res (mem T) :=
  match m, n with
  | Some m, Some n => for_ 0 n (fun j s => for_ (lo j) m (fun i s => f i j s) s) s
  | _, _ => Ok s
  end.

(** blasfeo_{d,s}gemm_{nn,tn,nt}(m, n, k, alpha, A, B, beta, C, D): D <= beta * C + alpha * op(A) * op(B)
    (documented at Gemm.hpp:17, 56, 95); [ta], [tb]: whether op transposes *)
Definition lib_gemm (ta tb : bool) (m n k : option nat) (alpha : T) (A B : warg) (beta : T) (C D : warg) : mem T -> res (mem T) :=
  tri_loops (fun _ => 0) m n (fun i j s =>
    p <- dot 0 (terms k) (fun l => if ta then w_rd A l i s else w_rd A i l s) (fun l => if tb then w_rd B j l s else w_rd B l j s) ;;
    c <- w_rd C i j s ;;
    w_wr D i j (oadd O (omul O beta c) (omul O alpha p)) s).
(** blasfeo_{d,s}syrk_ln(m, k, alpha, A, B, beta, C, D): D <= beta * C + alpha * A * B^T, lower triangles (Syrk.hpp:15, 30) *)
Definition lib_syrk_ln (m k : option nat) (alpha : T) (A B : warg) (beta : T) (C D : warg) : mem T -> res (mem T) :=
  tri_loops (fun j => j) m m (fun i j s =>
    p <- dot 0 (terms k) (fun l => w_rd A i l s) (fun l => w_rd B j l s) ;;
    c <- w_rd C i j s ;;
    w_wr D i j (oadd O (omul O beta c) (omul O alpha p)) s).
(** blasfeo_{d,s}trmm_rlnn(m, n, alpha, A, B, D): D <= alpha * B * A, A lower triangular (Trmm.hpp:17, 29); only the lower triangle of A is read *)
Definition lib_trmm_rlnn (m n : option nat) (alpha : T) (A B D : warg) : mem T -> res (mem T) :=
  tri_loops (fun _ => 0) m n (fun i j s =>
    p <- dot j (terms n) (fun l => w_rd B i l s) (fun l => w_rd A l j s) ;; w_wr D i j (omul O alpha p) s).
(** blasfeo_{d,s}trmm_rutn(m, n, alpha, A, B, D): D <= alpha * B * A^T, A upper triangular (Trmm.hpp:41, 51) *)
Definition lib_trmm_rutn (m n : option nat) (alpha : T) (A B D : warg) : mem T -> res (mem T) :=
  tri_loops (fun _ => 0) m n (fun i j s =>
    p <- dot j (terms n) (fun l => w_rd B i l s) (fun l => w_rd A j l s) ;; w_wr D i j (omul O alpha p) s).
(** Column-wise Cholesky factorisation of the lower triangle with elements [c i j]: the documented effect of the next two for
    positive definite matrices. *)
Definition lib_chol (m : option nat) (c : nat -> nat -> mem T -> res T) (D : warg) : mem T -> res (mem T) :=
  tri_loops (fun j => j) m m (fun i j s =>
    x <- c i j s ;;
    p <- dot 0 j (fun l => w_rd D i l s) (fun l => w_rd D j l s) ;;
    if i =? j then w_wr D i j (osqrt O (osub O x p)) s
    else d <- w_rd D j j s ;; w_wr D i j (odiv O (osub O x p) d) s).
(** blasfeo_{d,s}potrf_l(m, C, D): D <= chol(C), lower triangles (Potrf.hpp:13, 24) *)
Definition lib_potrf_l (m : option nat) (C D : warg) : mem T -> res (mem T) := lib_chol m (fun i j s => w_rd C i j s) D.
(** blasfeo_{d,s}syrk_{d,s}potrf_ln(m, k, A, B, C, D): D <= chol(C + A * B^T), lower triangles (SyrkPotrf.hpp:13, 27) *)
Definition lib_syrk_potrf_ln (m k : option nat) (A B C D : warg) : mem T -> res (mem T) :=
  lib_chol m (fun i j s =>
    p <- dot 0 (terms k) (fun l => w_rd A i l s) (fun l => w_rd B j l s) ;; c <- w_rd C i j s ;; Ok (oadd O c p)) D.

(** The wrappers convert every size_t argument to int. *)
Definition wa (A : smat) (i j : nat) : warg := WArg A (int_of i) (int_of j).
(** gemm_tn, gemm_nn, gemm_nt for double and float (Gemm.hpp:17-128) *)
Definition gemm_tn (m n k : nat) (alpha : T) (sA : smat) (ai aj : nat) (sB : smat) (bi bj : nat) (beta : T) (sC : smat) (ci cj : nat) (sD : smat) (di dj : nat) : mem T -> res (mem T) :=
  lib_gemm true false (int_of m) (int_of n) (int_of k) alpha (wa sA ai aj) (wa sB bi bj) beta (wa sC ci cj) (wa sD di dj).
Definition gemm_nn (m n k : nat) (alpha : T) (sA : smat) (ai aj : nat) (sB : smat) (bi bj : nat) (beta : T) (sC : smat) (ci cj : nat) (sD : smat) (di dj : nat) : mem T -> res (mem T) :=
  lib_gemm false false (int_of m) (int_of n) (int_of k) alpha (wa sA ai aj) (wa sB bi bj) beta (wa sC ci cj) (wa sD di dj).
Definition gemm_nt (m n k : nat) (alpha : T) (sA : smat) (ai aj : nat) (sB : smat) (bi bj : nat) (beta : T) (sC : smat) (ci cj : nat) (sD : smat) (di dj : nat) : mem T -> res (mem T) :=
  lib_gemm false true (int_of m) (int_of n) (int_of k) alpha (wa sA ai aj) (wa sB bi bj) beta (wa sC ci cj) (wa sD di dj).
(** syrk_ln (Syrk.hpp:16-41): alpha and beta are double also for float matrices, and converted ([narrow], the identity for double)
    in the call of the library *)
Definition syrk_ln {S} (narrow : S -> T) (m k : nat) (alpha : S) (sA : smat) (ai aj : nat) (sB : smat) (bi bj : nat) (beta : S) (sC : smat) (ci cj : nat) (sD : smat) (di dj : nat) : mem T -> res (mem T) :=
  lib_syrk_ln (int_of m) (int_of k) (narrow alpha) (wa sA ai aj) (wa sB bi bj) (narrow beta) (wa sC ci cj) (wa sD di dj).
(** trmm_rlnn (Trmm.hpp:17-38), trmm_rutn (:41-58) *)
Definition trmm_rlnn (m n : nat) (alpha : T) (sA : smat) (ai aj : nat) (sB : smat) (bi bj : nat) (sD : smat) (di dj : nat) : mem T -> res (mem T) :=
  lib_trmm_rlnn (int_of m) (int_of n) alpha (wa sA ai aj) (wa sB bi bj) (wa sD di dj).
Definition trmm_rutn (m n : nat) (alpha : T) (sA : smat) (ai aj : nat) (sB : smat) (bi bj : nat) (sD : smat) (di dj : nat) : mem T -> res (mem T) :=
  lib_trmm_rutn (int_of m) (int_of n) alpha (wa sA ai aj) (wa sB bi bj) (wa sD di dj).
(** potrf (Potrf.hpp:14-31), syrk_potrf (SyrkPotrf.hpp:14-39) *)
Definition bf_potrf (m : nat) (sC : smat) (ci cj : nat) (sD : smat) (di dj : nat) : mem T -> res (mem T) :=
  lib_potrf_l (int_of m) (wa sC ci cj) (wa sD di dj).
Definition syrk_potrf (m k : nat) (sA : smat) (ai aj : nat) (sB : smat) (bi bj : nat) (sC : smat) (ci cj : nat) (sD : smat) (di dj : nat) : mem T -> res (mem T) :=
  lib_syrk_potrf_ln (int_of m) (int_of k) (wa sA ai aj) (wa sB bi bj) (wa sC ci cj) (wa sD di dj).
End S.
