(** Interop_Model.v -- conversion between Blaze and BLASFEO matrices.  Paths are relative to /repo/include.
    The BLASFEO library itself is not part of the repository: its packing functions are modelled by their documented effect
    (loops over the elements, without checks), with their parameters of type int. *)
From Coq Require Import Arith NArith List Bool PeanoNat.
From Verif Require Import Base.
Import ListNotations.

(** A BLASFEO matrix structure: its size and the address of element (i, j), i.e. of BLASFEO_DMATEL / BLASFEO_SMATEL, as returned
    by rows, columns and element (blasfeo/blasfeo_api/Mat.hpp:16-41, 79-104) and by Matrix::operator() (blasfeo/Matrix.hpp:33-42). *)
Record smat := SMat { sm_rows : nat; sm_cols : nat; sm_at : nat -> nat -> nat }.
(** A BLASFEO vector structure. *)
Record svec := SVec { sv_size : nat; sv_at : nat -> nat }.

(** The C functions of BLASFEO take int, the wrappers size_t: the conversion is modulo 2^32; None stands for a negative value. *)
Definition int_of (n : nat) : option nat :=
  let r := (N.of_nat n mod 2 ^ 32)%N in if (r <? 2 ^ 31)%N then Some (N.to_nat r) else None.

Section S.
Variables (T : Type) (al : alloc).

(** for (jj = 0; jj < n; jj++) for (ii = 0; ii < m; ii++) f(ii, jj), where loops to a negative bound do nothing *)
Definition int_loops (m n : option nat) (f : nat -> nat -> mem T -> res (mem T)) (s : mem T) : res (mem T) :=
  match m, n with
  | Some m, Some n => for_ 0 n (fun j s => for_ 0 m (fun i s => f i j s) s) s
  | _, _ => Ok s
  end.
(** Negative leading dimensions and offsets address memory before the arrays. *)
Definition need (o : option nat) (f : nat -> res (mem T)) : res (mem T) := match o with Some x => f x | None => UB end.

(** blasfeo_pack_{d,s}mat(m, n, A, lda, sB, bi, bj), documented (Mat.hpp:106-118): pack the column-major m-by-n matrix A into B *)
Definition lib_pack (m n : option nat) (A : nat) (lda : option nat) (B : smat) (bi bj : option nat) : mem T -> res (mem T) :=
  int_loops m n (fun i j s => need lda (fun lda => need bi (fun bi => need bj (fun bj =>
    x <- rd al s (A + i + lda * j) ;; wr al s (sm_at B (bi + i) (bj + j)) x)))).
(** blasfeo_pack_tran_{d,s}mat (Mat.hpp:120-132): transpose and pack *)
Definition lib_pack_tran (m n : option nat) (A : nat) (lda : option nat) (B : smat) (bi bj : option nat) : mem T -> res (mem T) :=
  int_loops m n (fun i j s => need lda (fun lda => need bi (fun bi => need bj (fun bj =>
    x <- rd al s (A + i + lda * j) ;; wr al s (sm_at B (bi + j) (bj + i)) x)))).
(** blasfeo_unpack_{d,s}mat (Mat.hpp:134-146) *)
Definition lib_unpack (m n : option nat) (A : smat) (ai aj : option nat) (B : nat) (ldb : option nat) : mem T -> res (mem T) :=
  int_loops m n (fun i j s => need ldb (fun ldb => need ai (fun ai => need aj (fun aj =>
    x <- rd al s (sm_at A (ai + i) (aj + j)) ;; wr al s (B + i + ldb * j) x)))).
(** blasfeo_unpack_tran_{d,s}mat (Mat.hpp:148-159) *)
Definition lib_unpack_tran (m n : option nat) (A : smat) (ai aj : option nat) (B : nat) (ldb : option nat) : mem T -> res (mem T) :=
  int_loops m n (fun i j s => need ldb (fun ldb => need ai (fun ai => need aj (fun aj =>
    x <- rd al s (sm_at A (ai + i) (aj + j)) ;; wr al s (B + j + ldb * i) x)))).
(** blasfeo_pack_{d,s}vec, blasfeo_unpack_{d,s}vec (blasfeo/blasfeo_api/Vec.hpp:16-41) *)
Definition lib_pack_vec (m : option nat) (x : nat) (y : svec) (yi : option nat) : mem T -> res (mem T) :=
  int_loops m (Some 1) (fun i _ s => need yi (fun yi => v <- rd al s (x + i) ;; wr al s (sv_at y (yi + i)) v)).
Definition lib_unpack_vec (m : option nat) (x : svec) (xi : option nat) (y : nat) : mem T -> res (mem T) :=
  int_loops m (Some 1) (fun i _ s => need xi (fun xi => v <- rd al s (sv_at x (xi + i)) ;; wr al s (y + i) v)).
(** blasfeo_{d,s}vecse (Vec.hpp:44-54), vecsc (:57-66): x <= alpha, x <= alpha * x *)
Definition lib_vecse (m : option nat) (alpha : T) (x : svec) (xi : option nat) : mem T -> res (mem T) :=
  int_loops m (Some 1) (fun i _ s => need xi (fun xi => wr al s (sv_at x (xi + i)) alpha)).
Definition lib_vecsc (O : Ops T) (m : option nat) (alpha : T) (x : svec) (xi : option nat) : mem T -> res (mem T) :=
  int_loops m (Some 1) (fun i _ s => need xi (fun xi => v <- rd al s (sv_at x (xi + i)) ;; wr al s (sv_at x (xi + i)) (omul O alpha v))).

(** The wrappers (Mat.hpp:106-159, Vec.hpp:15-67) convert every size_t argument to int. *)
Definition pack_mat (m n A lda : nat) (B : smat) (bi bj : nat) : mem T -> res (mem T) :=
  lib_pack (int_of m) (int_of n) A (int_of lda) B (int_of bi) (int_of bj).
Definition pack_tran_mat (m n A lda : nat) (B : smat) (bi bj : nat) : mem T -> res (mem T) :=
  lib_pack_tran (int_of m) (int_of n) A (int_of lda) B (int_of bi) (int_of bj).
Definition unpack_mat (m n : nat) (A : smat) (ai aj : nat) (B ldb : nat) : mem T -> res (mem T) :=
  lib_unpack (int_of m) (int_of n) A (int_of ai) (int_of aj) B (int_of ldb).
Definition unpack_tran_mat (m n : nat) (A : smat) (ai aj : nat) (B ldb : nat) : mem T -> res (mem T) :=
  lib_unpack_tran (int_of m) (int_of n) A (int_of ai) (int_of aj) B (int_of ldb).
Definition pack_vec (m x : nat) (y : svec) (yi : nat) : mem T -> res (mem T) := lib_pack_vec (int_of m) x y (int_of yi).
Definition unpack_vec (m : nat) (x : svec) (xi y : nat) : mem T -> res (mem T) := lib_unpack_vec (int_of m) x (int_of xi) y.
Definition vecse (m : nat) (alpha : T) (x : svec) (xi : nat) : mem T -> res (mem T) := lib_vecse (int_of m) alpha x (int_of xi).
Definition vecsc (O : Ops T) (m : nat) (alpha : T) (x : svec) (xi : nat) : mem T -> res (mem T) := lib_vecsc O (int_of m) alpha x (int_of xi).

(** A dense Blaze matrix with direct data access: storage order, size, data pointer, spacing, and for resizable types the
    data pointer and the spacing after resizing to another size (None for types that cannot be resized). *)
Record bmat := BMat { bm_order : order; bm_rows : nat; bm_cols : nat; bm_data : nat; bm_spacing : nat;
                      bm_realloc : option (nat -> nat -> nat * nat) }.
Definition bm_at (A : bmat) (i j : nat) : nat :=
  match bm_order A with columnMajor => bm_data A + i + bm_spacing A * j | rowMajor => bm_data A + j + bm_spacing A * i end.
(** blaze::resize(B, m, n): nothing if the size is right, otherwise reallocation or std::invalid_argument *)
Definition bm_resize (B : bmat) (m n : nat) : res bmat :=
  if (bm_rows B =? m) && (bm_cols B =? n) then Ok B
  else match bm_realloc B with
       | Some f => Ok (BMat (bm_order B) m n (fst (f m n)) (snd (f m n)) (Some f))
       | None => Throw InvalidArgument
       end.

(** pack(DenseMatrix A, M sB, bi, bj): blasfeo/BlazeInterop.hpp:42-50 *)
Definition pack (A : bmat) (B : smat) (bi bj : nat) (s : mem T) : res (mem T) :=
  match bm_order A with
  | columnMajor => pack_mat (bm_rows A) (bm_cols A) (bm_data A) (bm_spacing A) B bi bj s
  | rowMajor => pack_tran_mat (bm_cols A) (bm_rows A) (bm_data A) (bm_spacing A) B bi bj s
  end.
(** pack(DenseVector a, M sB, bi, bj): BlazeInterop.hpp:69-77; the vector has n elements at [a], [a + 1], ... *)
Definition pack_v (tf : tflag) (n a : nat) (B : smat) (bi bj : nat) (s : mem T) : res (mem T) :=
  match tf with
  | columnVector => pack_mat n 1 a n B bi bj s
  | rowVector => pack_tran_mat n 1 a n B bi bj s
  end.
(** pack(DenseVector x, V sy, yi): BlazeInterop.hpp:81-86 *)
Definition pack_vv (n x : nat) (y : svec) (yi : nat) (s : mem T) : res (mem T) := pack_vec n x y yi s.
(** unpack(m, n, sA, ai, aj, B): BlazeInterop.hpp:90-101; gives the memory and B after resizing *)
Definition unpack (m n : nat) (A : smat) (ai aj : nat) (B : bmat) (s : mem T) : res (mem T * bmat) :=
  B <- bm_resize B m n ;;
  s <- match bm_order B with
       | columnMajor => unpack_mat m n A ai aj (bm_data B) (bm_spacing B) s
       | rowMajor => unpack_tran_mat m n A ai aj (bm_data B) (bm_spacing B) s
       end ;;
  Ok (s, B).
(** unpack_tran(m, n, sA, ai, aj, B): BlazeInterop.hpp:104-115 *)
Definition unpack_tran (m n : nat) (A : smat) (ai aj : nat) (B : bmat) (s : mem T) : res (mem T * bmat) :=
  B <- bm_resize B n m ;;
  s <- match bm_order B with
       | columnMajor => unpack_tran_mat m n A ai aj (bm_data B) (bm_spacing B) s
       | rowMajor => unpack_mat m n A ai aj (bm_data B) (bm_spacing B) s
       end ;;
  Ok (s, B).
(** unpack(m, sx, xi, y) for vectors: BlazeInterop.hpp:118-124.  The template parameter V occurs in no parameter type, so that it
    is not deduced and the call is ill-formed; with V given ([explicit]) the function copies. *)
Definition unpack_v (explicit : bool) (m : nat) (x : svec) (xi y : nat) (s : mem T) : res (mem T) :=
  if explicit then unpack_vec m x xi y s else IllFormed.

(** Matrix::unpack(dst): blasfeo/Matrix.hpp:48-55; dst is column-major *)
Definition matrix_unpack (A : smat) (dst : bmat) (s : mem T) : res (mem T * bmat) :=
  dst <- bm_resize dst (sm_rows A) (sm_cols A) ;;
  s <- unpack_mat (sm_rows A) (sm_cols A) A 0 0 (bm_data dst) (bm_spacing dst) s ;;
  Ok (s, dst).
(** DynamicMatrix::DynamicMatrix(rhs): blasfeo/DynamicMatrix.hpp:49-54; [at] is the memory of allocate_mat; rhs is column-major *)
Definition dynamic_from (addr : nat -> nat -> nat) (rhs : bmat) (s : mem T) : res (mem T * smat) :=
  let B := SMat (bm_rows rhs) (bm_cols rhs) addr in
  s <- pack_mat (bm_rows rhs) (bm_cols rhs) (bm_data rhs) (bm_spacing rhs) B 0 0 s ;;
  Ok (s, B).
(** DynamicMatrix::resize(m, n): DynamicMatrix.hpp:66-70 *)
Definition dynamic_resize (B : smat) (m n : nat) : res smat :=
  if negb (m =? sm_rows B) || negb (n =? sm_cols B) then Throw InvalidArgument else Ok B.
(** DynamicMatrix::operator=(rhs): DynamicMatrix.hpp:76-86 *)
Definition dynamic_assign (B : smat) (rhs : bmat) (s : mem T) : res (mem T * smat) :=
  B <- dynamic_resize B (bm_rows rhs) (bm_cols rhs) ;;
  s <- pack_mat (bm_rows rhs) (bm_cols rhs) (bm_data rhs) (bm_spacing rhs) B 0 0 s ;;
  Ok (s, B).
(** CustomMatrix::CustomMatrix(): blasfeo/CustomMatrix.hpp:25-28 passes the pointer [this] where create_mat takes a reference *)
Definition custom_default : res smat := IllFormed.
End S.
