(** LU_Model.v -- dense/{Iamax,Swap,Laswp,Getf2,Getrf}.hpp.  Paths are relative to /repo/include/blast/math. *)
From Coq Require Import Arith List Bool PeanoNat.
From Verif Require Import Base Layout_Model Simd_Model Reg_Model Tile_Model Gemm_Model Ger_Model Tri_Model Ref_Model.
Import ListNotations.

(** The array ipiv.  Simplification: an array separate from the matrix memory; the theorems say which entries change. *)
Definition piv := nat -> nat.
Definition pupd (p : piv) (k v : nat) : piv := fun i => if i =? k then v else p i.

Section LU.
Variable SS : nat.
Variable cc : nat.      (* TileSize_v<T> / SimdSize_v<T> *)
Variable T : Type.
Variable O : Ops T.

(** The scalar loop of iamax (dense/Iamax.hpp:82-95): [x0] is the address of *x, [x i] that of *(~x)(i).
    The vectorised alternative (dense/Iamax.hpp:97-154) is disabled by #if 1 and not modelled. *)
Definition iamax_loop (al : alloc) (n : nat) (x0 : nat) (x : nat -> nat) (m : mem T) : res nat :=
  v0 <- rd al m x0 ;;
  r <- for_ 1 n (fun i (s : T * nat) =>
         u <- rd al m (x i) ;;
         let v := oabs O u in
         Ok (if oltb O (fst s) v then (v, i) else s)) (oabs O v0, 0) ;;
  Ok (snd r).
(** iamax(n, x) (dense/Iamax.hpp:66-156) *)
Definition iamax_ptr (al : alloc) (n : nat) (x : vptr) (m : mem T) : res nat :=
  iamax_loop al n (vaddr SS x 0) (vderef SS x) m.
(** iamax(x) (dense/Iamax.hpp:170-178) *)
Definition iamax (al : alloc) (x : varg) (m : mem T) : res nat :=
  if x_size x =? 0 then Throw InvalidArgument else iamax_ptr al (x_size x) (x_ptr x) m.
(** iamax of a blaze vector view; ptr(x) addresses its elements. *)
Definition iamax_d (al : alloc) (x : dvec) (m : mem T) : res nat :=
  if v_size x =? 0 then Throw InvalidArgument else iamax_loop al (v_size x) (v_at x 0) (v_at x) m.

(** for i < n: std::swap(x[i], y[i]) (dense/Swap.hpp:42-43) *)
Definition swap_loop (al : alloc) (n : nat) (x y : nat -> nat) (m : mem T) : res (mem T) :=
  for_ 0 n (fun i m => u <- rd al m (x i) ;; v <- rd al m (y i) ;; m <- wr al m (x i) v ;; wr al m (y i) u) m.
(** swap(n, x, y) (dense/Swap.hpp:40-44) *)
Definition swap_ptr (al : alloc) (n : nat) (x y : vptr) (m : mem T) : res (mem T) := swap_loop al n (vderef SS x) (vderef SS y) m.
(** swap(x, y) (dense/Swap.hpp:62-70); ptr(x), ptr(y) address the elements of the (blaze) vectors *)
Definition swap_d (al : alloc) (x y : dvec) (m : mem T) : res (mem T) :=
  if negb (v_size y =? v_size x) then Throw InvalidArgument else
  if 0 <? v_size x then swap_loop al (v_size x) (v_at x) (v_at y) m else Ok m.

(** row(A, i) and submatrix(A, i, j, m, n) of blaze, by their elements *)
Definition drow (A : dmat) (i : nat) : dvec := DVec (d_n A) (fun j => d_at A i j).
Definition dsub (A : dmat) (i j m n : nat) : dmat := DMat m n (fun r c => d_at A (i + r) (j + c)).

(** laswp(A, k0, k1, ipiv) (dense/Laswp.hpp:38-43) *)
Definition laswp (al : alloc) (A : dmat) (k0 k1 : nat) (p : piv) (m : mem T) : res (mem T) :=
  for_ k0 k1 (fun k m => if k =? p k then Ok m else swap_d al (drow A k) (drow A (p k)) m) m.

(** Body of the loop of getf2(m, n, A, ipiv) for column-major pointers (dense/Getf2.hpp:58-76); [p0] is the offset of ipiv
    in the array. *)
Definition getf2_step (al : alloc) (M N : nat) (A : mptr) (p0 : nat) (k : nat) (s : mem T * piv) : res (mem T * piv) :=
  let (m, p) := s in
  let at_ i j := poff SS (punalign SS A) i j in
  r <- iamax_ptr al (M - k) (VMat columnVector (at_ k k)) m ;;
  let ip := r + k in
  let p := pupd p (p0 + k) ip in
  m <- (if negb (ip =? k) then swap_ptr al N (VMat rowVector (at_ k 0)) (VMat rowVector (at_ ip 0)) m else Ok m) ;;
  d <- rd al m (deref SS A k k) ;;
  if oeqb O d (o0 O) then Throw InvalidArgument else
  m <- for_ (k + 1) M (fun i m =>
         u <- rd al m (deref SS A i k) ;; d <- rd al m (deref SS A k k) ;; wr al m (deref SS A i k) (odiv O u d)) m ;;
  m <- (if (k + 1 <? M) && (k + 1 <? N)
        then ger_ptr SS cc T O al (M - k - 1) (N - k - 1) (om1 O) (VMat columnVector (at_ (k + 1) k)) (VMat rowVector (at_ k (k + 1)))
               (at_ (k + 1) (k + 1)) (at_ (k + 1) (k + 1)) m
        else Ok m) ;;
  Ok (m, p).
(** getf2(m, n, A, ipiv) (dense/Getf2.hpp:52-77) *)
Definition getf2_ptr (al : alloc) (M N : nat) (A : mptr) (p0 : nat) (s : mem T * piv) : res (mem T * piv) :=
  for_ 0 (min M N) (getf2_step al M N A p0) s.
(** getf2(A, ipiv), column-major (dense/Getf2.hpp:103-107) *)
Definition getf2_cm (al : alloc) (A : marg) (s : mem T * piv) : res (mem T * piv) :=
  getf2_ptr al (g_rows A) (g_cols A) (g_ptr SS A) 0 s.

(** The loop of getf2(A, ipiv) for row-major matrices (dense/Getf2.hpp:133-164).  ger() is the row-major form
    (dense/Ger.hpp:245-262, here on views).  Simplification: blaze's "view /= scalar" divides each element. *)
Definition getf2_rm_step (al : alloc) (A : dmat) (k : nat) (s : mem T * piv) : res (mem T * piv) :=
  let (m, p) := s in
  let M := d_m A in let N := d_n A in
  r <- iamax_d al (DVec (M - k) (fun i => d_at A (k + i) k)) m ;;
  let ip := r + k in
  let p := pupd p k ip in
  m <- (if negb (ip =? k) then swap_d al (drow A k) (drow A ip) m else Ok m) ;;
  d <- rd al m (d_at A k k) ;;
  if oeqb O d (o0 O) then Throw InvalidArgument else
  m <- for_ (k + 1) M (fun i m => u <- rd al m (d_at A i k) ;; wr al m (d_at A i k) (odiv O u d)) m ;;
  m <- for_ 0 (M - k - 1) (fun i m => for_ 0 (N - k - 1) (fun j m =>
         a <- rd al m (d_at A (k + 1 + i) (k + 1 + j)) ;;
         x <- rd al m (d_at A (k + 1 + i) k) ;;
         y <- rd al m (d_at A k (k + 1 + j)) ;;
         wr al m (d_at A (k + 1 + i) (k + 1 + j)) (oadd O a (omul O (omul O (om1 O) x) y))) m) m ;;
  Ok (m, p).
Definition getf2_rm (al : alloc) (A : dmat) (s : mem T * piv) : res (mem T * piv) :=
  for_ 0 (min (d_m A) (d_n A)) (getf2_rm_step al A) s.

(** for (i = lo; i < hi; ++i) ipiv[i] += k (dense/Getrf.hpp:70-71, 111-112) *)
Definition padd (lo hi k : nat) (p : piv) : piv := fun i => if (lo <=? i) && (i <? hi) then p i + k else p i.

(** Body of the block loop of getrf for column-major matrices (dense/Getrf.hpp:64-102) *)
Definition getrf_step (al : alloc) (A : marg) (k : nat) (s : mem T * piv) : res (mem T * piv) :=
  let M := g_rows A in let N := g_cols A in let NB := TS SS cc in
  let pA := g_ptr SS A in let D := DMat M N (g_addr SS A) in
  s <- getf2_ptr al (M - k) NB (poff SS (punalign SS pA) k k) k s ;;
  let (m, p) := s in
  let p := padd k (k + NB) k p in
  m <- laswp al (dsub D 0 0 M k) k (k + NB) p m ;;
  m <- laswp al (dsub D 0 (k + NB) M (N - k - NB)) k (k + NB) p m ;;
  let A12 := dsub D k (k + NB) NB (N - k - NB) in
  m <- trsm T O al Lower true (dsub D k k NB NB) A12 A12 m ;;
  m <- gemm_ptr SS T O al (M - k - NB) (N - k - NB) NB (om1 O) (poff SS pA (k + NB) k) (poff SS pA k (k + NB)) (o1 O)
         (poff SS pA (k + NB) (k + NB)) (poff SS pA (k + NB) (k + NB)) m ;;
  Ok (m, p).
(** getrf(A, ipiv), column-major (dense/Getrf.hpp:53-119) *)
Definition getrf_cm (al : alloc) (A : marg) (s : mem T * piv) : res (mem T * piv) :=
  let M := g_rows A in let N := g_cols A in let NB := TS SS cc in
  let ks := steps (M + 1) (fun k => (k + NB <? M) && (k + NB <? N)) NB 0 in
  let k := snd ks in
  s <- foldM (getrf_step al A) (fst ks) s ;;
  s <- (if (k <? M) && (k <? N) then getf2_ptr al (M - k) (N - k) (poff SS (g_ptr SS A) k k) k s else Ok s) ;;
  let (m, p) := s in
  let p := padd k (min M N) k p in
  m <- laswp al (dsub (DMat M N (g_addr SS A)) 0 0 M k) k (min M N) p m ;;
  Ok (m, p).

(** getrf(A, ipiv), row-major (dense/Getrf.hpp:142-162).  Simplification: as in [getf2_rm_step]; blaze evaluates the
    scalar before the assignment. *)
Definition getrf_rm_step (al : alloc) (A : dmat) (k : nat) (s : mem T * piv) : res (mem T * piv) :=
  let (m, p) := s in
  let M := d_m A in let N := d_n A in
  d <- rd al m (d_at A k k) ;;
  m <- for_ (k + 1) M (fun i m => u <- rd al m (d_at A i k) ;; wr al m (d_at A i k) (odiv O u d)) m ;;
  m <- for_ (k + 1) N (fun j m => for_ (k + 1) M (fun i m =>
         a <- rd al m (d_at A i j) ;; x <- rd al m (d_at A i k) ;; y <- rd al m (d_at A k j) ;;
         wr al m (d_at A i j) (osub O a (omul O x y))) m) m ;;
  Ok (m, pupd p k k).
Definition getrf_rm (al : alloc) (A : dmat) (s : mem T * piv) : res (mem T * piv) :=
  for_ 0 (min (d_m A) (d_n A)) (getrf_rm_step al A) s.
End LU.
