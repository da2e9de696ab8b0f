(** Reg_Model.v -- RegisterMatrix<T, M, N, columnMajor> (register_matrix/RegisterMatrix.hpp) and
    register_matrix/Gemm.hpp.  Paths are relative to /repo/include/blast/math. *)
From Coq Require Import Arith List Bool PeanoNat ZArith.
From Verif Require Import Base Layout_Model Simd_Model.
Import ListNotations.

Section Reg.
Variable SS : nat.
Variable T : Type.
Variable O : Ops T.
Notation vec := (vec T).

(** SimdVecType v_[RM][RN] (RegisterMatrix.hpp:395-406).  Only indices i < RM, j < RN are meaningful. *)
Definition regs := nat -> nat -> vec.
Definition rupd (r : regs) (i j : nat) (v : vec) : regs :=
  fun i' j' => if (i' =? i) && (j' =? j) then v else r i' j'.
(** operator()(i, j) / at(i, j) (RegisterMatrix.hpp:75-88, 408-413): v_[i / SS][j][i % SS] *)
Definition reg_at (r : regs) (i j : nat) : T := r (i / SS) j (i mod SS).

(** Loop nests "for j: if (cj j) for i: if (ci i) v_[i][j] = g(i, j, v_[i][j])". *)
Definition reg_map (N RM : nat) (cj ci : nat -> bool) (g : nat -> nat -> vec -> res vec) (r : regs) : res regs :=
  for_ 0 N (fun j r => if cj j then
    for_ 0 RM (fun i r => if ci i then v <- g i j (r i j) ;; Ok (rupd r i j v) else Ok r) r
    else Ok r) r.
Definition always (_ : nat) : bool := true.

(** reset() (RegisterMatrix.hpp:91-98); the loops are exchanged (i outer, j inner in the code),
    which cannot be observed because every iteration writes a different register. *)
Definition reg_reset (N RM : nat) (r : regs) : res regs :=
  reg_map N RM always always (fun _ _ _ => Ok (fun _ => o0 O)) r.
(** operator*=(alpha) (RegisterMatrix.hpp:102-109), same loop exchange *)
Definition reg_scale (N RM : nat) (alpha : T) (r : regs) : res regs :=
  reg_map N RM always always (fun _ _ v => Ok (vmul T O v (vbroadcast T alpha))) r.
(** "requires MatrixPointer<P, T> && (P::storageOrder == columnMajor)" of the members axpy, load, store, storeLower
    and of the first or second matrix of trmm (RegisterMatrix.hpp:114, 129, 143, 148, 162, 168, 174, 181, 194, 318, 340, 362), and of
    the free functions gemm(r, K, alpha, a, b) (register_matrix/Gemm.hpp:23, 43) *)
Definition cm_only {R} (p : mptr) (x : res R) : res R := if order_eqb (mp_so p) columnMajor then x else IllFormed.
(** axpy(beta, a) (RegisterMatrix.hpp:113-124) *)
Definition reg_axpy (al : alloc) (N RM : nat) (beta : T) (a : mptr) (m : mem T) (r : regs) : res regs :=
  cm_only a (
  reg_map N RM always always (fun i j v =>
    x <- mp_load SS T O al (poff SS a (SS * i) j) m ;; Ok (vfmadd T O (vbroadcast T beta) x v)) r).
(** axpy(beta, a, m, n) (RegisterMatrix.hpp:127-139) *)
Definition reg_axpy_mn (al : alloc) (N RM : nat) (beta : T) (a : mptr) (mm nn : nat) (m : mem T) (r : regs) : res regs :=
  cm_only a (
  reg_map N RM (fun j => j <? nn) (fun i => SS * i <? mm) (fun i j v =>
    x <- mp_load SS T O al (poff SS a (SS * i) j) m ;; Ok (vfmadd T O (vbroadcast T beta) x v)) r).
(** load(p) (RegisterMatrix.hpp:432-439) *)
Definition reg_load (al : alloc) (N RM : nat) (p : mptr) (m : mem T) (r : regs) : res regs :=
  cm_only p (
  reg_map N RM always always (fun i j _ => mp_load SS T O al (poff SS p (SS * i) j) m) r).
(** load(beta, p) (RegisterMatrix.hpp:445-452) *)
Definition reg_loadb (al : alloc) (N RM : nat) (beta : T) (p : mptr) (m : mem T) (r : regs) : res regs :=
  cm_only p (
  reg_map N RM always always (fun i j _ =>
    x <- mp_load SS T O al (poff SS p (SS * i) j) m ;; Ok (vmul T O (vbroadcast T beta) x)) r).
(** load(beta, p, m, n) (RegisterMatrix.hpp:458-480) *)
Definition reg_loadb_mn (al : alloc) (N RM : nat) (beta : T) (p : mptr) (mm nn : nat) (m : mem T) (r : regs) : res regs :=
  cm_only p (
  for_ 0 N (fun j r => if j <? nn then
    if mp_af p && mp_pf p then
      for_ 0 RM (fun i r => if SS * i <? mm then
        x <- mp_load SS T O al (poff SS p (SS * i) j) m ;; Ok (rupd r i j (vmul T O (vbroadcast T beta) x)) else Ok r) r
    else
      r <- for_ 0 RM (fun i r => if SS * i + SS <=? mm then
        x <- mp_load SS T O al (poff SS p (SS * i) j) m ;; Ok (rupd r i j (vmul T O (vbroadcast T beta) x)) else Ok r) r ;;
      let rem := mm mod SS in
      if 0 <? rem then
        x <- mp_loadm SS T O al (poff SS p (mm - rem) j) (idx_lt (Z.of_nat rem)) m ;;
        Ok (rupd r (mm / SS) j (vmul T O (vbroadcast T beta) x))
      else Ok r
    else Ok r) r).

(** store(p) (RegisterMatrix.hpp:486-493) *)
Definition reg_store (al : alloc) (N RM : nat) (p : mptr) (r : regs) (m : mem T) : res (mem T) :=
  cm_only p (
  for_ 0 N (fun j m => for_ 0 RM (fun i m => mp_store SS T al (poff SS p (SS * i) j) (r i j) m) m) m).
(** store(p, m, n) (RegisterMatrix.hpp:499-515) *)
Definition reg_store_mn (al : alloc) (N RM : nat) (p : mptr) (mm nn : nat) (r : regs) (m : mem T) : res (mem T) :=
  cm_only p (
  m <- for_ 0 N (fun j m => if j <? nn then
         for_ 0 RM (fun i m => if SS * (i + 1) <=? mm then mp_store SS T al (poff SS p (SS * i) j) (r i j) m else Ok m) m
         else Ok m) m ;;
  let rem := mm mod SS in
  if 0 <? rem then
    let i := mm / SS in
    for_ 0 (min nn N) (fun j m => mp_storem SS T al (poff SS p (SS * i) j) (r i j) (idx_lt (Z.of_nat rem)) m) m
  else Ok m).
(** storeLower(p) (RegisterMatrix.hpp:521-538) *)
Definition reg_storeLower (al : alloc) (N RM : nat) (p : mptr) (r : regs) (m : mem T) : res (mem T) :=
  cm_only p (
  for_ 0 N (fun j m =>
    let ri := j / SS in let skip := j mod SS in
    if (0 <? skip) && (ri <? RM) then
      m <- mp_storem SS T al (poff SS p (SS * ri) j) (r ri j) (idx_ge (Z.of_nat skip)) m ;;
      for_ (ri + 1) RM (fun ri m => mp_store SS T al (poff SS p (SS * ri) j) (r ri j) m) m
    else for_ ri RM (fun ri m => mp_store SS T al (poff SS p (SS * ri) j) (r ri j) m) m) m).
(** storeLower(p, m, n) (RegisterMatrix.hpp:544-560); skip and rem are signed *)
Definition reg_storeLower_mn (al : alloc) (N RM : nat) (p : mptr) (mm nn : nat) (r : regs) (m : mem T) : res (mem T) :=
  cm_only p (
  for_ 0 N (fun j m => if j <? nn then
    for_ (j / SS) RM (fun ri m =>
      let skip := (Z.of_nat j - Z.of_nat (ri * SS))%Z in
      let rem := (Z.of_nat mm - Z.of_nat (ri * SS))%Z in
      let mk := idx_lt rem in
      let mk := if (0 <? skip)%Z then mask_and mk (idx_ge skip) else mk in
      mp_storem SS T al (poff SS p (SS * ri) j) (r ri j) mk m) m
    else Ok m) m).

(** trsm(Side::Right, UpLo::Upper, A) (RegisterMatrix.hpp:566-602) *)
Definition reg_trsm (al : alloc) (N RM : nat) (A : mptr) (m : mem T) (r : regs) : res regs :=
  for_ 0 N (fun j r =>
    r <- for_ 0 j (fun k r =>
           a_kj <- rd al m (addr SS A k j) ;;
           for_ 0 RM (fun i r => Ok (rupd r i j (vfnmadd T O (vbroadcast T a_kj) (r i k) (r i j)))) r) r ;;
    a_jj <- rd al m (addr SS A j j) ;;
    for_ 0 RM (fun i r => Ok (rupd r i j (vdiv T O (r i j) (vbroadcast T a_jj)))) r) r.

(** Loads of the RM registers of a column: ax[i] = f(a(i * SS).load()) (RegisterMatrix.hpp:616-620) *)
Definition load_col (al : alloc) (RM : nat) (a : vptr) (f : vec -> vec) (m : mem T) : res (nat -> vec) :=
  for_ 0 RM (fun i ax => x <- vload SS T O al (voff SS a (i * SS)) m ;;
                         Ok (fun i' => if i' =? i then f x else ax i')) (fun _ _ => o0 O).
(** The update loop of ger (RegisterMatrix.hpp:622-631): for j: bx = b[j]; for i: v_[i][j] = fmadd(ax[i], bx, v_[i][j]).
    [cj] is the "if (j < n)" of the sized variants (:671, :697). *)
Definition ger_update (al : alloc) (N RM : nat) (cj : nat -> bool) (ax : nat -> vec) (b : vptr) (m : mem T) (r : regs) : res regs :=
  for_ 0 N (fun j r => if cj j then
    bx <- rd al m (vaddr SS b j) ;;
    for_ 0 RM (fun i r => Ok (rupd r i j (vfmadd T O (ax i) (vbroadcast T bx) (r i j)))) r
    else Ok r) r.
(** ger(alpha, a, b) (RegisterMatrix.hpp:605-632); the static_assert on the register count is ignored here,
    C16 proves it for the kernels the tiling uses. *)
Definition reg_ger_alpha (al : alloc) (N RM : nat) (alpha : T) (a b : vptr) (m : mem T) (r : regs) : res regs :=
  ax <- load_col al RM a (fun x => vmul T O (vbroadcast T alpha) x) m ;;
  ger_update al N RM always ax b m r.
(** ger(a, b) (RegisterMatrix.hpp:635-660) *)
Definition reg_ger (al : alloc) (N RM : nat) (a b : vptr) (m : mem T) (r : regs) : res regs :=
  ax <- load_col al RM a (fun x => x) m ;; ger_update al N RM always ax b m r.
(** ger(alpha, a, b, m, n) (RegisterMatrix.hpp:663-684) *)
Definition reg_ger_alpha_mn (al : alloc) (N RM : nat) (alpha : T) (a b : vptr) (mm nn : nat) (m : mem T) (r : regs) : res regs :=
  ax <- load_col al RM a (fun x => vmul T O (vbroadcast T alpha) x) m ;;
  ger_update al N RM (fun j => j <? nn) ax b m r.
(** ger(a, b, m, n) (RegisterMatrix.hpp:687-706) *)
Definition reg_ger_mn (al : alloc) (N RM : nat) (a b : vptr) (mm nn : nat) (m : mem T) (r : regs) : res regs :=
  ax <- load_col al RM a (fun x => x) m ;; ger_update al N RM (fun j => j <? nn) ax b m r.

(** potrf() (RegisterMatrix.hpp:710-739) *)
Definition reg_potrf (N RM : nat) (r : regs) : res regs :=
  for_ 0 N (fun k r =>
    r <- for_ 0 k (fun j r =>
           let a_kj := r (k / SS) j (k mod SS) in
           for_ 0 RM (fun i r => if k / SS <=? i
             then Ok (rupd r i k (vfnmadd T O (vbroadcast T a_kj) (r i j) (r i k))) else Ok r) r) r ;;
    let s := osqrt O (r (k / SS) k (k mod SS)) in
    for_ 0 RM (fun i r => if i <? k / SS then Ok (rupd r i k (fun _ => o0 O))
                          else Ok (rupd r i k (vdiv T O (r i k) (vbroadcast T s)))) r) r.

(** trmm(alpha, a, uplo, diagonal_unit, b) : += alpha * a * b, a triangular on the left
    (RegisterMatrix.hpp:745-789).  State of the loop: (registers, a, bu). *)
Definition reg_trmm_left (al : alloc) (N RM : nat) (alpha : T) (a : mptr) (ul : uplo) (unit : bool) (b : mptr)
    (m : mem T) (r : regs) : res regs :=
  cm_only a (noexcept (
    if unit then Throw LogicError else
    match ul with
    | Lower => Throw LogicError
    | Upper =>
      st <- for_ 0 (RM * SS) (fun k st =>
        let '(r, a, bu) := st in
        let ii := (k + 1) / SS in let rem := (k + 1) mod SS in
        ax <- for_ 0 ii (fun i ax => x <- mp_load SS T O al (poff SS a (i * SS) 0) m ;;
                                     Ok (fun i' => if i' =? i then vmul T O (vbroadcast T alpha) x else ax i')) (fun _ _ => o0 O) ;;
        ax <- (if 0 <? rem then x <- mp_loadm SS T O al (poff SS a (ii * SS) 0) (idx_lt (Z.of_nat rem)) m ;;
                                Ok (fun i' => if i' =? ii then vmul T O (vbroadcast T alpha) x else ax i')
               else Ok ax) ;;
        r <- for_ 0 N (fun j r =>
               bx <- rd al m (addr SS bu 0 j) ;;
               r <- for_ 0 ii (fun i r => Ok (rupd r i j (vfmadd T O (ax i) (vbroadcast T bx) (r i j)))) r ;;
               if 0 <? rem then Ok (rupd r ii j (vfmadd T O (ax ii) (vbroadcast T bx) (r ii j))) else Ok r) r ;;
        Ok (r, hmove SS a 1, vmove SS bu 1)) (r, a, punalign SS b) ;;
      Ok (fst (fst st))
    end)).

(** Common loop of the two right-hand trmm variants (RegisterMatrix.hpp:808-829 and 855-874):
    for k < N, if (ck k): bx[i] = alpha * b(i*SS,0).load(); for j <= k: v_[i][j] = fmadd(bx[i], au[0,j], v_[i][j]);
    b.hmove(1); au.vmove(1). *)
Definition trmm_right_loop (al : alloc) (N RM : nat) (ck : nat -> bool) (alpha : T) (b a : mptr)
    (m : mem T) (r : regs) : res regs :=
  st <- for_ 0 N (fun k st => if ck k then
    let '(r, b, au) := st in
    bx <- for_ 0 RM (fun i bx => x <- mp_load SS T O al (poff SS b (i * SS) 0) m ;;
                                 Ok (fun i' => if i' =? i then vmul T O (vbroadcast T alpha) x else bx i')) (fun _ _ => o0 O) ;;
    r <- for_ 0 (k + 1) (fun j r =>
           ax <- rd al m (addr SS au 0 j) ;;
           for_ 0 RM (fun i r => Ok (rupd r i j (vfmadd T O (bx i) (vbroadcast T ax) (r i j)))) r) r ;;
    Ok (r, hmove SS b 1, vmove SS au 1)
    else Ok st) (r, b, punalign SS a) ;;
  Ok (fst (fst st)).
(** trmm(alpha, b, a, uplo, diagonal_unit) : += alpha * b * a, a triangular on the right (RegisterMatrix.hpp:795-838) *)
Definition reg_trmm_right (al : alloc) (N RM : nat) (alpha : T) (b a : mptr) (ul : uplo) (unit : bool)
    (m : mem T) (r : regs) : res regs :=
  cm_only b (noexcept (
    if unit then Throw LogicError else
    match ul with
    | Lower => trmm_right_loop al N RM always alpha b a m r
    | Upper => Throw LogicError
    end)).
(** trmm(alpha, b, a, uplo, diagonal_unit, m, n) (RegisterMatrix.hpp:844-880): uplo and diagonal_unit are not used *)
Definition reg_trmm_right_mn (al : alloc) (N RM : nat) (alpha : T) (b a : mptr) (ul : uplo) (unit : bool)
    (mm nn : nat) (m : mem T) (r : regs) : res regs :=
  cm_only b (noexcept (trmm_right_loop al N RM (fun k => k <? nn) alpha b a m r)).

(** operator==(RegisterMatrix, Matrix) (RegisterMatrix.hpp:883-895), the matrix given by its size and elements *)
Definition reg_eq (N RM : nat) (r : regs) (mm nn : nat) (e : nat -> nat -> T) : bool :=
  if negb ((mm =? RM * SS) && (nn =? N)) then false
  else forallb (fun i => forallb (fun j => oeqb O (reg_at r i j) (e i j)) (seq 0 N)) (seq 0 (RM * SS)).

(* ------------------------------------------------------------------------------------------ *)
(** ** register_matrix/Gemm.hpp *)

(** gemm(r, K, alpha, a, b): for k < K: r.ger(alpha, column(a(0,k)), row((~b)(k,0))) (Gemm.hpp:25-36) *)
Definition reg_gemm (al : alloc) (N RM K : nat) (alpha : T) (a b : mptr) (m : mem T) (r : regs) : res regs :=
  cm_only a (
  for_ 0 K (fun k r => reg_ger_alpha al N RM alpha (VMat columnVector (poff SS a 0 k))
                         (VMat rowVector (poff SS (punalign SS b) k 0)) m r) r).
(** gemm(r, K, alpha, a, b, md, nd) (Gemm.hpp:39-52) *)
Definition reg_gemm_mn (al : alloc) (N RM K : nat) (alpha : T) (a b : mptr) (md nd : nat) (m : mem T) (r : regs) : res regs :=
  cm_only a (
  for_ 0 K (fun k r => reg_ger_alpha_mn al N RM alpha (VMat columnVector (poff SS a 0 k))
                         (VMat rowVector (poff SS (punalign SS b) k 0)) md nd m r) r).

(** The ger() call of the four alignment branches (Gemm.hpp:76-87): which operands are used through their
    unaligned pointer depends on the alignment and padding flags. *)
Definition gemm_ger_a (a : mptr) : mptr :=
  if mp_af a && mp_pf a && order_eqb (mp_so a) columnMajor then a else punalign SS a.
Definition gemm_ger_b (b : mptr) : mptr :=
  if mp_af b && mp_pf b && order_eqb (mp_so b) rowMajor then b else punalign SS b.
(** gemm(ker, K, alpha, a, b, beta, c, d): D = alpha*A*B + beta*C for a full register block (Gemm.hpp:71-92).
    [requires] StorageOrder(a) = StorageOrder(c) = columnMajor. *)
Definition kgemm (al : alloc) (N RM K : nat) (alpha : T) (a b : mptr) (beta : T) (c d : mptr) (r : regs) (m : mem T)
    : res (mem T) :=
  if negb (order_eqb (mp_so a) columnMajor && order_eqb (mp_so c) columnMajor && order_eqb (mp_so d) columnMajor) then IllFormed else
  noexcept (
  r <- reg_reset N RM r ;;
  r <- for_ 0 K (fun k r => reg_ger al N RM (VMat columnVector (poff SS (gemm_ger_a a) 0 k))
                              (VMat rowVector (poff SS (gemm_ger_b b) k 0)) m r) r ;;
  r <- reg_scale N RM alpha r ;;
  r <- reg_axpy al N RM beta c m r ;;
  reg_store al N RM d r m).
(** gemm(ker, K, alpha, a, b, beta, c, d, md, nd) (Gemm.hpp:113-124) *)
Definition kgemm_mn (al : alloc) (N RM K : nat) (alpha : T) (a b : mptr) (beta : T) (c d : mptr) (md nd : nat)
    (r : regs) (m : mem T) : res (mem T) :=
  if negb (order_eqb (mp_so a) columnMajor && order_eqb (mp_so c) columnMajor && order_eqb (mp_so d) columnMajor) then IllFormed else
  noexcept (
  r <- reg_reset N RM r ;;
  r <- for_ 0 K (fun k r => reg_ger_mn al N RM (VMat columnVector (poff SS a 0 k))
                              (VMat rowVector (poff SS (punalign SS b) k 0)) md nd m r) r ;;
  r <- reg_scale N RM alpha r ;;
  r <- reg_axpy_mn al N RM beta c md nd m r ;;
  reg_store_mn al N RM d md nd r m).
(** gemm(ker, K, a, b, c, d): D = A*B + C (Gemm.hpp:144-153) *)
Definition kgemm_c (al : alloc) (N RM K : nat) (a b c d : mptr) (r : regs) (m : mem T) : res (mem T) :=
  if negb (order_eqb (mp_so a) columnMajor && order_eqb (mp_so c) columnMajor && order_eqb (mp_so d) columnMajor) then IllFormed else
  noexcept (
  r <- reg_load al N RM c m r ;;
  r <- for_ 0 K (fun k r => reg_ger al N RM (VMat columnVector (poff SS a 0 k))
                              (VMat rowVector (poff SS (punalign SS b) k 0)) m r) r ;;
  reg_store al N RM d r m).
(** gemm(ker, K, a, b, c, d, md, nd) (Gemm.hpp:173-184): note the unsized load of c *)
Definition kgemm_c_mn (al : alloc) (N RM K : nat) (a b c d : mptr) (md nd : nat) (r : regs) (m : mem T) : res (mem T) :=
  if negb (order_eqb (mp_so a) columnMajor && order_eqb (mp_so c) columnMajor && order_eqb (mp_so d) columnMajor) then IllFormed else
  noexcept (
  r <- reg_load al N RM c m r ;;
  r <- for_ 0 K (fun k r => reg_ger_mn al N RM (VMat columnVector (poff SS a 0 k))
                              (VMat rowVector (poff SS (punalign SS b) k 0)) md nd m r) r ;;
  reg_store_mn al N RM d md nd r m).

End Reg.
