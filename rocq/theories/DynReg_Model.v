(** DynReg_Model.v -- DynamicRegisterMatrix<T, M, N, columnMajor> (register_matrix/DynamicRegisterMatrix.hpp), a register
    matrix of RM = M / SS registers by N columns whose run-time size is (m_, n_).  Paths are relative to
    /repo/include/blast/math.
    The bound checks are BLAST_USER_ASSERTs, off by default.
    Members that cannot be instantiated: axpy(beta, a) (:138-148) and load(beta, p) (:305-315) call p.load(SS * i, j), a
    two-index load no pointer class has (the only two-argument overload takes a TransposeFlag and a mask, to which
    size_t does not convert), so gemm(ker, K, ...) (:577-599) does not compile either; potrf, trsmRightUpper,
    trmmLeftUpper and trmmRightLower are declared but their definitions are commented out. *)
From Coq Require Import Arith List Bool PeanoNat ZArith.
From Verif Require Import Base Layout_Model Simd_Model Reg_Model.
Import ListNotations.

Section DynReg.
Variable SS : nat.
Variable T : Type.
Variable O : Ops T.
Notation vec := (vec T).
Notation regs := (regs T).

(** The object: v_[RM][N], m_, n_ (:270-272). *)
Record dreg := DReg { dr_m : nat; dr_n : nat; dr_v : regs }.
(** The loops store through v_; m_ and n_ are const members. *)
Definition dr_with (d : dreg) (f : regs -> res regs) : res dreg :=
  r <- f (dr_v d) ;; Ok (DReg (dr_m d) (dr_n d) r).

(** reset() (:119-124); loop order as in Reg_Model.reg_reset *)
Definition dr_reset (N RM : nat) (d : dreg) : res dreg := dr_with d (reg_reset T O N RM).
(** DynamicRegisterMatrix(m, n) (:50-58); [u] is the uninitialised content of the registers *)
Definition dr_construct (N RM mm nn : nat) (u : regs) : res dreg := dr_reset N RM (DReg mm nn u).
(** operator()(i, j) / at(i, j) (:112-115, 276-288) *)
Definition dr_at (d : dreg) (i j : nat) : T := dr_v d (i / SS) j (i mod SS).
(** operator*=(alpha) (:128-135) *)
Definition dr_scale (N RM : nat) (alpha : T) (d : dreg) : res dreg := dr_with d (reg_scale T O N RM alpha).

(** load, store, storeLower and the first matrix of ger are column-major (:153, 165, 171, 183, 194; [cm_only]).
    load(p) (:292-302): all RM registers of the columns j < n_, whatever m_ is *)
Definition dr_load (al : alloc) (N RM : nat) (p : mptr) (m : mem T) (d : dreg) : res dreg :=
  cm_only p (dr_with d (fun r => for_ 0 N (fun j r => if j <? dr_n d then
    for_ 0 RM (fun i r => x <- mp_load SS T O al (poff SS p (SS * i) j) m ;; Ok (rupd T r i j x)) r
    else Ok r) r)).

(** store(p) (:318-337) *)
Definition dr_store (al : alloc) (N RM : nat) (p : mptr) (d : dreg) (m : mem T) : res (mem T) :=
  cm_only p (
  m <- for_ 0 N (fun j m => if j <? dr_n d then
         for_ 0 RM (fun i m => if SS * (i + 1) <=? dr_m d then mp_store SS T al (poff SS p (SS * i) j) (dr_v d i j) m else Ok m) m
         else Ok m) m ;;
  let rem := dr_m d mod SS in
  if 0 <? rem then
    let i := dr_m d / SS in
    for_ 0 (dr_n d) (fun j m => mp_storem SS T al (poff SS p (SS * i) j) (dr_v d i j) (idx_lt (Z.of_nat rem)) m) m
  else Ok m).

(** storeLower(p) (:340-359); skip and rem are signed *)
Definition dr_storeLower (al : alloc) (N RM : nat) (p : mptr) (d : dreg) (m : mem T) : res (mem T) :=
  cm_only p (for_ 0 N (fun j m => if j <? dr_n d then
    for_ (j / SS) RM (fun ri m =>
      let skip := (Z.of_nat j - Z.of_nat (ri * SS))%Z in
      let rem := (Z.of_nat (dr_m d) - Z.of_nat (ri * SS))%Z in
      let mk := idx_lt rem in
      let mk := if (0 <? skip)%Z then mask_and mk (idx_ge skip) else mk in
      mp_storem SS T al (poff SS p (SS * ri) j) (dr_v d ri j) mk m) m
    else Ok m) m).

(** ger: ax[i] = f(a(i * SS, 0).load()) for all i < RM; for j < n_: bx = b[0, j]; v_[i][j] = fmadd(ax[i], bx, v_[i][j]) *)
Definition dr_ger_gen (al : alloc) (N RM : nat) (f : vec -> vec) (a b : mptr) (m : mem T) (d : dreg) : res dreg :=
  cm_only a (dr_with d (fun r =>
    ax <- for_ 0 RM (fun i ax => x <- mp_load SS T O al (poff SS a (i * SS) 0) m ;;
                                 Ok (fun i' => if i' =? i then f x else ax i')) (fun _ _ => o0 O) ;;
    for_ 0 N (fun j r => if j <? dr_n d then
      bx <- rd al m (addr SS b 0 j) ;;
      for_ 0 RM (fun i r => Ok (rupd T r i j (vfmadd T O (ax i) (vbroadcast T bx) (r i j)))) r
      else Ok r) r)).
(** ger(alpha, a, b) (:396-416) *)
Definition dr_ger_alpha (al : alloc) (N RM : nat) (alpha : T) (a b : mptr) (m : mem T) (d : dreg) : res dreg :=
  dr_ger_gen al N RM (fun x => vmul T O (vbroadcast T alpha) x) a b m d.
(** ger(a, b) (:419-439) *)
Definition dr_ger (al : alloc) (N RM : nat) (a b : mptr) (m : mem T) (d : dreg) : res dreg :=
  dr_ger_gen al N RM (fun x => x) a b m d.

(** operator==(DynamicRegisterMatrix, Matrix) (:555-567), the matrix given by its size and elements *)
Definition dr_eq (d : dreg) (mm nn : nat) (e : nat -> nat -> T) : bool :=
  if negb ((mm =? dr_m d) && (nn =? dr_n d)) then false
  else forallb (fun i => forallb (fun j => oeqb O (dr_at d i j) (e i j)) (seq 0 (dr_n d))) (seq 0 (dr_m d)).
End DynReg.
