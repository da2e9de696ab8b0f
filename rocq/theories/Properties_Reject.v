(** Properties_Reject.v -- C67: operand kinds and modes that the kernels do not support are rejected: the call does not compile, throws
    or ends the program, and never produces a result. *)
From Coq Require Import Arith Lia List Bool PeanoNat ZArith.
From Verif Require Import Base Base_Proofs Spec Layout_Model Layout_Proofs Simd_Model Reg_Model Tile_Model Gemm_Model Ger_Model Trmm_Model
  Properties_Tile Arg_Proofs Instances.
Import ListNotations.

(** ** Register kernels *)
(** The register gemm kernels need column-major A and C; with either of them row-major there is no such function. *)
Theorem C67_register_gemm_order : forall SS T (O : Ops T) al N RM K alpha a b beta c d md nd r (m : mem T),
  mp_so a = rowMajor \/ mp_so c = rowMajor \/ mp_so d = rowMajor ->
  kgemm SS T O al N RM K alpha a b beta c d r m = IllFormed /\ kgemm_mn SS T O al N RM K alpha a b beta c d md nd r m = IllFormed /\
  kgemm_c SS T O al N RM K a b c d r m = IllFormed /\ kgemm_c_mn SS T O al N RM K a b c d md nd r m = IllFormed.
Proof.
  intros SS T O al N RM K alpha a b beta c d md nd r m H. unfold kgemm, kgemm_mn, kgemm_c, kgemm_c_mn.
  destruct H as [H|[H|H]]; rewrite H; destruct (mp_so a), (mp_so c), (mp_so d); cbn; auto.
Qed.
(** The members of RegisterMatrix that transfer a block from or to memory take column-major pointers only. *)
Theorem C67_register_transfer_order : forall SS T (O : Ops T) al N RM beta p mm nn (m : mem T) r, mp_so p = rowMajor ->
  reg_load SS T O al N RM p m r = IllFormed /\ reg_loadb SS T O al N RM beta p m r = IllFormed /\ reg_loadb_mn SS T O al N RM beta p mm nn m r = IllFormed /\
  reg_store SS T al N RM p r m = IllFormed /\ reg_store_mn SS T al N RM p mm nn r m = IllFormed /\
  reg_storeLower SS T al N RM p r m = IllFormed /\ reg_storeLower_mn SS T al N RM p mm nn r m = IllFormed /\
  reg_axpy SS T O al N RM beta p m r = IllFormed /\ reg_axpy_mn SS T O al N RM beta p mm nn m r = IllFormed.
Proof.
  intros SS T O al N RM beta p mm nn m r H.
  unfold reg_load, reg_loadb, reg_loadb_mn, reg_store, reg_store_mn, reg_storeLower, reg_storeLower_mn, reg_axpy, reg_axpy_mn, cm_only.
  rewrite H. cbn [order_eqb]. repeat split.
Qed.
(** RegisterMatrix::trmm is noexcept: for a unit diagonal, or for the other triangle, the program is ended.  The matrix that is read by
    columns must be column-major, as in gemm(r, K, alpha, a, b). *)
Theorem C67_register_trmm_mode : forall SS T (O : Ops T) al N RM alpha a b ul unit mm nn K (m : mem T) r,
  (mp_so a = columnMajor -> unit = true \/ ul = Lower -> reg_trmm_left SS T O al N RM alpha a ul unit b m r = Terminate) /\
  (mp_so b = columnMajor -> unit = true \/ ul = Upper -> reg_trmm_right SS T O al N RM alpha b a ul unit m r = Terminate) /\
  (mp_so a = rowMajor -> reg_trmm_left SS T O al N RM alpha a ul unit b m r = IllFormed /\
     reg_gemm SS T O al N RM K alpha a b m r = IllFormed /\ reg_gemm_mn SS T O al N RM K alpha a b mm nn m r = IllFormed) /\
  (mp_so b = rowMajor -> reg_trmm_right SS T O al N RM alpha b a ul unit m r = IllFormed /\
     reg_trmm_right_mn SS T O al N RM alpha b a ul unit mm nn m r = IllFormed).
Proof.
  intros SS T O al N RM alpha a b ul unit mm nn K m r. unfold reg_trmm_left, reg_trmm_right, reg_trmm_right_mn, reg_gemm, reg_gemm_mn, cm_only.
  split; [|split; [|split]].
  - intros C [H|H]; rewrite C, H; [|destruct unit]; reflexivity.
  - intros C [H|H]; rewrite C, H; [|destruct unit]; reflexivity.
  - intros C. rewrite C. repeat split.
  - intros C. rewrite C. repeat split.
Qed.
(** Aligned access to a misaligned address does not return a value: a pointer whose type promises alignment must be aligned. *)
Theorem C67_misaligned : forall SS T (O : Ops T) al p (v : vec T) (m : mem T), mp_af p = true -> mp_base p mod SS <> 0 ->
  mp_load SS T O al p m = UB /\ mp_store SS T al p v m = UB /\
  mp_loadt SS T al p (majorOrientation (mp_so p)) m = UB.
Proof.
  intros SS T O al p v m A B. unfold mp_load, mp_store, mp_loadt, simd_load, simd_store. rewrite A.
  assert (E : (mp_base p mod SS =? 0) = false) by (apply Nat.eqb_neq; exact B). rewrite E. cbn [andb negb].
  destruct (mp_kind p), (mp_so p); auto.
Qed.

(** ** Matrix functions *)
Lemma g_ptr_so : forall SS a, mp_so (g_ptr SS a) = g_so a.
Proof. intros SS a. unfold g_ptr, g_so. destruct (g_trans a); reflexivity. Qed.
Lemma foldM_ill : forall A S (f : A -> S -> res S) l s, l <> [] -> (forall a s, f a s = IllFormed) -> foldM f l s = IllFormed.
Proof. intros A S f l s H F. destruct l as [|a l]; [contradiction|]. cbn [foldM]. rewrite F. reflexivity. Qed.
Lemma tile_nonempty : forall SS tr M N, 0 < SS -> 0 < M -> 0 < N -> tile SS TILE_STEP tr M N <> [].
Proof.
  intros SS tr M N HSS HM HN E. pose proof (C15_exact_cover SS tr M N 0 0 HSS) as C. unfold tile_calls in C. rewrite E in C. cbn [filter length] in C.
  apply Nat.ltb_lt in HM, HN. rewrite HM, HN in C. discriminate.
Qed.
(** gemm: D, A and C must be column-major (for A and C the check is inside the loop over the tiles, so the model sees it for results that
    are not empty). *)
Theorem C67_gemm_order : forall SS T (O : Ops T) al alpha A B beta C D (m : mem T), 0 < SS ->
  g_rows B = g_cols A -> g_rows C = g_rows A -> g_cols C = g_cols B -> g_rows D = g_rows A -> g_cols D = g_cols B ->
  (g_so D = rowMajor -> gemm SS T O al alpha A B beta C D m = IllFormed) /\
  (g_so A = rowMajor \/ g_so C = rowMajor -> 0 < g_rows A -> 0 < g_cols B -> gemm SS T O al alpha A B beta C D m = IllFormed).
Proof.
  intros SS T O al alpha A B beta C D m HSS E1 E2 E3 E4 E5. unfold gemm. rewrite E1, E2, E3, E4, E5, !Nat.eqb_refl. cbn [negb andb].
  unfold gemm_ptr. rewrite g_ptr_so. split.
  - intros ->. reflexivity.
  - intros H HM HN. destruct (g_so D); [reflexivity|]. cbn [order_eqb negb]. apply foldM_ill; [apply tile_nonempty; auto|].
    intros c s. unfold gemm_call.
    assert (H' : mp_so (poff SS (g_ptr SS A) (k_i c) 0) = rowMajor \/ mp_so (poff SS (g_ptr SS C) (k_i c) (k_j c)) = rowMajor).
    { destruct H as [H|H]; [left|right]; rewrite <- H, <- (g_ptr_so SS); reflexivity. }
    destruct (k_full c).
    + apply C67_register_gemm_order; tauto.
    + apply C67_register_gemm_order; tauto.
Qed.
(** ger: A and B must both be column-major or, through the other overload, both row-major *)
Theorem C67_ger_order : forall SS cc T (O : Ops T) al alpha x y A B (m : mem T),
  g_rows A = x_size x -> g_cols A = x_size y -> g_rows B = x_size x -> g_cols B = x_size y ->
  (g_so A = rowMajor \/ g_so B = rowMajor -> ger_cm SS cc T O al alpha x y A B m = IllFormed).
Proof.
  intros SS cc T O al alpha x y A B m E1 E2 E3 E4 H. unfold ger_cm. rewrite E1, E2, E3, E4, !Nat.eqb_refl. cbn [negb].
  unfold ger_ptr. rewrite !g_ptr_so. destruct H as [H|H]; rewrite H; destruct (g_so A); reflexivity.
Qed.
(** trmm: the general factor may have any order where it is the right one; otherwise all column-major *)
Theorem C67_trmm_order : forall SS cc T (O : Ops T) al alpha A ul unit B C (m : mem T), g_rows C = g_rows B -> g_cols C = g_cols B ->
  (g_rows A = g_rows B -> g_cols A = g_rows B -> g_so A = rowMajor \/ g_so C = rowMajor -> trmmL SS cc T O al alpha A ul unit B C m = IllFormed) /\
  (g_rows A = g_cols B -> g_cols A = g_cols B -> g_so B = rowMajor \/ g_so C = rowMajor -> trmmR SS cc T O al alpha B A ul unit C m = IllFormed).
Proof.
  intros SS cc T O al alpha A ul unit B C m E1 E2. split; intros E3 E4 H.
  - unfold trmmL. rewrite E1, E2, E3, E4, !Nat.eqb_refl. cbn [negb andb]. unfold trmmL_ptr. rewrite !g_ptr_so.
    destruct H as [H|H]; rewrite H; destruct (g_so A); reflexivity.
  - unfold trmmR. rewrite E1, E2, E3, E4, !Nat.eqb_refl. cbn [negb andb]. unfold trmmR_ptr. rewrite !g_ptr_so.
    destruct H as [H|H]; rewrite H; destruct (g_so B); reflexivity.
Qed.

(* ------------------------------------------------------------------ examples *)
Definition rjR := MArg (whole (Cont Dense false rowMajor 5 5 0)) false.
Definition rjC := MArg (whole (Cont Dense false columnMajor 5 5 100)) false.
Definition rjP := MArg (whole (Cont Panel true columnMajor 5 5 200)) true.
Example C67_example_hyps : g_so rjR = rowMajor /\ g_so rjP = rowMajor /\ g_so rjC = columnMajor /\
  (g_rows rjR = 5 /\ g_cols rjR = 5) /\ (g_rows rjC = 5 /\ g_cols rjC = 5) /\ (g_rows rjP = 5 /\ g_cols rjP = 5).
Proof. repeat split. Qed.
(** A row-major A, or the transpose of a column-major C, does not compile; row-major B does. *)
Example C67_example_gemm :
  gemm 4 Z zops (fun _ => true) 1%Z rjR rjC 1%Z rjC rjC (fun _ => 0%Z) = IllFormed /\
  gemm 4 Z zops (fun _ => true) 1%Z rjC rjC 1%Z rjP rjC (fun _ => 0%Z) = IllFormed /\
  match gemm 4 Z zops (fun _ => true) 1%Z rjC rjR 1%Z rjC rjC (fun _ => 1%Z) with Ok m' => m' 100 = 6%Z | _ => False end.
Proof.
  split; [apply C67_gemm_order; cbn; auto; lia|]. split; [apply C67_gemm_order; cbn; auto; lia|].
  vm_compute. reflexivity.
Qed.
Example C67_example_trmm :
  trmmL 4 1 Z zops (fun _ => true) 1%Z rjR Upper false rjC rjC (fun _ => 0%Z) = IllFormed /\
  trmmR 4 1 Z zops (fun _ => true) 1%Z rjC rjC Lower false rjP (fun _ => 0%Z) = IllFormed.
Proof. split; apply C67_trmm_order; cbn; auto. Qed.
Example C67_example_misaligned : mp_load 4 Z zops (fun _ => true) (MPtr Panel columnMajor true true 6 8) (fun _ => 0%Z) = UB.
Proof. apply (C67_misaligned 4 Z zops (fun _ => true) (MPtr Panel columnMajor true true 6 8) (fun _ => 0%Z)); cbn; auto. Qed.
