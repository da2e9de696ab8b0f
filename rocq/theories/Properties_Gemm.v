(** Properties_Gemm.v -- C17-C22: gemm. *)
From Coq Require Import Arith Lia List Bool PeanoNat ZArith.
From Verif Require Import Base Base_Proofs Spec Algebra_Proofs Instances Layout_Model Layout_Proofs Simd_Model Simd_Proofs
  Reg_Model Reg_Proofs Tile_Model Gemm_Model Gemm_Proofs Arg_Proofs.
Import ListNotations.

(** Operands for which gemm is specified. *)
Record gemm_pre (SS : nat) (al : alloc) (A B C D : marg) : Prop := {
  gp_A : arg_ok SS A; gp_B : arg_ok SS B; gp_C : arg_ok SS C; gp_D : arg_ok SS D;
  (* storage orders the kernels are written for (B: any) *)
  gp_soA : g_so A = columnMajor; gp_soC : g_so C = columnMajor; gp_soD : g_so D = columnMajor;
  (* a panel A starts at a panel boundary, a panel D is an aligned matrix *)
  gp_panA : is_panel A -> at_panel SS A; gp_panD : is_panel D -> v_af (g_view D) = true;
  (* matching sizes *)
  gp_szB : g_rows B = g_cols A;
  gp_szC : g_rows C = g_rows A /\ g_cols C = g_cols B; gp_szD : g_rows D = g_rows A /\ g_cols D = g_cols B;
  (* allocated memory; A and C also in the rows up to the next multiple of the SIMD size *)
  gp_alA : allocated al (nextMultiple (g_rows A) SS) (g_cols A) (g_addr SS A);
  gp_alB : allocated al (g_rows B) (g_cols B) (g_addr SS B);
  gp_alC : allocated al (nextMultiple (g_rows A) SS) (g_cols B) (g_addr SS C);
  gp_alD : allocated al (g_rows A) (g_cols B) (g_addr SS D);
  (* D overlaps neither A nor B; D and C do not overlap or are the same matrix, element by element *)
  gp_sepA : separate (g_rows A) (g_cols B) (g_addr SS D) (g_rows A) (g_cols A) (g_addr SS A);
  gp_sepB : separate (g_rows A) (g_cols B) (g_addr SS D) (g_rows B) (g_cols B) (g_addr SS B);
  gp_sepC : forall i j i' j', block (g_rows A) (g_cols B) i j -> block (g_rows A) (g_cols B) i' j' ->
              g_addr SS D i j = g_addr SS C i' j' -> i = i' /\ j = j'
}.

(* ------------------------------------------------------------------ C17, C20 *)
(** D(i,j) = fma(beta, C(i,j), s * alpha), s accumulated by fma from 0 over k; nothing else changes.
    ([updated] also says that every address that is not an element of D keeps its value: C20.) *)
Theorem C17_gemm_ops : forall SS T (O : Ops T) al alpha A B beta C D m, 0 < SS -> gemm_pre SS al A B C D ->
  exists m', gemm SS T O al alpha A B beta C D m = Ok m' /\
    updated (block (g_rows A) (g_cols B)) (g_addr SS D)
      (fun i j => ofma O beta (m (g_addr SS C i j))
         (omul O (fma_chain O (g_cols A) (fun k => m (g_addr SS A i k)) (fun k => m (g_addr SS B k j)) (o0 O)) alpha)) m m'.
Proof.
  intros SS T O al alpha A B beta C D m HSS [hA hB hC hD sA sC sD pA pD zB [zC1 zC2] [zD1 zD2] aA aB aC aD xA xB xC].
  unfold gemm. rewrite zB, zC1, zC2, zD1, zD2, !Nat.eqb_refl. cbn [negb andb].
  destruct (gemm_ptr_ok SS HSS T O al (g_rows A) (g_cols B) (g_cols A) alpha (g_ptr SS A) (g_ptr SS B) beta (g_ptr SS C) (g_ptr SS D) m)
    as (m' & E & U1 & U2);
    auto using g_ptr_wf, g_ptr_lane, g_ptr_store; try (rewrite g_ptr_so; assumption).
  - intros i j Hi Hj. rewrite g_ptr_addr by auto. apply aA; auto.
  - intros i j Hi Hj. rewrite g_ptr_addr by auto. apply aB; auto. lia.
  - intros i j Hi Hj. rewrite g_ptr_addr by auto. apply aC; auto.
  - intros i j Hi Hj. rewrite g_ptr_addr by auto. apply aD; auto.
  - intros i j i' j' Hi Hj Hi' Hj' X. rewrite !g_ptr_addr in X by auto. apply (g_distinct SS HSS D hD); lia.
  - intros i j i' j' Hi Hj Hi' Hj'. rewrite !g_ptr_addr by auto. apply xA; auto.
  - intros i j i' j' Hi Hj Hi' Hj'. rewrite !g_ptr_addr by auto. apply xB; auto. lia.
  - intros i j i' j' Hi Hi' X. rewrite !g_ptr_addr in X by auto. apply xC; auto.
  - exists m'. split; auto. split.
    + intros i j Hij. rewrite <- g_ptr_addr by auto. rewrite U1 by auto. unfold gemm_elem.
      rewrite g_ptr_addr by auto. f_equal. f_equal. apply fma_chain_ext; intros k Hk; rewrite g_ptr_addr; auto.
    + intros a Ha. apply U2. intros i j Hij. rewrite g_ptr_addr by auto. auto.
Qed.

(** C20, spelled out: an address that does not belong to an element of D is not modified; in particular A, B, a C that
    is not D, the padding of D and the surroundings of a submatrix D. *)
Theorem C20_gemm_frame : forall SS T (O : Ops T) al alpha A B beta C D m m', 0 < SS -> gemm_pre SS al A B C D ->
  gemm SS T O al alpha A B beta C D m = Ok m' ->
  forall a, (forall i j, i < g_rows D -> j < g_cols D -> a <> g_addr SS D i j) -> m' a = m a.
Proof.
  intros SS T O al alpha A B beta C D m m' HSS P E a Ha.
  destruct (C17_gemm_ops SS T O al alpha A B beta C D m HSS P) as (m1 & E1 & _ & U). rewrite E in E1. injection E1 as <-.
  destruct P as [_ _ _ _ _ _ _ _ _ _ _ [Z1 Z2] _ _ _ _ _ _ _].
  apply U. intros i j [Hi Hj]. apply Ha; lia.
Qed.

(* ------------------------------------------------------------------ C18 *)
Theorem C18_gemm_ring : forall SS T (O : Ops T) al alpha A B beta C D m, 0 < SS -> ring_laws O -> gemm_pre SS al A B C D ->
  exists m', gemm SS T O al alpha A B beta C D m = Ok m' /\
    updated (block (g_rows A) (g_cols B)) (g_addr SS D)
      (fun i j => oadd O (omul O alpha (sum O (g_cols A) (fun k => omul O (m (g_addr SS A i k)) (m (g_addr SS B k j)))))
                         (omul O beta (m (g_addr SS C i j)))) m m'.
Proof.
  intros SS T O al alpha A B beta C D m HSS RL P.
  destruct (C17_gemm_ops SS T O al alpha A B beta C D m HSS P) as (m' & E & U1 & U2).
  exists m'. split; auto. split; auto. intros i j Hij. rewrite U1 by auto. rewrite (rl_fma O RL), (fma_chain_sum O RL).
  rewrite (rl_add_0 O RL), (rl_mul_comm O RL _ alpha), (rl_add_comm O RL). reflexivity.
Qed.

(** The 4-argument form. *)
Theorem C18_gemm4_ring : forall SS T (O : Ops T) al A B C D m, 0 < SS -> ring_laws O -> gemm_pre SS al A B C D ->
  exists m', gemm4 SS T O al A B C D m = Ok m' /\
    updated (block (g_rows A) (g_cols B)) (g_addr SS D)
      (fun i j => oadd O (sum O (g_cols A) (fun k => omul O (m (g_addr SS A i k)) (m (g_addr SS B k j)))) (m (g_addr SS C i j))) m m'.
Proof.
  intros SS T O al A B C D m HSS RL P.
  destruct (C18_gemm_ring SS T O al (o1 O) A B (o1 O) C D m HSS RL P) as (m' & E & U1 & U2).
  exists m'. split; auto. split; auto. intros i j Hij. rewrite U1 by auto. rewrite !(rl_mul_1 O RL). reflexivity.
Qed.

(* ------------------------------------------------------------------ C19 *)
(** Two calls, possibly with different SIMD sizes, allocations, containers, orders, windows, on element-wise equal
    inputs give equal results (for the given scalar operations, whatever they are: bit-identical). *)
Theorem C19_layout_independent : forall T (O : Ops T) alpha beta SS al A B C D m SS' al' A' B' C' D' m',
  0 < SS -> 0 < SS' -> gemm_pre SS al A B C D -> gemm_pre SS' al' A' B' C' D' ->
  g_rows A = g_rows A' -> g_cols A = g_cols A' -> g_cols B = g_cols B' ->
  (forall i k, i < g_rows A -> k < g_cols A -> m (g_addr SS A i k) = m' (g_addr SS' A' i k)) ->
  (forall k j, k < g_cols A -> j < g_cols B -> m (g_addr SS B k j) = m' (g_addr SS' B' k j)) ->
  (forall i j, i < g_rows A -> j < g_cols B -> m (g_addr SS C i j) = m' (g_addr SS' C' i j)) ->
  exists r r', gemm SS T O al alpha A B beta C D m = Ok r /\ gemm SS' T O al' alpha A' B' beta C' D' m' = Ok r' /\
    forall i j, i < g_rows A -> j < g_cols B -> r (g_addr SS D i j) = r' (g_addr SS' D' i j).
Proof.
  intros T O alpha beta SS al A B C D m SS' al' A' B' C' D' m' H H' P P' E1 E2 E3 HA HB HC.
  destruct (C17_gemm_ops SS T O al alpha A B beta C D m H P) as (r & E & U & _).
  destruct (C17_gemm_ops SS' T O al' alpha A' B' beta C' D' m' H' P') as (r' & E' & U' & _).
  exists r, r'. split; auto. split; auto. intros i j Hi Hj.
  rewrite U, U' by (split; lia). rewrite HC by auto. f_equal. f_equal. rewrite E2 in *.
  apply fma_chain_ext; intros k Hk; [apply HA|apply HB]; auto.
Qed.

(* ------------------------------------------------------------------ C21 *)
(** Operands that are library containers or windows of library containers starting at a multiple of the SIMD size in
    the contiguous direction: all accesses are inside the containers' buffers. *)
Theorem C21_gemm_safe_in_containers : forall SS T (O : Ops T) al alpha A B beta C D m, 0 < SS ->
  arg_ok SS A -> arg_ok SS B -> arg_ok SS C -> arg_ok SS D ->
  g_so A = columnMajor -> g_so C = columnMajor -> g_so D = columnMajor ->
  at_panel SS A -> at_panel SS C -> (is_panel D -> v_af (g_view D) = true) ->
  g_rows B = g_cols A -> g_rows C = g_rows A -> g_cols C = g_cols B -> g_rows D = g_rows A -> g_cols D = g_cols B ->
  (forall x, al x = true <-> c_alloc SS (v_cont (g_view A)) x = true \/ c_alloc SS (v_cont (g_view B)) x = true \/
                             c_alloc SS (v_cont (g_view C)) x = true \/ c_alloc SS (v_cont (g_view D)) x = true) ->
  separate (g_rows A) (g_cols B) (g_addr SS D) (g_rows A) (g_cols A) (g_addr SS A) ->
  separate (g_rows A) (g_cols B) (g_addr SS D) (g_rows B) (g_cols B) (g_addr SS B) ->
  (forall i j i' j', block (g_rows A) (g_cols B) i j -> block (g_rows A) (g_cols B) i' j' ->
              g_addr SS D i j = g_addr SS C i' j' -> i = i' /\ j = j') ->
  gemm_pre SS al A B C D /\ exists m', gemm SS T O al alpha A B beta C D m = Ok m'.
Proof.
  intros SS T O al alpha A B beta C D m HSS hA hB hC hD sA sC sD pA pC pD zB zC1 zC2 zD1 zD2 Hal xA xB xC.
  assert (P : gemm_pre SS al A B C D).
  { constructor; auto.
    - apply g_allocated_pad; auto. intros x Hx. apply Hal. auto.
    - apply g_allocated; auto. intros x Hx. apply Hal. auto.
    - rewrite <- zC1, <- zC2. apply g_allocated_pad; auto. intros x Hx. apply Hal. auto.
    - rewrite <- zD1, <- zD2. apply g_allocated; auto. intros x Hx. apply Hal. auto. }
  split; auto. destruct (C17_gemm_ops SS T O al alpha A B beta C D m HSS P) as (m' & E & _). eauto.
Qed.

(** Without that: C a 5-by-1 window at row 3 of an 8-by-1 matrix; the kernel reads 8 rows from row 3 on. *)
Definition out_of_window (r : res (mem Z)) : bool := match r with UB => true | _ => false end.
Definition cA : container := Cont Dense false columnMajor 5 1 0.
Definition cB : container := Cont Dense false columnMajor 1 1 8.
Definition cC : container := Cont Dense false columnMajor 8 1 24.
Definition cD : container := Cont Dense false columnMajor 5 1 16.
Definition al4 (x : nat) : bool := c_alloc 4 cA x || c_alloc 4 cB x || c_alloc 4 cC x || c_alloc 4 cD x.
Theorem C21_unaligned_window_refuted :
  let A := MArg (whole cA) false in let B := MArg (whole cB) false in
  let C := MArg (submatrix false cC 3 0 5 1) false in let D := MArg (whole cD) false in
  arg_ok 4 A /\ arg_ok 4 B /\ arg_ok 4 C /\ arg_ok 4 D /\
  g_rows C = g_rows A /\ g_cols C = g_cols B /\ g_rows D = g_rows A /\ g_cols D = g_cols B /\ g_rows B = g_cols A /\
  gemm 4 Z zops al4 1%Z A B 1%Z C D (fun _ => 0%Z) = UB.
Proof. cbv zeta. split; [|split; [|split; [|split; [|vm_compute; auto 10]]]]; cbv [arg_ok g_view v_cont whole submatrix v_af v_i v_j v_m v_n c_base c_rows c_cols c_so cA cB cC cD major_of]; repeat split; auto; try lia; discriminate. Qed.

(* ------------------------------------------------------------------ C22 *)
(** Mismatched sizes: invalid_argument.  It holds for every allocation [al], even with no memory allocated at all
    (where any read or write would be UB), so the exception comes before any memory access. *)
Theorem C22_gemm_throws : forall SS T (O : Ops T) al alpha A B beta C D m,
  g_rows B <> g_cols A \/ g_rows C <> g_rows A \/ g_cols C <> g_cols B \/ g_rows D <> g_rows A \/ g_cols D <> g_cols B ->
  gemm SS T O al alpha A B beta C D m = Throw InvalidArgument.
Proof.
  intros SS T O al alpha A B beta C D m H. unfold gemm.
  destruct (Nat.eqb_spec (g_rows B) (g_cols A)); cbn [negb]; auto.
  destruct (Nat.eqb_spec (g_rows C) (g_rows A)), (Nat.eqb_spec (g_cols C) (g_cols B)); cbn [negb andb]; auto.
  destruct (Nat.eqb_spec (g_rows D) (g_rows A)), (Nat.eqb_spec (g_cols D) (g_cols B)); cbn [negb andb]; auto. tauto.
Qed.

Theorem C22_gemm_no_throw : forall SS T (O : Ops T) al alpha A B beta C D m, 0 < SS -> gemm_pre SS al A B C D ->
  exists m', gemm SS T O al alpha A B beta C D m = Ok m'.
Proof. intros. destruct (C17_gemm_ops SS T O al alpha A B beta C D m H H0) as (m' & E & _). eauto. Qed.

(* ------------------------------------------------------------------ examples *)
(** A 6x5 dense, B the transpose of a 3x5 dense column-major matrix, C = D a 6x3 panel matrix. *)
Definition eA : container := Cont Dense false columnMajor 6 5 0.
Definition eB : container := Cont Dense false columnMajor 3 5 40.
Definition eD : container := Cont Panel false columnMajor 6 3 60.
Definition e_al (x : nat) : bool := c_alloc 4 eA x || c_alloc 4 eB x || c_alloc 4 eD x.
Definition aA := MArg (whole eA) false.
Definition aB := MArg (whole eB) true.
Definition aD := MArg (whole eD) false.
Lemma in_range : forall c i j, i < c_rows c -> j < c_cols c -> c_base c <= c_addr 4 c i j < c_base c + c_capacity 4 c.
Proof. intros c i j Hi Hj. pose proof (c_index_bound 4 ltac:(lia) c i j Hi Hj). unfold c_addr. lia. Qed.
Example C17_example : gemm_pre 4 e_al aA aB aD aD.
Proof.
  apply (C21_gemm_safe_in_containers 4 Z zops e_al 1%Z aA aB 1%Z aD aD (fun _ => 0%Z)); try lia; try reflexivity;
    try (cbv; repeat split; auto; lia).
  - intros x. unfold e_al. rewrite !orb_true_iff. cbn [aA aB aD g_view whole v_cont]. tauto.
  - cbn [aA aB aD g_rows g_cols g_trans g_view whole v_m v_n eA eB c_rows c_cols].
    intros i j i' j' Hi Hj Hi' Hj' E. unfold g_addr, v_addr in E. cbn [aA aD g_trans g_view whole v_cont v_i v_j Nat.add] in E.
    pose proof (in_range eD i j Hi Hj). pose proof (in_range eA i' j' Hi' Hj'). change (c_base eD) with 60 in *. change (c_base eA) with 0 in *.
    change (c_capacity 4 eA) with 40 in *. lia.
  - cbn [aA aB aD g_rows g_cols g_trans g_view whole v_m v_n eA eB c_rows c_cols].
    intros i j i' j' Hi Hj Hi' Hj' E. unfold g_addr, v_addr in E. cbn [aB aD g_trans g_view whole v_cont v_i v_j Nat.add] in E.
    pose proof (in_range eD i j Hi Hj). pose proof (in_range eB j' i' Hj' Hi'). change (c_base eD) with 60 in *. change (c_base eB) with 40 in *.
    change (c_capacity 4 eB) with 20 in *. lia.
  - intros i j i' j' [Hi Hj] [Hi' Hj'] E. unfold g_addr, v_addr in E. cbn [aB aD g_trans g_view whole v_cont v_i v_j Nat.add] in E.
    cbn [aA aB aD g_rows g_cols g_trans g_view whole v_m v_n eA eB c_rows c_cols] in *. unfold c_addr in E.
    apply Nat.add_cancel_l in E. apply (c_index_inj 4 ltac:(lia)) in E; auto.
Qed.
Example C17_example_run : exists m', gemm 4 Z zops e_al 2%Z aA aB 3%Z aD aD (fun a => Z.of_nat a) = Ok m' /\
  map (fun ij => m' (g_addr 4 aD (fst ij) (snd ij))) [(0,0); (5,2); (4,1)] = [8500; 11383; 10668]%Z /\ m' 82 = 82%Z.
Proof. eexists. split; [vm_compute; reflexivity|]. vm_compute. auto. Qed.
