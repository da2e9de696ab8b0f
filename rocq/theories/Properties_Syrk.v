(** Properties_Syrk.v -- C24: syrkLower. *)
From Coq Require Import Arith Lia List Bool PeanoNat ZArith.
From Verif Require Import Base Base_Proofs Spec Algebra_Proofs Instances Layout_Model Layout_Proofs Simd_Model Simd_Proofs
  Reg_Model Reg_Proofs Tile_Model Gemm_Model Gemm_Proofs Arg_Proofs Ger_Model Ger_Proofs Syrk_Model Syrk_Proofs Properties_Gemm.
Import ListNotations.

(** Operands of syrkLower: dense column-major matrices or windows starting at a SIMD boundary. *)
Record syrk_pre (SS cc : nat) (al : alloc) (A C D : view) : Prop := {
  sp_A : dense_cm SS A; sp_C : dense_cm SS C; sp_D : dense_cm SS D;
  sp_inD : v_i D + v_m D <= c_rows (v_cont D) /\ v_j D + v_n D <= c_cols (v_cont D);
  sp_szC : v_m C = v_m A /\ v_n C = v_m A; sp_szD : v_m D = v_m A /\ v_n D = v_m A;
  (* allocated memory: A and C up to the next multiple of the tile size; the lower triangle of D *)
  sp_alA : allocated al (nextMultiple (v_m A) (cc * SS)) (v_n A) (v_addr SS A);
  sp_alC : allocated al (nextMultiple (v_m A) (cc * SS)) (v_m A) (v_addr SS C);
  sp_alD : forall i j, lower (v_m A) (v_m A) i j -> al (v_addr SS D i j) = true;
  (* D's lower triangle does not overlap A; it is C's or does not overlap it *)
  sp_sepA : forall i j i' k, lower (v_m A) (v_m A) i j -> i' < v_m A -> k < v_n A -> v_addr SS D i j <> v_addr SS A i' k;
  sp_sepC : forall i j i' j', lower (v_m A) (v_m A) i j -> lower (v_m A) (v_m A) i' j' ->
              v_addr SS D i j = v_addr SS C i' j' -> i = i' /\ j = j'
}.

(** D(i,j), i >= j: beta*C(i,j), then fma(alpha*A(i,k), A(j,k), .) for k = 0..K-1; everything else is unchanged, in
    particular D(i,j), i < j, and the surroundings of D. *)
Theorem C24_syrk_ops : forall SS cc T (O : Ops T) al alpha A beta C D m, 0 < SS -> 0 < cc -> syrk_pre SS cc al A C D ->
  exists m', syrkLower SS cc T O al alpha A beta C D m = Ok m' /\
    updated (lower (v_m A) (v_m A)) (v_addr SS D)
      (fun i j => fma_chain O (v_n A) (fun k => omul O alpha (m (v_addr SS A i k))) (fun k => m (v_addr SS A j k))
                    (omul O beta (m (v_addr SS C i j)))) m m'.
Proof.
  intros SS cc T O al alpha A beta C D m HSS Hcc [hA hC hD [i1 i2] [zC1 zC2] [zD1 zD2] aA aC aD xA xC].
  destruct (syrk_ok_thm SS HSS cc Hcc T O al alpha A beta C D m) as (m' & E & U); auto.
  - intros i j Hj Hi. apply aC; auto. pose proof (syrk_last_bound SS HSS cc Hcc (v_m A) (v_pf C) j). unfold Ger_Model.TS in *. lia.
  - intros i j i' j' (H1 & H2 & H3) (H4 & H5 & H6) X. unfold v_addr, c_addr in X. apply Nat.add_cancel_l in X.
    apply (c_index_inj SS HSS) in X; lia.
  - exists m'. split; auto.
Qed.

(** Over a commutative ring: the lower triangle of alpha*A*A^T + beta*C. *)
Theorem C24_syrk_ring : forall SS cc T (O : Ops T) al alpha A beta C D m, 0 < SS -> 0 < cc -> ring_laws O -> syrk_pre SS cc al A C D ->
  exists m', syrkLower SS cc T O al alpha A beta C D m = Ok m' /\
    updated (lower (v_m A) (v_m A)) (v_addr SS D)
      (fun i j => oadd O (omul O alpha (sum O (v_n A) (fun k => omul O (m (v_addr SS A i k)) (m (v_addr SS A j k)))))
                         (omul O beta (m (v_addr SS C i j)))) m m'.
Proof.
  intros SS cc T O al alpha A beta C D m HSS Hcc RL P.
  destruct (C24_syrk_ops SS cc T O al alpha A beta C D m HSS Hcc P) as (m' & E & U1 & U2).
  exists m'. split; auto. split; auto. intros i j Hij. rewrite U1 by auto.
  rewrite (fma_chain_sum O RL), (rl_add_comm O RL). f_equal. rewrite <- (sum_scale O RL). apply sum_ext.
  intros k _. symmetry. apply (rl_mul_assoc O RL).
Qed.

(** Strictly upper elements of D are not modified. *)
Theorem C24_syrk_upper_untouched : forall SS cc T (O : Ops T) al alpha A beta C D m m', 0 < SS -> 0 < cc -> syrk_pre SS cc al A C D ->
  syrkLower SS cc T O al alpha A beta C D m = Ok m' ->
  forall i j, i < j -> j < v_m A -> m' (v_addr SS D i j) = m (v_addr SS D i j).
Proof.
  intros SS cc T O al alpha A beta C D m m' HSS Hcc P E i j Hij Hj.
  destruct (C24_syrk_ops SS cc T O al alpha A beta C D m HSS Hcc P) as (m1 & E1 & _ & U). rewrite E in E1. injection E1 as <-.
  destruct P as [_ _ _ [i1 i2] _ [zD1 zD2] _ _ _ _ _].
  apply U. intros i' j' (H1 & H2 & H3) X. unfold v_addr, c_addr in X. apply Nat.add_cancel_l in X. apply (c_index_inj SS HSS) in X; lia.
Qed.

(** Mismatched sizes: invalid_argument before any access. *)
Theorem C24_syrk_throws : forall SS cc T (O : Ops T) al alpha A beta C D m,
  v_m C <> v_m A \/ v_n C <> v_m A \/ v_m D <> v_m A \/ v_n D <> v_m A ->
  syrkLower SS cc T O al alpha A beta C D m = Throw InvalidArgument.
Proof.
  intros SS cc T O al alpha A beta C D m H. unfold syrkLower.
  destruct (Nat.eqb_spec (v_m C) (v_m A)), (Nat.eqb_spec (v_n C) (v_m A)); cbn [andb negb]; auto.
  destruct (Nat.eqb_spec (v_m D) (v_m A)), (Nat.eqb_spec (v_n D) (v_m A)); cbn [andb negb]; auto. tauto.
Qed.

(** Whole library containers with tile size = SIMD size (AVX2): the precondition on allocation holds, all accesses stay
    inside the containers' buffers. *)
Definition whole_dense (SS : nat) (c : container) : Prop := c_kind c = Dense /\ c_so c = columnMajor /\ c_base c mod SS = 0.
Theorem C24_syrk_safe_in_containers : forall SS T (O : Ops T) al alpha A beta C D m, 0 < SS ->
  whole_dense SS A -> whole_dense SS C -> whole_dense SS D ->
  c_rows C = c_rows A -> c_cols C = c_rows A -> c_rows D = c_rows A -> c_cols D = c_rows A ->
  (forall x, al x = true <-> c_alloc SS A x = true \/ c_alloc SS C x = true \/ c_alloc SS D x = true) ->
  separate (c_rows A) (c_rows A) (c_addr SS D) (c_rows A) (c_cols A) (c_addr SS A) ->
  D = C \/ separate (c_rows A) (c_rows A) (c_addr SS D) (c_rows A) (c_rows A) (c_addr SS C) ->
  syrk_pre SS 1 al (whole A) (whole C) (whole D) /\ exists m', syrkLower SS 1 T O al alpha (whole A) beta (whole C) (whole D) m = Ok m'.
Proof.
  intros SS T O al alpha A beta C D m HSS (A1 & A2 & A3) (C1 & C2 & C3) (D1 & D2 & D3) zC1 zC2 zD1 zD2 Hal sA sC.
  assert (P : syrk_pre SS 1 al (whole A) (whole C) (whole D)).
  { constructor; cbn [whole v_cont v_i v_j v_m v_n].
    - repeat split; auto. apply Nat.mod_0_l; lia.
    - repeat split; auto. apply Nat.mod_0_l; lia.
    - repeat split; auto. apply Nat.mod_0_l; lia.
    - lia.
    - lia.
    - lia.
    - rewrite Nat.mul_1_l. intros i j Hi Hj. apply (live_index SS HSS al (MArg (whole A) false)); [intros x Hx; apply Hal; auto|].
      cbn. apply c_index_bound_pad; auto. rewrite A2. lia.
    - rewrite Nat.mul_1_l. intros i j Hi Hj. apply (live_index SS HSS al (MArg (whole C) false)); [intros x Hx; apply Hal; auto|].
      cbn. apply c_index_bound_pad; auto. rewrite C2, zC1, zC2. lia.
    - intros i j (H1 & H2 & H3). apply (live_index SS HSS al (MArg (whole D) false)); [intros x Hx; apply Hal; auto|].
      cbn. apply c_index_bound; auto; lia.
    - intros i j i' k (H1 & H2 & H3) H4 H5. apply sA; auto.
    - intros i j i' j' (H1 & H2 & H3) (H4 & H5 & H6) X. destruct sC as [->|sC].
      + unfold v_addr, c_addr in X. apply Nat.add_cancel_l in X. apply (c_index_inj SS HSS) in X; cbn in *; lia.
      + exfalso. apply (sC i j i' j'); auto. }
  split; auto. destruct (C24_syrk_ops SS 1 T O al alpha _ beta _ _ m HSS ltac:(lia) P) as (m' & E & _). eauto.
Qed.

(** With two SIMD registers per tile (NEON, double) the corner kernel reads beyond the padding of C: 2-by-2 matrices. *)
Definition sA2 : container := Cont Dense false columnMajor 2 1 0.
Definition sC2 : container := Cont Dense false columnMajor 2 2 4.
Definition s_al (x : nat) : bool := c_alloc 2 sA2 x || c_alloc 2 sC2 x.
Theorem C24_syrk_neon_overread_refuted :
  syrkLower 2 2 Z zops s_al 1%Z (whole sA2) 1%Z (whole sC2) (whole sC2) (fun _ => 0%Z) = UB.
Proof. vm_compute. reflexivity. Qed.

(* ------------------------------------------------------------------ example *)
(** A 6x3 at 0, C = D 6x6 at 32. *)
Definition sA : container := Cont Dense false columnMajor 6 3 0.
Definition sD : container := Cont Dense false columnMajor 6 6 32.
Definition sal (x : nat) : bool := c_alloc 4 sA x || c_alloc 4 sD x.
Example C24_example : syrk_pre 4 1 sal (whole sA) (whole sD) (whole sD).
Proof.
  apply (C24_syrk_safe_in_containers 4 Z zops sal 1%Z sA 1%Z sD sD (fun _ => 0%Z)); try lia; try (repeat split; reflexivity); auto.
  - intros x. unfold sal. rewrite orb_true_iff. tauto.
  - intros i j i' j' Hi Hj Hi' Hj' X. pose proof (in_range sD i j Hi Hj). pose proof (in_range sA i' j' Hi' Hj').
    change (c_base sD) with 32 in *. change (c_base sA) with 0 in *. change (c_capacity 4 sA) with 24 in *. lia.
Qed.
Example C24_example_run :
  match syrkLower 4 1 Z zops sal 2%Z (whole sA) 3%Z (whole sD) (whole sD) (fun a => Z.of_nat a) with
  | Ok m' => map (fun ij => m' (c_addr 4 sD (fst ij) (snd ij))) [(0,0); (5,2); (2,5); (5,5)]
  | _ => [] end = [736; 1195; 74; 1501]%Z.
Proof. vm_compute. reflexivity. Qed.
