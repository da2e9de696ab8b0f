(** Properties_RefTrmm.v -- C75: the left-hand reference::trmm calls the optimised trmm when that is visible. *)
From Coq Require Import Arith List Bool Lia PeanoNat ZArith.
From Verif Require Import Base Layout_Model Layout_Proofs Simd_Model Gemm_Model Arg_Proofs Trmm_Model Ref_Model Tile_Model Spec Algebra_Proofs RefTrmm_Model Trmm_Proofs Instances Properties_Gemm Properties_Trmm Properties_Ref Properties_Compose.
Import ListNotations.

(** Only the reference header included: the reference implementation, for all arguments (its properties are C38's). *)
Theorem C75_reference_alone : forall SS cc T (O : Ops T) al alpha A ul diag B C m,
  ref_trmmL_in SS cc T O false al alpha A ul diag B C m = ref_trmmL SS T O al alpha A ul diag B C m.
Proof.
  intros. unfold ref_trmmL_in, ref_trmmL. destruct (negb (g_rows A =? g_rows B)), (negb (g_cols A =? g_rows B)), (negb (g_rows C =? g_rows B)), (negb (g_cols C =? g_cols B)); reflexivity.
Qed.
(** algorithm/Trmm.hpp included as well.  A and C column-major: the call has the outcome of blast::trmm with the same arguments, whatever they are.  Otherwise: of the reference
    implementation. *)
Theorem C75_both_visible : forall SS cc T (O : Ops T) al alpha A ul diag B C m,
  (g_so A = columnMajor -> g_so C = columnMajor -> ref_trmmL_in SS cc T O true al alpha A ul diag B C m = trmmL SS cc T O al alpha A ul diag B C m) /\
  (g_so A = rowMajor \/ g_so C = rowMajor -> ref_trmmL_in SS cc T O true al alpha A ul diag B C m = ref_trmmL SS T O al alpha A ul diag B C m).
Proof.
  intros. unfold ref_trmmL_in, ref_trmmL, trmmL. split.
  - intros SA SC. destruct (g_rows A =? g_rows B), (g_cols A =? g_rows B), (g_rows C =? g_rows B), (g_cols C =? g_cols B); cbn [negb orb andb]; try reflexivity.
    unfold resolve, trmmL_candidates. cbn. rewrite SA, SC. reflexivity.
  - intros S. destruct (g_rows A =? g_rows B), (g_cols A =? g_rows B), (g_rows C =? g_rows B), (g_cols C =? g_cols B); cbn [negb orb andb]; try reflexivity.
    unfold resolve, trmmL_candidates. cbn. destruct S as [S|S]; rewrite S; destruct (g_so A); reflexivity.
Qed.
(** Consequently (as in test/blast/math/dense/TrmmTest.cpp, which fills all of A with random numbers): a program that computes C with blast::trmm and then D with reference::trmm finds
    all elements equal, to the last bit, whatever A contains below its diagonal and whatever the scalar operations do. *)
Theorem C75_comparison_is_vacuous : forall SS cc T (O : Ops T) al alpha A B C D m, 0 < SS -> 0 < cc -> trmmL_pre SS cc al A B C -> trmmL_pre SS cc al A B D ->
  separate (g_rows B) (g_cols B) (g_addr SS C) (g_rows B) (g_cols B) (g_addr SS B) -> separate (g_rows B) (g_cols B) (g_addr SS D) (g_rows B) (g_cols B) (g_addr SS C) ->
  exists m1 m2, trmmL SS cc T O al alpha A Upper false B C m = Ok m1 /\ ref_trmmL_in SS cc T O true al alpha A Upper false B D m1 = Ok m2 /\
    forall i j, i < g_rows B -> j < g_cols B -> m2 (g_addr SS C i j) = m2 (g_addr SS D i j).
Proof.
  intros SS cc T O al alpha A B C D m HSS Hcc P Q S1 S2.
  destruct (left_run SS cc T O al alpha A B C m HSS Hcc P) as (m1 & E1 & U1 & F1).
  destruct (left_run SS cc T O al alpha A B D m1 HSS Hcc Q) as (m2 & E2 & U2 & F2).
  exists m1, m2. split; auto. split; [rewrite (proj1 (C75_both_visible _ _ _ _ _ _ _ _ _ _ _ _)) by (apply Q); auto|].
  intros i j Hi Hj. rewrite U2 by (split; auto). rewrite F2 by (intros i' j' [Hi' Hj'] E; exact (S2 i' j' i j Hi' Hj' Hi Hj (eq_sym E))). rewrite U1 by (split; auto).
  assert (KB : forall k l, k < g_rows B -> l < g_cols B -> m1 (g_addr SS B k l) = m (g_addr SS B k l)).
  { intros k l Hk Hl. apply F1. intros i' j' [Hi' Hj'] E. exact (S1 i' j' k l Hi' Hj' Hk Hl (eq_sym E)). }
  assert (KA : forall k l, k < g_rows B -> l < g_rows B -> m1 (g_addr SS A k l) = m (g_addr SS A k l)).
  { intros k l Hk Hl. apply F1. intros i' j' [Hi' Hj'] E. exact (lp_sepA _ _ _ _ _ _ P i' j' k l Hi' Hj' Hk Hl (eq_sym E)). }
  unfold trmmL_val. destruct (find _ _) as [c|] eqn:FC; [|reflexivity]. apply List.find_some in FC. destruct FC as (Hc & Hp).
  pose proof (blk_le SS HSS cc Hcc i) as HB.
  unfold trmmL_elem. destruct (k_full c).
  - apply fma_chain_ext; intros k Hk; [do 2 f_equal; symmetry; apply KA; lia|symmetry; apply KB; lia].
  - apply fma_chain_ext; intros k Hk; [f_equal; symmetry; apply KA; lia|symmetry; apply KB; lia].
Qed.
(** ... provided that only the upper triangle counts (sizes multiples of the tile size, or zeros below the diagonal), over a commutative ring, it does not matter which headers are included. *)
Theorem C75_agree : forall SS cc T (O : Ops T) al alpha A B C m, 0 < SS -> 0 < cc -> ring_laws O -> trmmL_pre SS cc al A B C ->
  (g_rows B mod (cc * SS) = 0 /\ g_cols B mod (cc * SS) = 0) \/ (forall i k, k < i < g_rows B -> m (g_addr SS A i k) = o0 O) ->
  exists m1 m2, ref_trmmL_in SS cc T O true al alpha A Upper false B C m = Ok m1 /\ ref_trmmL_in SS cc T O false al alpha A Upper false B C m = Ok m2 /\
    forall a, m1 a = m2 a.
Proof.
  intros SS cc T O al alpha A B C m HSS Hcc RL P H.
  destruct (C39_trmm_left_agree SS cc T O al alpha A B C m HSS Hcc RL P H) as (m1 & m2 & E1 & E2 & U & F).
  exists m1, m2. split; [rewrite (proj1 (C75_both_visible _ _ _ _ _ _ _ _ _ _ _ _)) by (apply P); auto|]. split; [rewrite C75_reference_alone; auto|].
  intros a.
  destruct (existsb (fun i => existsb (fun j => a =? g_addr SS C i j) (seq 0 (g_cols B))) (seq 0 (g_rows B))) eqn:X.
  - apply existsb_exists in X. destruct X as (i & Hi & X). apply existsb_exists in X. destruct X as (j & Hj & X). apply in_seq in Hi, Hj. apply Nat.eqb_eq in X. subst a. apply U; lia.
  - apply F. intros i j Hi Hj E. rewrite <- not_true_iff_false in X. apply X. apply existsb_exists. exists i. split; [apply in_seq; lia|]. apply existsb_exists. exists j.
    split; [apply in_seq; lia|]. apply Nat.eqb_eq; auto.
Qed.
(** Refuted: "reference::trmm computes alpha * A * B with A the triangle selected by uplo, for every uplo and diag".  With both headers: the 2-by-2 matrix [1 1; 5 1] times [1; 1] has 6
    as its second element instead of 1, and lower triangular or unit matrices are rejected (logic_error); without the optimised header all of these work. *)
Theorem C75_triangle_refuted :
  let A := MArg (whole lA2) false in let B := MArg (whole lB2) false in let C := MArg (whole lC2) false in
  match ref_trmmL_in 4 1 Z zops true l_al 1%Z A Upper false B C l_m with Ok m' => m' (g_addr 4 C 1 0) = 6%Z | _ => False end /\
  match ref_trmmL_in 4 1 Z zops false l_al 1%Z A Upper false B C l_m with Ok m' => m' (g_addr 4 C 1 0) = 1%Z | _ => False end /\
  (forall ul diag, ul = Lower \/ diag = true -> ref_trmmL_in 4 1 Z zops true l_al 1%Z A ul diag B C l_m = Throw LogicError) /\
  match ref_trmmL_in 4 1 Z zops false l_al 1%Z A Lower false B C l_m with Ok m' => m' (g_addr 4 C 1 0) = 6%Z | _ => False end.
Proof.
  cbv zeta. split; [vm_compute; reflexivity|]. split; [vm_compute; reflexivity|]. split; [|vm_compute; reflexivity].
  intros ul diag [->| ->]; [destruct diag|destruct ul]; vm_compute; reflexivity.
Qed.

(** The hypotheses of the comparison: the same A and B, whose A(1, 0) = 5 is not zero, and two outputs. *)
Definition lD2 : container := Cont Dense false columnMajor 2 1 24.
Definition l_al2 (x : nat) : bool := l_al x || c_alloc 4 lD2 x.
Example C75_example : let A := MArg (whole lA2) false in let B := MArg (whole lB2) false in let C := MArg (whole lC2) false in let D := MArg (whole lD2) false in
  trmmL_pre 4 1 l_al2 A B C /\ trmmL_pre 4 1 l_al2 A B D /\
  separate 2 1 (g_addr 4 C) 2 1 (g_addr 4 B) /\ separate 2 1 (g_addr 4 D) 2 1 (g_addr 4 C) /\ l_m (g_addr 4 A 1 0) = 5%Z.
Proof.
  cbv zeta. split; [|split; [|split; [apply separate_check; vm_compute; reflexivity|split; [apply separate_check; vm_compute; reflexivity|reflexivity]]]].
  all: constructor; try (cbv; repeat split; auto; lia); try reflexivity; try discriminate; try (left; reflexivity);
    try (apply allocated_check; vm_compute; reflexivity); try (apply separate_check; vm_compute; reflexivity);
    try (left; apply separate_check; vm_compute; reflexivity).
  all: intros i k Hi Hk _; exact (all2_ok 4 2 (fun i k => l_al2 (g_addr 4 (MArg (whole lA2) false) i k)) eq_refl i k Hi Hk).
Qed.
