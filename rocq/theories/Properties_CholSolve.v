(** Properties_CholSolve.v -- C58, continued: solving with the Cholesky factor when every operation rounds. *)
From Coq Require Import Reals Lra Lia Arith Bool List ZArith.
From Verif Require Import Base Base_Proofs Spec Algebra_Proofs Instances Layout_Model Layout_Proofs Arg_Proofs Tri_Model Properties_Tri Potrf_Model Properties_Potrf
  Round_Spec Round_Proofs RoundFact_Proofs Float_Proofs Properties_Round Properties_Solve.
From Flocq Require Import IEEE754.BinarySingleNaN.
Import ListNotations.
Local Open Scope nat_scope.

(** What the returned X solves when every operation rounds (u: unit roundoff, eta: underflow unit; with u = eta = 0 this is A*X = B for the symmetric
    matrix with A's lower triangle).  The factor is the one left in L. *)
Theorem C58_cholesky_solve_rounded : forall SS cc T (O : Ops T) val fin u eta al A L B m, rounded O val fin u eta -> 0 < SS -> 0 < cc ->
  potrf_pre SS cc al A L -> v_n A = v_m A -> d_m B = v_m A ->
  allocated al (d_m B) (d_n B) (d_at B) -> distinct (d_m B) (d_n B) (d_at B) ->
  separate (d_m B) (d_n B) (d_at B) (nextMultiple (v_m A) (cc * SS)) (v_n A) (v_addr SS L) ->
  exists m', cholesky_solve SS cc T O al A L B m = Ok m' /\
  let n := v_m A in let F i j := m' (v_addr SS L i j) in let X k j := m' (d_at B k j) in
  ((forall i j, lower n n i j -> fin (F i j) = true) -> (forall i j, i < n -> j < d_n B -> fin (X i j) = true) ->
  let a i k := m (v_addr SS A (max i k) (min i k)) in
  let l i c := (if c <=? i then val (F i c) else 0%R) in
  let w k := ((/ (1 - u)) ^ k)%R in let d := downs u (n + 1) in
  forall i j, i < n -> j < d_n B -> fin (m (d_at B i j)) = true /\ (forall k, k < n -> fin (a i k) = true) /\
    (Rabs (val (m (d_at B i j)) - Rsum n (fun k => val (a i k) * val (X k j))) <=
       (d * (2 + d) + downs u (n + 3)) * Rsum n (fun k => Rsum n (fun c => Rabs (l i c) * Rabs (l k c) * Rabs (val (X k j)))) +
       (w (n + 1)%nat * (eta * (2 * INR n + Rabs (l i i))) +
        (1 + d) * Rsum n (fun c => Rabs (l i c) * (w (n + 1)%nat * (eta * (2 * INR n + Rabs (l c c))))) +
        Rsum n (fun k => w (n + 3)%nat * (eta * (INR n + (Rabs (l (max i k) (min i k)) + Rabs (l (min i k) (min i k)) + eta))) * Rabs (val (X k j)))))%R).
Proof.
  intros SS cc T O val fin u eta al A L B m RA HSS Hcc P SQ SB AB DB SEP.
  destruct (C28_potrf_dense_ops SS cc T O al A L m HSS Hcc P) as (m1 & E1 & _ & F1).
  destruct (C50_potrf_dense SS cc T O val fin u eta al A L m RA HSS Hcc P) as (m1' & E1' & R1).
  pose proof (eq_trans (eq_sym E1') E1) as Q1. injection Q1 as ->. clear E1'.
  destruct P as [_ _ (z1 & z2 & z3) _ aL dL _].
  assert (HK : 0 < cc * SS) by nia. destruct (nextMultiple_spec (v_m A) (cc * SS) HK) as (NM & _).
  destruct (nextMultiple_spec (v_n A) (cc * SS) HK) as (NN & _).
  set (LL := DMat (v_m L) (v_n L) (v_addr SS L)). set (n := v_m A) in *.
  assert (TPL : trsm_pre al Lower false LL B B).
  { apply solve_trsm_pre; cbn [LL d_m d_n d_at]; auto; try congruence.
    - intros i j Hi Hj. apply aL; lia.
    - intros i j i' j' Hi Hj Hi' Hj'. apply SEP; lia. }
  assert (TPU : trsm_pre al Upper false (transposed LL) B B).
  { apply solve_trsm_pre; cbn [LL transposed d_m d_n d_at]; auto; try congruence.
    - intros i j Hi Hj. apply aL; lia.
    - intros i j i' j' Hi Hj Hi' Hj'. apply SEP; lia. }
  destruct (C31_trsm_ops T O al Lower false LL B B m1 TPL) as (m2 & E2 & _ & F2).
  destruct (C31_trsm_ops T O al Upper false (transposed LL) B B m2 TPU) as (m3 & E3 & _ & F3).
  exists m3. split.
  { unfold cholesky_solve. rewrite E1. cbn [bind]. fold LL. rewrite E2. cbn [bind]. exact E3. }
  intros _n F X FF FX a l w d. subst _n.
  destruct (C51_trsm_lower T O val fin u eta al false LL B B m1 RA TPL) as (m2' & E2' & R2). pose proof (eq_trans (eq_sym E2') E2) as Q2. injection Q2 as ->. clear E2'.
  destruct (C51_trsm_upper T O val fin u eta al false (transposed LL) B B m2 RA TPU) as (m3' & E3' & R3). pose proof (eq_trans (eq_sym E3') E3) as Q3. injection Q3 as ->. clear E3'.
  pose proof (ra_u O val fin u eta RA) as Hu. pose proof (ra_eta O val fin u eta RA) as He.
  rewrite SB in *.
  assert (K2 : forall i j, i < n -> j < n -> m2 (v_addr SS L i j) = m1 (v_addr SS L i j)).
  { intros i j Hi Hj. rewrite F2; auto. intros i' j' Hi' Hj' Y. apply (SEP i' j' i j); auto; lia. }
  assert (K3 : forall i j, i < n -> j < n -> F i j = m1 (v_addr SS L i j)).
  { intros i j Hi Hj. unfold F. rewrite F3, K2; auto. intros i' j' Hi' Hj' Y. apply (SEP i' j' i j); auto; lia. }
  assert (Le : forall i c, c <= i -> l i c = val (F i c)) by (intros i c Hc; unfold l; destruct (Nat.leb_spec c i); [auto|lia]).
  assert (L0 : forall i c, i < c -> l i c = 0%R) by (intros i c Hc; unfold l; destruct (Nat.leb_spec c i); [lia|auto]).
  intros i j Hi Hj. set (x := fun k => val (X k j)). set (y := fun k => val (m2 (d_at B k j))).
  assert (HY : forall c, c < n -> fin (m2 (d_at B c j)) = true /\
    (Rabs (y c - Rsum n (fun k => l k c * x k)) <= d * Rsum n (fun k => Rabs (l k c * x k)) + w (n + 1)%nat * (eta * (2 * INR n + Rabs (l c c))))%R).
  { intros c Hc. specialize (R3 c j Hc Hj). cbv zeta in R3. cbn [transposed LL d_at] in R3.
    destruct R3 as (R41 & R42 & R43); [apply FX; auto|intros _; rewrite K2, <- K3 by auto; apply FF; unfold lower; lia|]. split; [exact R41|].
    rewrite (Rsum_from n c (fun k => (l k c * x k)%R)); auto; [|intros k Hk; rewrite L0 by auto; ring].
    rewrite (Rsum_from n c (fun k => Rabs (l k c * x k))); auto; [|intros k Hk; rewrite L0 by auto; rewrite Rmult_0_l; apply Rabs_R0].
    assert (Q : forall k, c <= k < n -> l k c = val (m2 (v_addr SS L k c))) by (intros k Hk; rewrite Le, K3, K2 by lia; auto).
    rewrite (Q c) by lia. unfold y, x.
    rewrite (Rsum_ext (n - (c + 1)) (fun k => (l (c + 1 + k)%nat c * val (X (c + 1 + k)%nat j))%R) (fun k => (val (m2 (v_addr SS L (c + 1 + k) c)) * val (X (c + 1 + k)%nat j))%R))
      by (intros k Hk; rewrite Q by lia; auto).
    rewrite (Rsum_ext (n - (c + 1)) (fun k => Rabs (l (c + 1 + k)%nat c * val (X (c + 1 + k)%nat j))%R) (fun k => Rabs (val (m2 (v_addr SS L (c + 1 + k) c)) * val (X (c + 1 + k)%nat j))%R))
      by (intros k Hk; rewrite Q by lia; auto).
    eapply Rle_trans; [exact R43|]. apply Rplus_le_compat.
    - apply Rmult_le_compat_r; [|unfold d; apply downs_mono; auto; lia]. apply Rplus_le_le_0_compat; [|apply Rabs_pos]. apply Rsum_nonneg. intros; apply Rabs_pos.
    - pose proof (powQ u Hu (n - (c + 1) + 2)). pose proof (powQ_mono u Hu (n - (c + 1) + 2) (n + 1) ltac:(lia)).
      assert (INR (n - (c + 1)) <= INR n)%R by (apply le_INR; lia). pose proof (pos_INR (n - (c + 1))). pose proof (Rabs_pos (val (m2 (v_addr SS L c c)))).
      apply Rmult_le_compat; try lra; [apply Rmult_le_pos; lra|exact H0|]. apply Rmult_le_compat_l; lra. }
  assert (RB : m1 (d_at B i j) = m (d_at B i j)).
  { apply F1. intros i' j' (H1 & H2 & H3). apply SEP; lia. }
  assert (HB : fin (m (d_at B i j)) = true /\ (Rabs (val (m (d_at B i j)) - Rsum n (fun c => l i c * y c)) <=
     d * Rsum n (fun c => Rabs (l i c * y c)) + w (n + 1)%nat * (eta * (2 * INR n + Rabs (l i i))))%R).
  { specialize (R2 i j Hi Hj). cbv zeta in R2. cbn [LL d_at] in R2. rewrite RB in R2.
    destruct R2 as (R31 & R32 & R33); [apply HY; auto|intros _; rewrite <- K3 by auto; apply FF; unfold lower; lia|]. split; auto.
    rewrite (Rsum_upto n i (fun k => (l i k * y k)%R)); auto; [|intros k Hk; rewrite L0 by lia; ring].
    rewrite (Rsum_upto n i (fun k => Rabs (l i k * y k))); auto; [|intros k Hk; rewrite L0 by lia; rewrite Rmult_0_l; apply Rabs_R0].
    assert (Q : forall k, k <= i -> l i k = val (m1 (v_addr SS L i k))) by (intros k Hk; rewrite Le, K3 by lia; auto).
    rewrite (Q i) by lia. unfold y.
    rewrite (Rsum_ext i (fun k => (l i k * val (m2 (d_at B k j)))%R) (fun k => (val (m1 (v_addr SS L i k)) * val (m2 (d_at B k j)))%R)) by (intros k Hk; rewrite Q by lia; auto).
    rewrite (Rsum_ext i (fun k => Rabs (l i k * val (m2 (d_at B k j)))) (fun k => Rabs (val (m1 (v_addr SS L i k)) * val (m2 (d_at B k j))))) by (intros k Hk; rewrite Q by lia; auto).
    eapply Rle_trans; [exact R33|]. apply Rplus_le_compat.
    - apply Rmult_le_compat_r; [|unfold d; apply downs_mono; auto; lia]. apply Rplus_le_le_0_compat; [|apply Rabs_pos]. apply Rsum_nonneg. intros; apply Rabs_pos.
    - pose proof (powQ u Hu (i + 2)). pose proof (powQ_mono u Hu (i + 2) (n + 1) ltac:(lia)).
      assert (INR i <= INR n)%R by (apply le_INR; lia). pose proof (pos_INR i). pose proof (Rabs_pos (val (m1 (v_addr SS L i i)))).
      apply Rmult_le_compat; try lra; [apply Rmult_le_pos; lra|exact H0|]. apply Rmult_le_compat_l; lra. }
  (* the factorisation *)
  assert (HA : forall i k, k <= i -> i < n -> fin (m (v_addr SS A i k)) = true /\
    (Rabs (val (m (v_addr SS A i k)) - Rsum n (fun c => l i c * l k c)) <= downs u (n + 3) * Rsum n (fun c => Rabs (l i c * l k c)) +
       w (n + 3)%nat * (eta * (INR n + (Rabs (l i k) + Rabs (l k k) + eta))))%R).
  { intros i' k Hk Hi'. destruct (R1 i' k ltac:(unfold lower; lia)) as (Fa & R); [rewrite <- K3 by lia; apply FF; unfold lower; lia|rewrite <- K3 by lia; apply FF; unfold lower; lia|].
    split; auto.
    assert (TR : forall f, (forall c, k < c < n -> f c = 0%R) -> Rsum n f = Rsum (S k) f).
    { intros f Hf. cbn [Rsum]. apply Rsum_upto; auto. lia. }
    rewrite (TR (fun c => (l i' c * l k c)%R)) by (intros c Hc; rewrite (L0 k c) by lia; ring).
    rewrite (TR (fun c => Rabs (l i' c * l k c))) by (intros c Hc; rewrite (L0 k c) by lia; rewrite Rmult_0_r; apply Rabs_R0).
    assert (Q : forall q c, c <= q -> q < n -> l q c = val (m1 (v_addr SS L q c))) by (intros q c Hc Hq; rewrite Le, K3 by lia; auto).
    rewrite (Rsum_ext (S k) (fun c => (l i' c * l k c)%R) (fun c => (val (m1 (v_addr SS L i' c)) * val (m1 (v_addr SS L k c)))%R)) by (intros c Hc; rewrite !Q by lia; auto).
    rewrite (Rsum_ext (S k) (fun c => Rabs (l i' c * l k c)) (fun c => Rabs (val (m1 (v_addr SS L i' c)) * val (m1 (v_addr SS L k c))))) by (intros c Hc; rewrite !Q by lia; auto).
    rewrite !Q by lia. eapply Rle_trans; [exact R|]. apply Rplus_le_compat.
    - apply Rmult_le_compat_r; [|apply downs_mono; auto; lia]. apply Rsum_nonneg. intros; apply Rabs_pos.
    - pose proof (powQ u Hu (k + 4)). pose proof (powQ_mono u Hu (k + 4) (n + 3) ltac:(lia)).
      assert (INR k <= INR n)%R by (apply le_INR; lia). pose proof (pos_INR k). pose proof (Rabs_pos (val (m1 (v_addr SS L i' k)))). pose proof (Rabs_pos (val (m1 (v_addr SS L k k)))).
      apply Rmult_le_compat; try lra; [apply Rmult_le_pos; lra|exact H0|]. apply Rmult_le_compat_l; lra. }
  assert (HA' : forall k, k < n -> fin (a i k) = true /\
    (Rabs (val (a i k) - Rsum n (fun c => l i c * l k c)) <= downs u (n + 3) * Rsum n (fun c => Rabs (l i c * l k c)) +
       w (n + 3)%nat * (eta * (INR n + (Rabs (l (max i k) (min i k)) + Rabs (l (min i k) (min i k)) + eta))))%R).
  { intros k Hk. unfold a. destruct (Nat.le_gt_cases k i) as [H|H].
    - rewrite Nat.max_l, Nat.min_r by lia. apply HA; auto.
    - rewrite Nat.max_r, Nat.min_l by lia. rewrite (Rsum_ext n (fun c => (l i c * l k c)%R) (fun c => (l k c * l i c)%R)) by (intros; apply Rmult_comm).
      rewrite (Rsum_ext n (fun c => Rabs (l i c * l k c)) (fun c => Rabs (l k c * l i c))) by (intros; rewrite Rmult_comm; auto). apply HA; lia. }
  destruct HB as [HB1 HB2]. split; auto. split; [intros k Hk; apply HA'; auto|].
  apply (residual n (fun i k => val (a i k)) l (fun c k => l k c) x y (fun i => val (m (d_at B i j))) i d (downs u (n + 3))
    (fun k => (w (n + 3)%nat * (eta * (INR n + (Rabs (l (max i k) (min i k)) + Rabs (l (min i k) (min i k)) + eta))))%R)
    (fun c => (w (n + 1)%nat * (eta * (2 * INR n + Rabs (l c c))))%R)); auto.
  - apply downs_nonneg; auto.
  - intros k Hk. apply HA'; auto.
  - intros c Hc. apply HY; auto.
Qed.
(** In double, [2 1; 1 2] and two right-hand sides: the call returns and everything is finite (the hypotheses: C58_example_cholesky). *)
Example C58_example_cholesky_rounded :
  match cholesky_solve 2 1 b64 b64ops h_al (whole hA) (whole hA) hB (fun a => d64 (nth a [2; 1; 7; 2]%Z (Z.of_nat a))) with
  | Ok m' => forallb (fun a => is_finite (m' a)) ([0; 1; 3] ++ seq 100 4) | _ => false end = true.
Proof. vm_compute. reflexivity. Qed.
