(** Properties_Update.v -- C77: rank-k updates followed by a Cholesky factorisation, and Cholesky factorisation by blocks. *)
From Coq Require Import Arith Lia List Bool PeanoNat Reals Lra ZArith.
From Verif Require Import Base Base_Proofs Spec Algebra_Proofs Cholesky_Proofs Instances Scan_Proofs Layout_Model Layout_Proofs Arg_Proofs Tri_Model Syrk_Model Syrk_Proofs Properties_Syrk
  Potrf_Model Potrf_Proofs Properties_Trmm Properties_Potrf Properties_Unique Properties_Solve.
Import ListNotations.
Local Open Scope nat_scope.

(** Client programs. *)
(** syrkLower(alpha, A, beta, C, D); potrf(D, L) *)
Definition update_factor (SS cc : nat) T (O : Ops T) (al : alloc) (alpha : T) (A : view) (beta : T) (C D L : view) (m : mem T) : res (mem T) :=
  m <- syrkLower SS cc T O al alpha A beta C D m ;; potrf_dense SS cc (cc * SS) T O al D L m.
(** syrkLower(alpha, A, beta, C, D); potrf(D, L); trsm<Lower>(L, B, B); trsm<Upper>(trans(L), B, B) *)
Definition update_solve (SS cc : nat) T (O : Ops T) (al : alloc) (alpha : T) (A : view) (beta : T) (C D L : view) (B : dmat) (m : mem T) : res (mem T) :=
  m <- syrkLower SS cc T O al alpha A beta C D m ;; cholesky_solve SS cc T O al D L B m.
(** The blocked factorisation in place; ks are the widths of the leading blocks of columns:
    potrf(A(:, 0:k), A(:, 0:k)); syrkLower(-1, A(k:, 0:k), 1, A(k:, k:), A(k:, k:)); and so on with A(k:, k:). *)
Fixpoint block_cholesky (SS cc : nat) T (O : Ops T) (al : alloc) (A : view) (ks : list nat) (m : mem T) : res (mem T) :=
  match ks with
  | [] => potrf_dense SS cc (cc * SS) T O al A A m
  | k :: ks =>
      let n := v_m A in let A1 := subsubmatrix true A 0 0 n k in
      let A2 := subsubmatrix true A k k (n - k) (n - k) in
      m <- potrf_dense SS cc (cc * SS) T O al A1 A1 m ;;
      m <- syrkLower SS cc T O al (om1 O) (subsubmatrix true A k 0 (n - k) k) (o1 O) A2 A2 m ;;
      block_cholesky SS cc T O al A2 ks m
  end.

(* ------------------------------------------------------------------ update *)
(** beta*c + alpha * a a^T *)
Definition rank_k (alpha beta : R) (K : nat) (a c : nat -> nat -> R) (i j : nat) : R :=
  (alpha * sum rops K (fun k => a i k * a j k) + beta * c i j)%R.

Lemma quad_rank_k : forall N alpha beta K a c v,
  sum rops N (fun i => sum rops N (fun j => v i * rank_k alpha beta K a c i j * v j))%R =
  (alpha * sum rops K (fun k => sum rops N (fun i => v i * a i k) * sum rops N (fun i => v i * a i k)) +
   beta * sum rops N (fun i => sum rops N (fun j => v i * c i j * v j)))%R.
Proof.
  intros N alpha beta K a c v. change (sum rops) with S_.
  assert (E : S_ N (fun i => S_ N (fun j => v i * rank_k alpha beta K a c i j * v j))%R =
    S_ N (fun i => alpha * S_ K (fun k => (v i * a i k) * S_ N (fun j => v j * a j k)) + beta * S_ N (fun j => v i * c i j * v j))%R).
  { apply S_ext. intros i Hi.
    rewrite (S_ext K (fun k => v i * a i k * S_ N (fun j => v j * a j k))%R (fun k => S_ N (fun j => v i * a i k * (v j * a j k)))%R)
      by (intros; rewrite S_scale; reflexivity).
    rewrite S_swap, <- !S_scale, <- S_plus. apply S_ext. intros j Hj. unfold rank_k.
    rewrite (S_ext K (fun k => v i * a i k * (v j * a j k))%R (fun k => (v i * v j) * (a i k * a j k))%R) by (intros; ring).
    rewrite S_scale. ring. }
  rewrite E, S_plus, !S_scale. f_equal. f_equal. rewrite S_swap. apply S_ext. intros k Hk.
  rewrite (S_ext N (fun i => v i * a i k * S_ N (fun j => v j * a j k))%R (fun i => S_ N (fun j => v j * a j k) * (v i * a i k))%R) by (intros; ring).
  rewrite S_scale. reflexivity.
Qed.
Lemma squares_nonneg : forall K (f : nat -> R), (0 <= sum rops K (fun k => f k * f k))%R.
Proof. induction K as [|K IH]; intros f; cbn; [lra|]. specialize (IH f). pose proof (Rle_0_sqr (f K)). unfold Rsqr in *. cbn in IH. lra. Qed.
Lemma squares_pos : forall K (f : nat -> R) k, k < K -> f k <> 0%R -> (0 < sum rops K (fun k => f k * f k))%R.
Proof.
  induction K as [|K IH]; intros f k Hk Hf; [lia|]. cbn. pose proof (Rle_0_sqr (f K)). unfold Rsqr in *.
  destruct (Nat.eq_dec k K) as [->|].
  - pose proof (squares_nonneg K f) as Q. cbn in Q. apply Rsqr_pos_lt in Hf. unfold Rsqr in Hf. lra.
  - specialize (IH f k ltac:(lia) Hf). cbn in IH. lra.
Qed.
Lemma rank_k_pos_def : forall N alpha beta K a c, (0 <= alpha)%R -> (0 < beta)%R -> pos_def N c -> pos_def N (rank_k alpha beta K a c).
Proof.
  intros N alpha beta K a c Ha Hb [Sy PD]. split.
  - intros i j Hi Hj. unfold rank_k. rewrite (Sy i j) by auto. f_equal. f_equal. apply S_ext. intros; ring.
  - intros v Hv. rewrite quad_rank_k. specialize (PD v Hv).
    pose proof (squares_nonneg K (fun k => sum rops N (fun i => v i * a i k)%R)) as Q. cbn beta in Q.
    apply Rplus_le_lt_0_compat; [apply Rmult_le_pos; auto|apply Rmult_lt_0_compat; auto].
Qed.
Lemma gram_pos_def : forall N alpha K a c, (0 < alpha)%R ->
  (forall v, (exists i, i < N /\ v i <> 0%R) -> exists k, k < K /\ sum rops N (fun i => v i * a i k)%R <> 0%R) -> pos_def N (rank_k alpha 0 K a c).
Proof.
  intros N alpha K a c Ha Ind. split.
  - intros i j Hi Hj. unfold rank_k. rewrite !Rmult_0_l. f_equal. f_equal. apply S_ext. intros; ring.
  - intros v Hv. rewrite quad_rank_k, Rmult_0_l, Rplus_0_r. destruct (Ind v Hv) as (k & Hk & Hs).
    apply Rmult_lt_0_compat; auto. apply (squares_pos K (fun k => sum rops N (fun i => v i * a i k)%R) k); auto.
Qed.

(** Whenever beta*C + alpha*A*A^T is positive definite (C symmetric, given by its lower triangle), the update followed by potrf completes
    and L is its Cholesky factor; the lower triangle of D holds the updated matrix unless L is D; nothing else is modified. *)
Theorem C77_update_factor : forall SS cc al alpha A beta C D L m c, 0 < SS -> 0 < cc -> syrk_pre SS cc al A C D -> potrf_pre SS cc al D L ->
  (forall i j, lower (v_m A) (v_m A) i j -> m (v_addr SS C i j) = c i j) ->
  let S := rank_k alpha beta (v_n A) (fun i k => m (v_addr SS A i k)) c in
  pos_def (v_m A) S ->
  exists m', update_factor SS cc R rops al alpha A beta C D L m = Ok m' /\
    cholesky_factor (v_m A) (v_m A) S (fun i j => m' (v_addr SS L i j)) /\
    (separate (nextMultiple (v_m A) (cc * SS)) (v_m A) (v_addr SS L) (v_m A) (v_m A) (v_addr SS D) ->
       forall i j, lower (v_m A) (v_m A) i j -> m' (v_addr SS D i j) = S i j) /\
    (forall x, (forall i j, lower (v_m A) (v_m A) i j -> x <> v_addr SS D i j) ->
               (forall i j, lower (nextMultiple (v_m A) (cc * SS)) (v_m A) i j -> x <> v_addr SS L i j) -> m' x = m x).
Proof.
  intros SS cc al alpha A beta C D L m c HSS Hcc SP PP Hc S PD.
  destruct (C24_syrk_ring SS cc R rops al alpha A beta C D m HSS Hcc rops_ring SP) as (m1 & E1 & V1 & F1).
  destruct (sp_szD _ _ _ _ _ _ SP) as [D1 D2].
  destruct (C28_potrf_dense_ops SS cc R rops al D L m1 HSS Hcc PP) as (m' & E2 & _ & F2).
  assert (VD : forall i j, lower (v_m A) (v_m A) i j -> m1 (v_addr SS D i j) = S i j).
  { intros i j H. rewrite V1 by auto. unfold S, rank_k. rewrite Hc by auto. reflexivity. }
  destruct (C28_potrf_dense_real SS cc al D L m1 S HSS Hcc PP) as (m2 & E2' & CF).
  { rewrite D2. exact PD. }
  { rewrite D1, D2. exact VD. }
  assert (m2 = m') as -> by (pose proof (eq_trans (eq_sym E2') E2) as X; injection X; auto).
  rewrite D1, D2 in *. exists m'. split; [|split; [|split]].
  - unfold update_factor. rewrite E1. exact E2.
  - exact CF.
  - intros Sep i j H. rewrite F2; [apply VD; auto|]. intros i' j' H' X. unfold lower in *. apply (Sep i' j' i j); try lia.
  - intros x Hx Hy. rewrite F2 by auto. apply F1. exact Hx.
Qed.

(** Updating a positive definite matrix with nonnegative alpha and positive beta. *)
Theorem C77_update_pos_def : forall SS cc al alpha A beta C D L m c, 0 < SS -> 0 < cc -> syrk_pre SS cc al A C D -> potrf_pre SS cc al D L ->
  (forall i j, lower (v_m A) (v_m A) i j -> m (v_addr SS C i j) = c i j) -> pos_def (v_m A) c -> (0 <= alpha)%R -> (0 < beta)%R ->
  exists m', update_factor SS cc R rops al alpha A beta C D L m = Ok m' /\
    cholesky_factor (v_m A) (v_m A) (rank_k alpha beta (v_n A) (fun i k => m (v_addr SS A i k)) c) (fun i j => m' (v_addr SS L i j)).
Proof.
  intros SS cc al alpha A beta C D L m c HSS Hcc SP PP Hc PD Ha Hb.
  destruct (C77_update_factor SS cc al alpha A beta C D L m c HSS Hcc SP PP Hc) as (m' & E & CF & _); eauto. apply rank_k_pos_def; auto.
Qed.
(** The Gram matrix of A, positive alpha and beta = 0: it suffices that the rows of A are linearly independent, whatever C contains. *)
Theorem C77_gram : forall SS cc al alpha A C D L m, 0 < SS -> 0 < cc -> syrk_pre SS cc al A C D -> potrf_pre SS cc al D L -> (0 < alpha)%R ->
  (forall v : nat -> R, (exists i, i < v_m A /\ v i <> 0%R) -> exists k, k < v_n A /\ sum rops (v_m A) (fun i => v i * m (v_addr SS A i k))%R <> 0%R) ->
  exists m', update_factor SS cc R rops al alpha A 0%R C D L m = Ok m' /\
    cholesky_factor (v_m A) (v_m A) (fun i j => alpha * sum rops (v_n A) (fun k => m (v_addr SS A i k) * m (v_addr SS A j k)))%R (fun i j => m' (v_addr SS L i j)).
Proof.
  intros SS cc al alpha A C D L m HSS Hcc SP PP Ha Ind.
  destruct (C77_update_factor SS cc al alpha A 0%R C D L m (fun i j => m (v_addr SS C i j)) HSS Hcc SP PP ltac:(auto)) as (m' & E & [CF1 CF2] & _).
  { apply gram_pos_def; auto. }
  exists m'. split; auto. split; auto. intros i j H. rewrite CF1 by auto. unfold rank_k. lra.
Qed.
(** With a right-hand side: X solves (beta*C + alpha*A*A^T) * X = B. *)
Theorem C77_update_solve : forall SS cc al alpha A beta C D L B m c, 0 < SS -> 0 < cc -> syrk_pre SS cc al A C D -> potrf_pre SS cc al D L ->
  d_m B = v_m A -> allocated al (d_m B) (d_n B) (d_at B) -> distinct (d_m B) (d_n B) (d_at B) ->
  separate (d_m B) (d_n B) (d_at B) (nextMultiple (v_m A) (cc * SS)) (v_m A) (v_addr SS L) ->
  separate (d_m B) (d_n B) (d_at B) (v_m A) (v_m A) (v_addr SS D) ->
  (forall i j, i < v_m A -> j < v_m A -> c i j = c j i) -> (forall i j, lower (v_m A) (v_m A) i j -> m (v_addr SS C i j) = c i j) ->
  let S := rank_k alpha beta (v_n A) (fun i k => m (v_addr SS A i k)) c in
  pos_def (v_m A) S ->
  exists m', update_solve SS cc R rops al alpha A beta C D L B m = Ok m' /\
    forall i j, i < d_m B -> j < d_n B -> sum rops (d_m B) (fun k => S i k * m' (d_at B k j))%R = m (d_at B i j).
Proof.
  intros SS cc al alpha A beta C D L B m c HSS Hcc SP PP SB AB DB SL SD Sy Hc S PD.
  destruct (C24_syrk_ring SS cc R rops al alpha A beta C D m HSS Hcc rops_ring SP) as (m1 & E1 & V1 & F1).
  destruct (sp_szD _ _ _ _ _ _ SP) as [D1 D2].
  destruct (C58_cholesky_solve SS cc al D L B m1 S HSS Hcc PP) as (m' & E2 & V2 & _); rewrite ?D1, ?D2; auto.
  { intros i j H. rewrite V1 by auto. unfold S, rank_k. rewrite Hc by auto. reflexivity. }
  exists m'. split.
  - unfold update_solve. rewrite E1. exact E2.
  - intros i j Hi Hj. rewrite V2 by auto. apply F1. intros i' j' H X. unfold lower in H. apply (SD i j i' j'); auto; lia.
Qed.

(* ------------------------------------------------------------------ blocks *)
(** The square matrix A is factored in place; the widths of the leading blocks are multiples of the tile size. *)
Record block_pre (SS cc : nat) (al : alloc) (A : view) (ks : list nat) : Prop := {
  bp_A : dense_cm SS A; bp_sq : v_n A = v_m A;
  bp_in : v_i A + v_m A <= c_rows (v_cont A) /\ v_j A + v_m A <= c_cols (v_cont A);
  bp_P : potrf_pre SS cc al A A;
  bp_ks : Forall (fun k => k mod (cc * SS) = 0) ks; bp_sum : list_sum ks <= v_m A
}.

Lemma nextMultiple_sub : forall n k f, 0 < f -> k mod f = 0 -> k <= n -> k + nextMultiple (n - k) f = nextMultiple n f.
Proof.
  intros n k f Hf Hk Hn. unfold nextMultiple.
  assert (E : (n - k) mod f = n mod f).
  { apply Nat.mod_divides in Hk; [|lia]. destruct Hk as [q ->]. replace n with (n - f * q + q * f) at 2 by lia.
    rewrite Nat.mod_add by lia. reflexivity. }
  rewrite E. lia.
Qed.
Lemma sub_addr : forall SS af A r c m n i j, v_addr SS (subsubmatrix af A r c m n) i j = v_addr SS A (r + i) (c + j).
Proof. intros. unfold v_addr, subsubmatrix. cbn [v_cont v_i v_j]. rewrite !Nat.add_assoc. reflexivity. Qed.
Lemma mod_mul_SS : forall k cc SS, 0 < SS -> 0 < cc -> k mod (cc * SS) = 0 -> k mod SS = 0.
Proof.
  intros k cc SS HSS Hcc H. apply Nat.mod_divides in H; [|nia]. destruct H as [q ->].
  replace (cc * SS * q) with (cc * q * SS) by ring. apply Nat.mod_mul. lia.
Qed.

Section Blocks.
Variables (SS cc : nat) (al : alloc).
Hypothesis (HSS : 0 < SS) (Hcc : 0 < cc).

Lemma bp_first : forall A k ks, block_pre SS cc al A (k :: ks) -> potrf_pre SS cc al (subsubmatrix true A 0 0 (v_m A) k) (subsubmatrix true A 0 0 (v_m A) k).
Proof.
  intros A k ks [hA sq _ [pA _ (z1 & z2 & z3) aA _ dL sL] Hk Hs]. inversion Hk as [|? ? Hk0 _]; subst. cbn [list_sum fold_right] in Hs.
  assert (Hkn : k <= v_m A) by (unfold list_sum in Hs; cbn in Hs; lia).
  assert (HK : 0 < cc * SS) by nia. rewrite sq in *.
  assert (CM : aligned_cm SS (subsubmatrix true A 0 0 (v_m A) k)).
  { destruct pA as (H1 & H2 & H3). repeat split; auto. cbn [subsubmatrix v_i]. rewrite Nat.add_0_r. exact H3. }
  assert (NK : nextMultiple k (cc * SS) = k) by (apply nextMultiple_id; auto).
  destruct (nextMultiple_spec (v_m A) (cc * SS) HK) as (NM & _).
  assert (AL : allocated al (nextMultiple (v_m A) (cc * SS)) (nextMultiple k (cc * SS)) (v_addr SS (subsubmatrix true A 0 0 (v_m A) k))).
  { rewrite NK. intros i j Hi Hj. rewrite sub_addr. apply aA; lia. }
  constructor; cbn [subsubmatrix v_m v_n]; auto.
  - intros i j i' j' Hi Hj Hi' Hj' X. rewrite !sub_addr in X. apply dL in X; lia.
  - intros i j i' j' Hi Hj H X. rewrite !sub_addr in X. unfold lower in H. apply sL in X; unfold lower; lia.
Qed.
Lemma bp_update : forall A k ks, block_pre SS cc al A (k :: ks) -> let n := v_m A in let A2 := subsubmatrix true A k k (n - k) (n - k) in
  syrk_pre SS cc al (subsubmatrix true A k 0 (n - k) k) A2 A2.
Proof.
  intros A k ks [hA sq hin [pA _ (z1 & z2 & z3) aA _ dL sL] Hk Hs] n A2. inversion Hk as [|? ? Hk0 _]; subst.
  assert (Hkn : k <= n) by (unfold list_sum in Hs; cbn in Hs; unfold n; lia). fold n in sq, z1, z2, z3, aA, dL, sL.
  assert (HK : 0 < cc * SS) by nia. rewrite sq in *.
  assert (CM : forall c m' n', dense_cm SS (subsubmatrix true A k c m' n')).
  { intros. destruct hA as (H1 & H2 & H3 & H4). repeat split; auto. cbn [subsubmatrix v_i]. rewrite Nat.add_mod, H4 by lia.
    rewrite (mod_mul_SS k cc SS) by auto. apply Nat.mod_0_l. lia. }
  pose proof (nextMultiple_sub n k (cc * SS) HK Hk0 Hkn) as NS. destruct (nextMultiple_spec n (cc * SS) HK) as (NM & _).
  destruct (nextMultiple_spec (n - k) (cc * SS) HK) as (NM2 & _).
  constructor; unfold A2; try apply CM; cbn [subsubmatrix v_m v_n v_i v_j v_cont]; auto.
  - fold n in hin. lia.
  - intros i j Hi Hj. rewrite sub_addr. apply aA; lia.
  - intros i j Hi Hj. rewrite sub_addr. apply aA; lia.
  - intros i j H. rewrite sub_addr. unfold lower in H. apply aA; lia.
  - intros i j i' k' H Hi' Hk' X. rewrite !sub_addr in X. unfold lower in H. apply dL in X; lia.
  - intros i j i' j' H H' X. rewrite !sub_addr in X. unfold lower in H, H'. apply dL in X; lia.
Qed.
Lemma bp_rest : forall A k ks, block_pre SS cc al A (k :: ks) -> let n := v_m A in block_pre SS cc al (subsubmatrix true A k k (n - k) (n - k)) ks.
Proof.
  intros A k ks [hA sq hin [pA _ (z1 & z2 & z3) aA _ dL sL] Hk Hs] n. inversion Hk as [|? ? Hk0 Hks]; subst.
  assert (Hkn : k + list_sum ks <= n) by (unfold list_sum in *; cbn in Hs; unfold n; lia). fold n in sq, z1, z2, z3, aA, dL, sL, hin.
  assert (HK : 0 < cc * SS) by nia. rewrite sq in *.
  pose proof (nextMultiple_sub n k (cc * SS) HK Hk0 ltac:(lia)) as NS. destruct (nextMultiple_spec n (cc * SS) HK) as (NM & _).
  destruct (nextMultiple_spec (n - k) (cc * SS) HK) as (NM2 & _).
  assert (MI : (v_i A + k) mod SS = 0).
  { destruct hA as (H1 & H2 & H3 & H4). rewrite Nat.add_mod, H4 by lia. rewrite (mod_mul_SS k cc SS) by auto. apply Nat.mod_0_l. lia. }
  assert (AL : allocated al (nextMultiple (n - k) (cc * SS)) (nextMultiple (n - k) (cc * SS)) (v_addr SS (subsubmatrix true A k k (n - k) (n - k)))).
  { intros i j Hi Hj. rewrite sub_addr. apply aA; lia. }
  constructor; cbn [subsubmatrix v_m v_n v_i v_j v_cont]; auto; try lia.
  - destruct hA as (H1 & H2 & H3 & H4). repeat split; auto.
  - constructor; cbn [subsubmatrix v_m v_n]; auto.
    + destruct pA as (H1 & H2 & H3). repeat split; auto.
    + destruct pA as (H1 & H2 & H3). repeat split; auto.
    + intros i j i' j' Hi Hj Hi' Hj' X. rewrite !sub_addr in X. apply dL in X; lia.
    + intros i j i' j' Hi Hj H X. rewrite !sub_addr in X. unfold lower in H. apply dL in X; lia.
Qed.

(** If the lower triangle is that of g * g^T, the blocked factorisation finds g. *)
Lemma block_roundtrip : forall ks A m (g : nat -> nat -> R), block_pre SS cc al A ks -> (forall j, j < v_m A -> (0 < g j j)%R) ->
  (forall i j, lower (v_m A) (v_m A) i j -> m (v_addr SS A i j) = sum rops (v_m A) (fun k => lower_of rops g i k * lower_of rops g j k)%R) ->
  exists m', block_cholesky SS cc R rops al A ks m = Ok m' /\
    (forall i j, lower (v_m A) (v_m A) i j -> m' (v_addr SS A i j) = g i j) /\
    (forall x, (forall i j, lower (nextMultiple (v_m A) (cc * SS)) (v_m A) i j -> x <> v_addr SS A i j) -> m' x = m x).
Proof.
  induction ks as [|k ks IH]; intros A m g BP Hg Ha.
  - destruct BP as [hA sq hin P _ _]. cbn [block_cholesky].
    destruct (C60_potrf_roundtrip SS cc al A A m g HSS Hcc P) as [(m1 & E1 & V1) _]; rewrite ?sq; auto.
    destruct (C28_potrf_dense_ops SS cc R rops al A A m HSS Hcc P) as (m' & E2 & _ & F2).
    assert (m1 = m') as -> by (pose proof (eq_trans (eq_sym E1) E2) as X; injection X; auto).
    rewrite sq in *. exists m'. auto.
  - pose proof (bp_first A k ks BP) as P1. pose proof (bp_update A k ks BP) as P2. pose proof (bp_rest A k ks BP) as P3.
    destruct BP as [hA sq hin [pA _ (z1 & z2 & z3) aA _ dL sL] Hk Hs]. inversion Hk as [|? ? Hk0 _]; subst.
    cbv zeta in P2, P3. set (n := v_m A) in *. rewrite sq in *.
    assert (Hkn : k + list_sum ks <= n) by (unfold list_sum in *; cbn in Hs; lia).
    assert (HK : 0 < cc * SS) by nia.
    pose proof (nextMultiple_sub n k (cc * SS) HK Hk0 ltac:(lia)) as NS. destruct (nextMultiple_spec n (cc * SS) HK) as (NM & _).
    set (A1 := subsubmatrix true A 0 0 n k) in *. set (A2 := subsubmatrix true A k k (n - k) (n - k)) in *.
    set (A3 := subsubmatrix true A k 0 (n - k) k) in *.
    (* the first block of columns *)
    destruct (C28_potrf_dense_ops SS cc R rops al A1 A1 m HSS Hcc P1) as (m1 & E1 & _ & F1).
    assert (V1 : forall i j, lower n k i j -> m1 (v_addr SS A i j) = g i j).
    { destruct (C60_potrf_roundtrip SS cc al A1 A1 m g HSS Hcc P1) as [(m1' & E1' & V1) _].
      - intros j Hj. apply Hg. cbn in Hj. lia.
      - intros i j Hij. unfold A1 in *. cbn [subsubmatrix v_m v_n] in *. rewrite sub_addr, !Nat.add_0_l. unfold lower in *.
        rewrite Ha by lia. apply (S_trunc n k); [lia|]. intros l Hl. unfold lower_of at 2. destruct (Nat.leb_spec l j); [lia|]. cbn. ring.
      - pose proof (eq_trans (eq_sym E1') E1) as X. injection X as ->. intros i j Hij. specialize (V1 i j Hij). unfold A1 in V1. rewrite sub_addr in V1. exact V1. }
    assert (F1' : forall x, (forall i j, lower (nextMultiple n (cc * SS)) k i j -> x <> v_addr SS A i j) -> m1 x = m x).
    { intros x Hx. apply F1. intros i j Hij. unfold A1 in *. cbn [subsubmatrix v_m v_n] in Hij. rewrite sub_addr. apply Hx. exact Hij. }
    (* the update *)
    destruct (C24_syrk_ring SS cc R rops al (-1)%R A3 1%R A2 A2 m1 HSS Hcc rops_ring P2) as (m2 & E2 & V2 & F2).
    cbn [A3 subsubmatrix v_m v_n] in V2, F2.
    set (G := fun i j => g (k + i) (k + j)).
    assert (V2' : forall i j, lower (n - k) (n - k) i j -> m2 (v_addr SS A2 i j) =
              sum rops (n - k) (fun l => lower_of rops G i l * lower_of rops G j l)%R).
    { intros i j Hij. rewrite V2 by auto. unfold A2, A3. unfold lower in Hij.
      rewrite (sum_ext rops k _ (fun l => (lower_of rops g (k + i)%nat l * lower_of rops g (k + j)%nat l)%R)).
      2:{ intros l Hl. rewrite !sub_addr, !Nat.add_0_l. rewrite !V1 by (unfold lower; lia). unfold lower_of.
          rewrite !(proj2 (Nat.leb_le _ _)) by lia. reflexivity. }
      rewrite sub_addr, F1'.
      2:{ intros i' j' H' X. unfold lower in H'. apply dL in X; lia. }
      rewrite Ha by (unfold lower; lia). replace n with (k + (n - k)) at 1 by lia. rewrite (sum_split rops rops_ring).
      rewrite (sum_ext rops (n - k) (fun l => lower_of rops G i l * lower_of rops G j l)%R
        (fun l => (lower_of rops g (k + i)%nat (k + l)%nat * lower_of rops g (k + j)%nat (k + l)%nat)%R)).
      2:{ intros l Hl. unfold lower_of, G. destruct (Nat.leb_spec l i), (Nat.leb_spec (k + l) (k + i)), (Nat.leb_spec l j), (Nat.leb_spec (k + l) (k + j)); try lia; reflexivity. }
      cbn [oadd omul rops]. ring. }
    (* the rest *)
    destruct (IH A2 m2 G P3) as (m3 & E3 & V3 & F3).
    { intros j Hj. unfold G. apply Hg. cbn in Hj. lia. }
    { exact V2'. }
    cbn [A2 subsubmatrix v_m v_n] in V3, F3. fold A2 in V3, F3.
    exists m3. split; [|split].
    + cbn [block_cholesky]. cbv zeta. fold n A1 A2 A3. rewrite E1. cbn [bind]. change (om1 rops) with (-1)%R. change (o1 rops) with 1%R. rewrite E2. exact E3.
    + intros i j (H1 & H2 & H3). destruct (Nat.lt_ge_cases j k) as [Hj|Hj].
      * rewrite F3, F2.
        -- apply V1. unfold lower. lia.
        -- intros i' j' H' X. unfold A2 in X. rewrite sub_addr in X. unfold lower in H'. apply dL in X; lia.
        -- intros i' j' H' X. unfold A2 in X. rewrite sub_addr in X. unfold lower in H'. apply dL in X; lia.
      * assert (H' : lower (n - k) (n - k) (i - k) (j - k)) by (unfold lower; lia).
        specialize (V3 _ _ H'). unfold A2 in V3. rewrite sub_addr in V3. unfold G in V3. replace (k + (i - k)) with i in V3 by lia. replace (k + (j - k)) with j in V3 by lia. exact V3.
    + intros x Hx. rewrite F3.
      2:{ intros i j Hij. unfold A2. rewrite sub_addr. apply Hx. unfold lower in *. lia. }
      rewrite F2.
      2:{ intros i j Hij. unfold A2. rewrite sub_addr. apply Hx. unfold lower in *. lia. }
      apply F1'. intros i j Hij. apply Hx. unfold lower in *. lia.
Qed.

End Blocks.

(** In exact (real) arithmetic the blocked factorisation of a positive definite matrix and potrf of the whole matrix complete with the same
    lower triangle, the Cholesky factor, whatever the block sizes; neither modifies anything outside the lower triangle (including the
    padding below it). *)
Theorem C77_block_cholesky : forall SS cc al A ks m a, 0 < SS -> 0 < cc -> block_pre SS cc al A ks ->
  pos_def (v_m A) a -> (forall i j, lower (v_m A) (v_m A) i j -> m (v_addr SS A i j) = a i j) ->
  exists m1 m2, block_cholesky SS cc R rops al A ks m = Ok m1 /\ potrf_dense SS cc (cc * SS) R rops al A A m = Ok m2 /\
    cholesky_factor (v_m A) (v_m A) a (fun i j => m1 (v_addr SS A i j)) /\
    (forall i j, lower (v_m A) (v_m A) i j -> m1 (v_addr SS A i j) = m2 (v_addr SS A i j)) /\
    (forall x, (forall i j, lower (nextMultiple (v_m A) (cc * SS)) (v_m A) i j -> x <> v_addr SS A i j) -> m1 x = m x /\ m2 x = m x).
Proof.
  intros SS cc al A ks m a HSS Hcc BP PD Ha. pose proof BP as [hA sq hin P _ _].
  destruct (C28_potrf_dense_ops SS cc R rops al A A m HSS Hcc P) as (m2 & E2 & _ & F2).
  destruct (C28_potrf_dense_real SS cc al A A m a HSS Hcc P) as (m2' & E2' & [CF1 CF2]); rewrite ?sq; auto.
  assert (m2' = m2) as -> by (pose proof (eq_trans (eq_sym E2') E2) as X; injection X; auto). rewrite sq in *.
  destruct (block_roundtrip SS cc al HSS Hcc ks A m (fun i j => m2 (v_addr SS A i j)) BP) as (m1 & E1 & V1 & F1); auto.
  { intros i j H. rewrite Ha, CF1 by auto. reflexivity. }
  exists m1, m2. split; auto. split; auto. split; [split|split].
  - intros i j H. rewrite <- CF1 by auto. apply sum_ext. intros k Hk. unfold lower in H. unfold lower_of.
    destruct (Nat.leb_spec k i), (Nat.leb_spec k j); auto; rewrite ?V1 by (unfold lower; lia); reflexivity.
  - intros j Hj. rewrite V1 by (unfold lower; lia). auto.
  - exact V1.
  - auto.
Qed.

(* ------------------------------------------------------------------ examples *)
(** A 4-by-4 matrix in the elements 0 to 15, SIMD size 2, blocks of two columns. *)
Definition uA : container := Cont Dense false columnMajor 4 4 0.
Definition u_al (a : nat) : bool := a <? 16.
Example C77_example_blocks : block_pre 2 1 u_al (whole uA) [2].
Proof.
  assert (P : potrf_pre 2 1 u_al (whole uA) (whole uA)).
  { apply conts_pre; [lia| |reflexivity]. unfold potrf_conts. cbn [uA c_base c_so c_rows c_cols]. repeat split; auto. }
  constructor; auto; cbn [whole uA v_i v_j v_m v_n v_cont c_rows c_cols]; try lia.
  - repeat split.
  - cbn. lia.
Qed.
(** A = L * L^T with L = [2; 1 3; 1 1 2; 2 2 2 4], in double, in two blocks: everything is exact. *)
Definition u_m (a : nat) : Float_Proofs.b64 := Properties_Round.d64 (nth a [4;2;2;4; 0;10;4;8; 0;0;6;8; 0;0;0;28]%Z 0%Z).
Example C77_example_run :
  match block_cholesky 2 1 Float_Proofs.b64 Float_Proofs.b64ops u_al (whole uA) [2] u_m with
  | Ok m' => forallb (fun p => oeqb Float_Proofs.b64ops (m' (fst p)) (Properties_Round.d64 (snd p)))
               (combine (seq 0 16) [2;1;1;2; 0;3;1;2; 0;0;2;2; 0;0;0;4]%Z)
  | _ => false end = true.
Proof. vm_compute. reflexivity. Qed.
(** C in the elements 0 to 3, updated in place with A in 16 to 19, D factored in place, SIMD size 2; C = [2 1; 1 2] is positive definite
    (C28_example_pos_def), one right-hand side in 32 and 33. *)
Definition uC : container := Cont Dense false columnMajor 2 2 0.
Definition uX : container := Cont Dense false columnMajor 2 2 16.
Definition uB := DMat 2 1 (fun i j => 32 + i).
Definition v_al (a : nat) : bool := c_alloc 2 uC a || c_alloc 2 uX a || ((32 <=? a) && (a <? 34)).
Example C77_example_update : syrk_pre 2 1 v_al (whole uX) (whole uC) (whole uC) /\ potrf_pre 2 1 v_al (whole uC) (whole uC) /\
  (d_m uB = v_m (whole uX) /\ allocated v_al (d_m uB) (d_n uB) (d_at uB) /\ distinct (d_m uB) (d_n uB) (d_at uB)) /\
  separate (d_m uB) (d_n uB) (d_at uB) (nextMultiple (v_m (whole uX)) (1 * 2)) (v_m (whole uX)) (v_addr 2 (whole uC)) /\
  separate (d_m uB) (d_n uB) (d_at uB) (v_m (whole uX)) (v_m (whole uX)) (v_addr 2 (whole uC)).
Proof.
  assert (L : forall c, c = uC \/ c = uX -> forall a, c_alloc 2 c a = true -> v_al a = true).
  { intros c H a Ha. unfold v_al. destruct H as [-> | ->]; rewrite Ha, ?orb_true_r; reflexivity. }
  split; [|split; [|split]].
  - constructor; try (repeat split; cbn; lia).
    + intros i j Hi Hj. change (nextMultiple (v_m (whole uX)) (1 * 2)) with 2 in *. change (v_n (whole uX)) with 2 in *.
      destruct i as [|[|]], j as [|[|]]; try lia; reflexivity.
    + intros i j Hi Hj. change (nextMultiple (v_m (whole uX)) (1 * 2)) with 2 in *. change (v_m (whole uX)) with 2 in *.
      destruct i as [|[|]], j as [|[|]]; try lia; reflexivity.
    + intros i j (_ & Hi & Hj). change (v_m (whole uX)) with 2 in *. destruct i as [|[|]], j as [|[|]]; try lia; reflexivity.
    + intros i j i' k (_ & Hi & Hj) Hi' Hk. change (v_m (whole uX)) with 2 in *. change (v_n (whole uX)) with 2 in *.
      destruct i as [|[|]], j as [|[|]], i' as [|[|]], k as [|[|]]; try lia; vm_compute; discriminate.
    + intros i j i' j' (_ & Hi & Hj) (_ & Hi' & Hj'). change (v_m (whole uX)) with 2 in *.
      destruct i as [|[|]], j as [|[|]], i' as [|[|]], j' as [|[|]]; try lia; vm_compute; intros X; try discriminate; auto.
  - apply conts_pre; [lia| |reflexivity]. unfold potrf_conts. repeat split; auto; apply L; auto.
  - split; [reflexivity|]. split.
    + intros i j Hi Hj. change (d_m uB) with 2 in Hi. change (d_n uB) with 1 in Hj. destruct i as [|[|]]; try lia; reflexivity.
    + intros i j i' j' Hi Hj Hi' Hj' X. cbn in *. lia.
  - split; intros i j i' j' Hi Hj Hi' Hj'; cbn in Hi, Hj; change (nextMultiple (v_m (whole uX)) (1 * 2)) with 2 in *; change (v_m (whole uX)) with 2 in *;
      destruct i as [|[|]], i' as [|[|]], j' as [|[|]]; try lia; vm_compute; discriminate.
Qed.
(** The rows of [1 0; 0 1] are linearly independent. *)
Example C77_example_independent : forall v : nat -> R, (exists i, i < 2 /\ v i <> 0%R) ->
  exists k, k < 2 /\ sum rops 2 (fun i => v i * (if i =? k then 1 else 0))%R <> 0%R.
Proof.
  intros v (i & Hi & Hv). exists i. split; auto. destruct i as [|[|]]; [| |lia]; cbn; intros X; apply Hv; lra.
Qed.
