(** Properties_Solve.v -- C58: linear systems solved by factoring and substituting. *)
From Coq Require Import Arith ZArith Lia List Bool PeanoNat Reals Lra QArith Qcanon.
From Verif Require Import Base Base_Proofs Spec Algebra_Proofs Cholesky_Proofs Instances Scan_Proofs Layout_Model Layout_Proofs Arg_Proofs Gemm_Model Tri_Model Tri_Proofs Properties_Tri
  LU_Model LU_Theory LU_Proofs Properties_LU Getrf_Spec Properties_Getrf Potrf_Model Properties_Trmm Properties_Potrf Round_Spec Round_Proofs Float_Proofs Properties_Round.
From Flocq Require Import IEEE754.BinarySingleNaN.
Import ListNotations.
Local Open Scope nat_scope.

(** Client programs. *)
Definition as_dmat (SS : nat) (A : marg) : dmat := DMat (g_rows A) (g_cols A) (g_addr SS A).
Definition transposed (A : dmat) : dmat := DMat (d_n A) (d_m A) (fun i j => d_at A j i).
(** getrf(A, ipiv); laswp(B, 0, n, ipiv); trsm<Lower, unit>(A, B, B); trsm<Upper>(A, B, B) *)
Definition lu_solve (SS cc : nat) T (O : Ops T) (al : alloc) (A : marg) (B : dmat) (s : mem T * piv) : res (mem T * piv) :=
  s <- getrf_cm SS cc T O al A s ;;
  m <- laswp T al B 0 (g_rows A) (snd s) (fst s) ;;
  m <- trsm T O al Lower true (as_dmat SS A) B B m ;;
  m <- trsm T O al Upper false (as_dmat SS A) B B m ;;
  Ok (m, snd s).
(** potrf(A, L); trsm<Lower>(L, B, B); trsm<Upper>(trans(L), B, B) *)
Definition cholesky_solve (SS cc : nat) T (O : Ops T) (al : alloc) (A L : view) (B : dmat) (m : mem T) : res (mem T) :=
  m <- potrf_dense SS cc (cc * SS) T O al A L m ;;
  let L := DMat (v_m L) (v_n L) (v_addr SS L) in
  m <- trsm T O al Lower false L B B m ;;
  trsm T O al Upper false (transposed L) B B m.

(** A square, B with as many rows, in other memory. *)
Record lu_solve_pre (SS cc : nat) (al : alloc) (A : marg) (B : dmat) : Prop := {
  sv_A : getrf_pre SS cc al A; sv_sq : g_cols A = g_rows A; sv_B : d_m B = g_rows A;
  sv_al : allocated al (d_m B) (d_n B) (d_at B); sv_distinct : distinct (d_m B) (d_n B) (d_at B);
  sv_sep : separate (d_m B) (d_n B) (d_at B) (g_rows A) (g_rows A) (g_addr SS A)
}.

(** The interchanges permute the rows of every matrix in the same way. *)
Lemma interchanged_perm : forall T (p : nat -> nat) n m, n <= m -> (forall l, l < n -> p l < m) ->
  exists s s', (forall i, i < m -> s i < m /\ s' i < m /\ s (s' i) = i /\ s' (s i) = i) /\
    forall (a : nat -> nat -> T) i j, interchanged p 0 n a i j = a (s i) j.
Proof.
  intros T p n m. induction n as [|n IH]; intros Hn Hp.
  - exists (fun i => i), (fun i => i). auto.
  - destruct IH as (s & s' & S1 & S2); [lia|auto|]. set (w := interchange (0 + n) (p (0 + n))).
    assert (W : forall i, i < m -> w i < m) by (intros i Hi; apply interchange_lt; auto; lia).
    exists (fun i => s (w i)), (fun i => w (s' i)). split.
    + intros i Hi. pose proof (W i Hi) as Wi. destruct (S1 i Hi) as (A1 & A2 & A3 & A4). destruct (S1 (w i) Wi) as (B1 & B2 & B3 & B4).
      split; auto. split; auto. split; [unfold w; rewrite interchange_invol; auto|]. rewrite B4. apply interchange_invol.
    + intros a i j. cbn [interchanged]. rewrite S2. reflexivity.
Qed.

Lemma solve_trsm_pre : forall al ul unit A B, d_m A = d_m B -> d_n A = d_m B -> allocated al (d_m B) (d_m B) (d_at A) ->
  allocated al (d_m B) (d_n B) (d_at B) -> distinct (d_m B) (d_n B) (d_at B) -> separate (d_m B) (d_n B) (d_at B) (d_m B) (d_m B) (d_at A) ->
  trsm_pre al ul unit A B B.
Proof.
  intros al ul unit A B H1 H2 AA AB DB SEP. constructor; auto.
Qed.

Section Exact.
Context {T : Type} (O : Ops T) (RL : ring_laws O).
Lemma two_factors : forall n (a l u : nat -> nat -> T) (x y b : nat -> T) i,
  (forall k, k < n -> a i k = sum O n (fun c => omul O (l i c) (u c k))) ->
  (forall c, c < n -> sum O n (fun k => omul O (u c k) (x k)) = y c) ->
  sum O n (fun c => omul O (l i c) (y c)) = b i ->
  sum O n (fun k => omul O (a i k) (x k)) = b i.
Proof.
  intros n a l u x y b i Ha Hy Hb. rewrite <- Hb.
  rewrite (sum_ext O n _ (fun k => sum O n (fun c => omul O (l i c) (omul O (u c k) (x k))))).
  2:{ intros k Hk. rewrite Ha by auto. rewrite (rl_mul_comm O RL), <- (sum_scale O RL). apply (sum_ext O). intros c Hc.
      rewrite (rl_mul_comm O RL (x k)), <- (rl_mul_assoc O RL). reflexivity. }
  rewrite (sum_swap O RL). apply (sum_ext O). intros c Hc. rewrite (sum_scale O RL), Hy by auto. reflexivity.
Qed.
End Exact.

(** Exact arithmetic: A * X = B for the original contents of A and B, unless the columns of A are linearly dependent. *)
Theorem C58_lu_solve : forall SS cc T (O : Ops T) al A B m p, 0 < SS -> 0 < cc -> exact_arith O -> lu_solve_pre SS cc al A B ->
  ~ dependent_columns O (g_rows A) (g_rows A) (fun i j => m (g_addr SS A i j)) ->
  exists m' p', lu_solve SS cc T O al A B (m, p) = Ok (m', p') /\
    (forall i j, i < d_m B -> j < d_n B -> sum O (d_m B) (fun k => omul O (m (g_addr SS A i k)) (m' (d_at B k j))) = m (d_at B i j)) /\
    (forall a, (forall i j, i < g_rows A -> j < g_cols A -> a <> g_addr SS A i j) -> (forall i j, i < d_m B -> j < d_n B -> a <> d_at B i j) -> m' a = m a).
Proof.
  intros SS cc T O al A B m p HSS Hcc XA [PA SQ SB AB DB SEP] ND. pose proof XA as [FL _]. pose proof (fl_ring O FL) as RL.
  set (n := g_rows A) in *.
  assert (MIN : min (g_rows A) (g_cols A) = n) by (rewrite SQ; fold n; lia).
  destruct (C36_getrf_column_major SS cc T O al A m p HSS Hcc XA PA) as (m1 & p1 & E1 & (LP & LD & _ & LF) & FR1 & _).
  { rewrite MIN. exact ND. }
  rewrite MIN in *. fold n in LP, LF. rewrite SQ in LF, FR1. fold n in LF, FR1.
  assert (AA : allocated al n n (g_addr SS A)) by (destruct PA as [[] _]; rewrite SQ in lp_al; auto).
  destruct (C34_laswp T al B 0 n p1 m1 DB AB) as (m2 & E2 & U2 & V2); [lia|lia|intros k Hk; rewrite SB; apply LP; lia|].
  assert (TP : forall ul unit, trsm_pre al ul unit (as_dmat SS A) B B).
  { intros ul unit. apply solve_trsm_pre; cbn [as_dmat d_m d_n d_at]; auto.
    - rewrite SQ. auto.
    - rewrite SB. exact AA.
    - rewrite SB in SEP |- *. exact SEP. }
  assert (K1 : forall i j, i < n -> j < d_n B -> m1 (d_at B i j) = m (d_at B i j)).
  { intros i j Hi Hj. apply FR1. intros i' j' Hi' Hj'. apply SEP; auto; lia. }
  assert (K2 : forall i j, i < n -> j < n -> m2 (g_addr SS A i j) = m1 (g_addr SS A i j)).
  { intros i j Hi Hj. apply V2. intros i' j' [Hi' Hj'] X. apply (SEP i' j' i j); auto. }
  destruct (C31_trsm_field T O al Lower true (as_dmat SS A) B B m2 FL) as (m3 & E3 & V3 & F3).
  { apply TP. }
  { discriminate. }
  assert (K3 : forall i j, i < n -> j < n -> m3 (g_addr SS A i j) = m1 (g_addr SS A i j)).
  { intros i j Hi Hj. rewrite F3; auto. intros i' j' Hi' Hj' X. apply (SEP i' j' i j); auto. }
  destruct (C31_trsm_field T O al Upper false (as_dmat SS A) B B m3 FL) as (m4 & E4 & V4 & F4).
  { apply TP. }
  { intros _ i Hi. cbn [as_dmat d_at]. rewrite K3 by lia. apply LD. lia. }
  exists m4, p1. split.
  { unfold lu_solve. rewrite E1. cbn [bind fst snd]. fold n. rewrite E2. cbn [bind]. rewrite E3. cbn [bind]. rewrite E4. reflexivity. }
  split.
  - assert (LPn : forall l, l < n -> p1 l < n) by (intros l Hl; apply LP; auto).
    destruct (interchanged_perm T p1 n n (Nat.le_refl n) LPn) as (s & s' & S1 & S2).
    assert (PAX : forall i j, i < n -> j < d_n B -> sum O n (fun k => omul O (m (g_addr SS A (s i) k)) (m4 (d_at B k j))) = m (d_at B (s i) j)).
    { intros i j Hi Hj.
      apply (two_factors O RL n (fun i k => m (g_addr SS A (s i) k)) (unit_lower O (fun i j => m1 (g_addr SS A i j))) (upper_trap O (fun i j => m1 (g_addr SS A i j)))
        (fun k => m4 (d_at B k j)) (fun k => m3 (d_at B k j)) (fun i => m (d_at B (s i) j))).
      - intros k Hk. rewrite <- LF by auto. rewrite S2. reflexivity.
      - intros c Hc. rewrite SB in V4. rewrite <- V4 by auto. apply (sum_ext O). intros k Hk. cbn [as_dmat d_at]. f_equal.
        unfold triangle, upper_trap. rewrite !K3 by auto. destruct (Nat.eqb_spec c k) as [->|]; [rewrite Nat.leb_refl; auto|].
        destruct (Nat.leb_spec c k), (Nat.ltb_spec c k); auto; lia.
      - assert (R : m2 (d_at B i j) = m (d_at B (s i) j)).
        { rewrite U2 by (split; lia). rewrite Nat.sub_0_r, S2. apply K1; auto. apply S1; auto. }
        rewrite SB in V3. rewrite <- R, <- V3 by auto. apply (sum_ext O). intros k Hk. cbn [as_dmat d_at]. f_equal.
        unfold triangle, unit_lower. rewrite !K2 by auto. rewrite Nat.eqb_sym. destruct (Nat.eqb_spec i k) as [->|]; [rewrite Nat.ltb_irrefl; auto|]. reflexivity. }
    intros i j Hi Hj. rewrite SB in *. destruct (S1 i Hi) as (_ & S3 & S4 & _). specialize (PAX (s' i) j S3 Hj). rewrite S4 in PAX. exact PAX.
  - intros a Ha Hb. rewrite F4, F3 by auto. rewrite V2 by (intros i j [Hi Hj]; auto). apply FR1. rewrite SQ in Ha. exact Ha.
Qed.
(** ... in which case invalid_argument is thrown. *)
Theorem C58_lu_solve_throws : forall SS cc T (O : Ops T) al A B m p, 0 < SS -> 0 < cc -> exact_arith O -> lu_solve_pre SS cc al A B ->
  dependent_columns O (g_rows A) (g_rows A) (fun i j => m (g_addr SS A i j)) -> lu_solve SS cc T O al A B (m, p) = Throw InvalidArgument.
Proof.
  intros SS cc T O al A B m p HSS Hcc XA [PA SQ _ _ _ _] D.
  assert (E : getrf_cm SS cc T O al A (m, p) = Throw InvalidArgument).
  { apply C36_getrf_throws_iff; auto. rewrite SQ, Nat.min_id. exact D. }
  unfold lu_solve. rewrite E. reflexivity.
Qed.

(** Real arithmetic, A symmetric and positive definite (only its lower triangle is read): A * X = B. *)
Theorem C58_cholesky_solve : forall SS cc al A L B m a, 0 < SS -> 0 < cc -> potrf_pre SS cc al A L -> v_n A = v_m A -> d_m B = v_m A ->
  allocated al (d_m B) (d_n B) (d_at B) -> distinct (d_m B) (d_n B) (d_at B) ->
  separate (d_m B) (d_n B) (d_at B) (nextMultiple (v_m A) (cc * SS)) (v_n A) (v_addr SS L) ->
  pos_def (v_n A) a -> (forall i j, lower (v_m A) (v_n A) i j -> m (v_addr SS A i j) = a i j) ->
  exists m', cholesky_solve SS cc R rops al A L B m = Ok m' /\
    (forall i j, i < d_m B -> j < d_n B -> sum rops (d_m B) (fun k => a i k * m' (d_at B k j))%R = m (d_at B i j)) /\
    (forall x, (forall i j, lower (nextMultiple (v_m A) (cc * SS)) (v_n A) i j -> x <> v_addr SS L i j) ->
               (forall i j, i < d_m B -> j < d_n B -> x <> d_at B i j) -> m' x = m x).
Proof.
  intros SS cc al A L B m a HSS Hcc P SQ SB AB DB SEP PD Ha. pose proof rops_field as FL. pose proof (fl_ring rops FL) as RL.
  destruct (C28_potrf_dense_ops SS cc R rops al A L m HSS Hcc P) as (m1 & E1 & _ & F1).
  destruct (C28_potrf_dense_real SS cc al A L m a HSS Hcc P PD Ha) as (m1' & E1' & CF1 & CF2).
  assert (m1' = m1) as -> by (pose proof (eq_trans (eq_sym E1') E1) as X; injection X; auto). clear E1'.
  destruct P as [_ _ (z1 & z2 & z3) _ aL dL _].
  assert (HK : 0 < cc * SS) by nia. destruct (nextMultiple_spec (v_m A) (cc * SS) HK) as (NM & _).
  destruct (nextMultiple_spec (v_n A) (cc * SS) HK) as (NN & _).
  set (LL := DMat (v_m L) (v_n L) (v_addr SS L)). set (n := v_m A) in *.
  assert (TPL : trsm_pre al Lower false LL B B).
  { apply solve_trsm_pre; cbn [LL d_m d_n d_at]; auto; try congruence.
    - intros i j Hi Hj. apply aL; lia.
    - intros i j i' j' Hi Hj Hi' Hj'. apply SEP; lia. }
  assert (TPU : trsm_pre al Upper false (transposed LL) B B).
  { apply solve_trsm_pre; cbn [LL transposed d_m d_n d_at]; auto; try congruence.
    - intros i j Hi Hj. apply aL; lia.
    - intros i j i' j' Hi Hj Hi' Hj'. apply SEP; lia. }
  destruct (C31_trsm_field R rops al Lower false LL B B m1 FL TPL) as (m2 & E2 & V2 & F2).
  { intros _ i Hi. cbn. apply Rgt_not_eq, CF2. lia. }
  assert (K2 : forall i j, i < n -> j < n -> m2 (v_addr SS L i j) = m1 (v_addr SS L i j)).
  { intros i j Hi Hj. rewrite F2; auto. intros i' j' Hi' Hj' X. apply (SEP i' j' i j); auto; lia. }
  destruct (C31_trsm_field R rops al Upper false (transposed LL) B B m2 FL TPU) as (m3 & E3 & V3 & F3).
  { intros _ i Hi. cbn. rewrite K2 by lia. apply Rgt_not_eq, CF2. lia. }
  exists m3. split.
  { unfold cholesky_solve. rewrite E1. cbn [bind]. fold LL. rewrite E2. cbn [bind]. exact E3. }
  split.
  - intros i j Hi Hj. set (l := lower_of rops (fun i j => m1 (v_addr SS L i j))).
    apply (two_factors rops RL (d_m B) a l (fun c k => l k c) (fun k => m3 (d_at B k j)) (fun k => m2 (d_at B k j)) (fun i => m (d_at B i j))).
    + intros k Hk. destruct (Nat.le_gt_cases k i) as [H|H].
      * rewrite <- (CF1 i k) by (unfold lower; lia). rewrite SB, SQ. reflexivity.
      * destruct PD as [Sy _]. rewrite Sy by lia. rewrite <- (CF1 k i) by (unfold lower; lia). rewrite SB, SQ.
        apply (sum_ext rops). intros c _. apply Rmult_comm.
    + intros c Hc. rewrite <- V3 by auto. apply (sum_ext rops). intros k Hk. f_equal.
      cbn [transposed LL d_at]. unfold l, lower_of, triangle. rewrite !K2 by lia. destruct (Nat.eqb_spec c k) as [->|]; [rewrite Nat.leb_refl; auto|].
      destruct (Nat.leb_spec c k), (Nat.ltb_spec c k); auto; lia.
    + assert (R : m1 (d_at B i j) = m (d_at B i j)).
      { apply F1. intros i' j' (H1 & H2 & H3). apply SEP; lia. }
      rewrite <- R, <- V2 by auto. apply (sum_ext rops). intros k Hk. f_equal. cbn [LL d_at]. unfold l, lower_of, triangle.
      destruct (Nat.eqb_spec i k) as [->|]; [rewrite Nat.leb_refl; auto|].
      destruct (Nat.leb_spec k i), (Nat.ltb_spec k i); auto; lia.
  - intros x Hx Hb. rewrite F3, F2 by auto. apply F1. exact Hx.
Qed.

(** ** Rounded arithmetic *)
Section Residual.
Local Open Scope R_scope.
Lemma Rsum_swap : forall n m (f : nat -> nat -> R), Rsum n (fun i => Rsum m (f i)) = Rsum m (fun j => Rsum n (fun i => f i j)).
Proof.
  induction n as [|n IH]; intros m f; cbn [Rsum]; [rewrite Rsum_const; ring|]. rewrite IH, <- Rsum_plus. reflexivity.
Qed.
Lemma residual : forall n (a l u : nat -> nat -> R) (x y b : nat -> R) i d dg (e1 e3 : nat -> R) e2, 0 <= d ->
  (forall k, (k < n)%nat -> Rabs (a i k - Rsum n (fun c => l i c * u c k)) <= dg * Rsum n (fun c => Rabs (l i c * u c k)) + e1 k) ->
  (forall c, (c < n)%nat -> Rabs (y c - Rsum n (fun k => u c k * x k)) <= d * Rsum n (fun k => Rabs (u c k * x k)) + e3 c) ->
  Rabs (b i - Rsum n (fun c => l i c * y c)) <= d * Rsum n (fun c => Rabs (l i c * y c)) + e2 ->
  Rabs (b i - Rsum n (fun k => a i k * x k)) <=
    (d * (2 + d) + dg) * Rsum n (fun k => Rsum n (fun c => Rabs (l i c) * Rabs (u c k) * Rabs (x k))) +
    (e2 + (1 + d) * Rsum n (fun c => Rabs (l i c) * e3 c) + Rsum n (fun k => e1 k * Rabs (x k))).
Proof.
  intros n a l u x y b i d dg e1 e3 e2 Hd Ha Hy Hb.
  set (S := Rsum n (fun k => Rsum n (fun c => Rabs (l i c) * Rabs (u c k) * Rabs (x k)))).
  set (Tc := fun c => Rsum n (fun k => Rabs (u c k * x k))).
  assert (HS : Rsum n (fun c => Rabs (l i c) * Tc c) = S).
  { unfold S. rewrite (Rsum_swap n n (fun k c => Rabs (l i c) * Rabs (u c k) * Rabs (x k))). apply Rsum_ext. intros c _. unfold Tc. rewrite <- Rsum_scale.
    apply Rsum_ext. intros k _. rewrite Rabs_mult. ring. }
  set (E3 := Rsum n (fun c => Rabs (l i c) * e3 c)). set (E1 := Rsum n (fun k => e1 k * Rabs (x k))).
  assert (Y : forall c, (c < n)%nat -> Rabs (y c) <= (1 + d) * Tc c + e3 c).
  { intros c Hc. specialize (Hy c Hc). fold (Tc c) in Hy. assert (Rabs (Rsum n (fun k => u c k * x k)) <= Tc c) by apply Rsum_abs.
    replace (y c) with ((y c - Rsum n (fun k => u c k * x k)) + Rsum n (fun k => u c k * x k)) by ring. eapply Rle_trans; [apply Rabs_triang|]. lra. }
  assert (P1 : Rsum n (fun c => Rabs (l i c * y c)) <= (1 + d) * S + E3).
  { rewrite <- HS. unfold E3. rewrite <- Rsum_scale, <- Rsum_plus. apply Rsum_le. intros c Hc. rewrite Rabs_mult.
    pose proof (Rmult_le_compat_l _ _ _ (Rabs_pos (l i c)) (Y c Hc)). lra. }
  assert (P2 : Rabs (Rsum n (fun c => l i c * (y c - Rsum n (fun k => u c k * x k)))) <= d * S + E3).
  { eapply Rle_trans; [apply Rsum_abs|]. rewrite <- HS. unfold E3. rewrite <- Rsum_scale, <- Rsum_plus. apply Rsum_le. intros c Hc. rewrite Rabs_mult.
    pose proof (Rmult_le_compat_l _ _ _ (Rabs_pos (l i c)) (Hy c Hc)) as X. fold (Tc c) in X. lra. }
  assert (P3 : Rabs (Rsum n (fun k => (a i k - Rsum n (fun c => l i c * u c k)) * x k)) <= dg * S + E1).
  { eapply Rle_trans; [apply Rsum_abs|]. unfold S, E1. rewrite <- Rsum_scale, <- Rsum_plus. apply Rsum_le. intros k Hk. rewrite Rabs_mult.
    pose proof (Rmult_le_compat_r _ _ _ (Rabs_pos (x k)) (Ha k Hk)) as X.
    replace (Rsum n (fun c => Rabs (l i c) * Rabs (u c k) * Rabs (x k))) with (Rsum n (fun c => Rabs (l i c * u c k)) * Rabs (x k)); [lra|].
    rewrite Rmult_comm, <- Rsum_scale. apply Rsum_ext. intros c _. rewrite Rabs_mult. ring. }
  assert (ID : b i - Rsum n (fun k => a i k * x k) =
    (b i - Rsum n (fun c => l i c * y c)) + Rsum n (fun c => l i c * (y c - Rsum n (fun k => u c k * x k))) -
    Rsum n (fun k => (a i k - Rsum n (fun c => l i c * u c k)) * x k)).
  { rewrite (Rsum_ext n (fun c => l i c * (y c - _)) (fun c => l i c * y c - Rsum n (fun k => l i c * u c k * x k))).
    2:{ intros c _. rewrite Rmult_minus_distr_l, <- Rsum_scale. f_equal. apply Rsum_ext. intros; ring. }
    rewrite (Rsum_ext n (fun k => (a i k - _) * x k) (fun k => a i k * x k - Rsum n (fun c => l i c * u c k * x k))).
    2:{ intros k _. rewrite Rmult_minus_distr_r. f_equal. rewrite Rmult_comm, <- Rsum_scale. apply Rsum_ext. intros; ring. }
    rewrite !Rsum_minus, (Rsum_swap n n (fun c k => l i c * u c k * x k)). ring. }
  rewrite ID. unfold Rminus at 1. eapply Rle_trans; [apply Rabs_triang|]. rewrite Rabs_Ropp. eapply Rle_trans; [apply Rplus_le_compat_r, Rabs_triang|].
  pose proof (Rmult_le_compat_l d _ _ Hd P1). fold E1 E3. lra.
Qed.
End Residual.

Section Split.
Local Open Scope R_scope.
Lemma Rsum_0 : forall n f, (forall k, (k < n)%nat -> f k = 0) -> Rsum n f = 0.
Proof. intros n f H. rewrite (Rsum_ext n f (fun _ => 0)) by auto. rewrite Rsum_const. ring. Qed.
Lemma Rsum_from : forall n l f, (l < n)%nat -> (forall k, (k < l)%nat -> f k = 0) ->
  Rsum n f = Rsum (n - (l + 1)) (fun c => f (l + 1 + c)%nat) + f l.
Proof.
  intros n l f Hl H. replace n with (l + 1 + (n - (l + 1)))%nat at 1 by lia. rewrite Rsum_app. replace (l + 1)%nat with (S l) at 1 by lia.
  cbn [Rsum]. rewrite (Rsum_0 l f) by auto. ring.
Qed.
Lemma Rsum_upto : forall n i f, (i < n)%nat -> (forall k, (i < k < n)%nat -> f k = 0) -> Rsum n f = Rsum i f + f i.
Proof.
  intros n i f Hi H. replace n with (S i + (n - (S i)))%nat by lia. rewrite Rsum_app, (Rsum_0 (n - S i)); [cbn [Rsum]; ring|].
  intros k Hk. apply H. lia.
Qed.
End Split.

(** What the returned X solves when every operation rounds (u: unit roundoff, eta: underflow unit; with u = eta = 0 this is P*A*X = P*B).  The factors are
    those left in A; P is given by the returned pivot indices. *)
Theorem C58_lu_solve_rounded : forall SS cc T (O : Ops T) val fin u eta al A B m p m' p', rounded O val fin u eta -> 0 < SS -> 0 < cc ->
  lu_solve_pre SS cc al A B -> lu_solve SS cc T O al A B (m, p) = Ok (m', p') ->
  let n := g_rows A in let F i j := m' (g_addr SS A i j) in let X k j := m' (d_at B k j) in
  (forall i j, i < n -> j < n -> fin (F i j) = true) -> (forall i j, i < n -> j < d_n B -> fin (X i j) = true) ->
  let L := unit_lower rops (fun i j => val (F i j)) in let U := upper_trap rops (fun i j => val (F i j)) in
  let PA := interchanged p' 0 n (fun i j => m (g_addr SS A i j)) in let PB := interchanged p' 0 n (fun i j => m (d_at B i j)) in
  let NB := cc * SS in let g := n / NB + 2 * NB + 2 in let w k := ((/ (1 - u)) ^ k)%R in let d := downs u (n + 1) in
  (forall l, l < n -> l <= p' l < n) /\ (forall i l, l < n -> l < i < n -> (Rabs (L i l) <= 1)%R) /\
  forall i j, i < n -> j < d_n B -> fin (PB i j) = true /\ (forall k, k < n -> fin (PA i k) = true) /\
    (Rabs (val (PB i j) - Rsum n (fun k => val (PA i k) * val (X k j))) <=
       (d * (2 + d) + downs u g) * Rsum n (fun k => Rsum n (fun c => Rabs (L i c) * Rabs (U c k) * Rabs (val (X k j)))) +
       (w (n + 1)%nat * (eta * (2 * INR n)) +
        (1 + d) * Rsum n (fun c => Rabs (L i c) * (w (n + 1)%nat * (eta * (2 * INR n + Rabs (U c c))))) +
        Rsum n (fun k => w g * (eta * (4 * INR n + Rabs (U k k))) * Rabs (val (X k j)))))%R.
Proof.
  intros SS cc T O val fin u eta al A B m p m' p' RA HSS Hcc PRE E n F X FF FX L U PA PB NB g w d.
  pose proof PRE as [PREA SQ SB AB DB SEP]. fold n in SQ, SB, SEP.
  unfold lu_solve in E.
  apply bind_ok_inv in E as ([m1 p1] & E1 & E). cbn [fst snd] in E. fold n in E.
  apply bind_ok_inv in E as (m2 & E2 & E). apply bind_ok_inv in E as (m3 & E3 & E). apply bind_ok_inv in E as (m4 & E4 & E).
  injection E as -> ->.
  assert (TP : forall ul unit, trsm_pre al ul unit (as_dmat SS A) B B).
  { intros ul unit. apply solve_trsm_pre; cbn [as_dmat d_m d_n d_at]; auto.
    - rewrite SQ. auto.
    - intros i k Hi Hk. destruct PREA as [[] _]. apply lp_al; unfold n in *; lia.
    - rewrite SB in SEP |- *. exact SEP. }
  pose proof (ra_u O val fin u eta RA) as Hu. pose proof (ra_eta O val fin u eta RA) as He.
  destruct (C36_getrf_ops SS cc T O al A m p m1 p' HSS Hcc PREA E1) as (_ & PV & FR1 & _). rewrite SQ in FR1, PV. fold n in FR1, PV. rewrite Nat.min_id in PV.
  destruct (C34_laswp T al B 0 n p' m1 DB AB) as (m2' & E2' & U2 & V2); [lia|lia|intros k Hk; rewrite SB; apply PV; lia|].
  pose proof (eq_trans (eq_sym E2') E2) as Q2. injection Q2 as ->. clear E2'.
  destruct (C31_trsm_ops T O al Lower true (as_dmat SS A) B B m2 (TP Lower true)) as (m3' & E3' & _ & F3).
  pose proof (eq_trans (eq_sym E3') E3) as Q3. injection Q3 as ->. clear E3'.
  destruct (C31_trsm_ops T O al Upper false (as_dmat SS A) B B m3 (TP Upper false)) as (m4' & E4' & _ & F4).
  pose proof (eq_trans (eq_sym E4') E4) as Q4. injection Q4 as ->. clear E4'.
  destruct (C51_trsm_lower T O val fin u eta al true (as_dmat SS A) B B m2 RA (TP Lower true)) as (m3' & E3' & R3).
  pose proof (eq_trans (eq_sym E3') E3) as Q3. injection Q3 as ->. clear E3'.
  destruct (C51_trsm_upper T O val fin u eta al false (as_dmat SS A) B B m3 RA (TP Upper false)) as (m4' & E4' & R4).
  pose proof (eq_trans (eq_sym E4') E4) as Q4. injection Q4 as ->. clear E4'.
  rewrite SB in *.
  assert (K2 : forall i j, i < n -> j < n -> m2 (g_addr SS A i j) = m1 (g_addr SS A i j)).
  { intros i j Hi Hj. apply V2. intros i' j' [Hi' Hj'] Y. apply (SEP i' j' i j); auto. }
  assert (K3 : forall i j, i < n -> j < n -> m3 (g_addr SS A i j) = m1 (g_addr SS A i j)).
  { intros i j Hi Hj. rewrite F3, K2; auto. intros i' j' Hi' Hj' Y. apply (SEP i' j' i j); auto. }
  assert (K4 : forall i j, i < n -> j < n -> F i j = m1 (g_addr SS A i j)).
  { intros i j Hi Hj. unfold F. rewrite F4, K3; auto. intros i' j' Hi' Hj' Y. apply (SEP i' j' i j); auto. }
  destruct (C53_getrf SS cc T O val fin u eta al A m p m1 p' RA HSS Hcc PREA E1) as (G1 & G2 & G3).
  { intros i j Hi Hj. rewrite SQ in Hj. fold n in Hi, Hj. rewrite <- K4 by auto. auto. }
  rewrite SQ in G1, G2, G3. fold n in G1, G2, G3. rewrite Nat.min_id in G1, G2, G3. fold NB in G3. fold g in G3.
  assert (LE : forall i l, i < n -> l < n -> unit_lower rops (fun i j => val (m1 (g_addr SS A i j))) i l = L i l).
  { intros i l Hi Hl. unfold L, unit_lower. destruct (l <? i); auto. rewrite K4 by auto. auto. }
  assert (UE : forall l j, l < n -> j < n -> upper_trap rops (fun i j => val (m1 (g_addr SS A i j))) l j = U l j).
  { intros l j Hl Hj. unfold U, upper_trap. destruct (l <=? j); auto. rewrite K4 by auto. auto. }
  split; [auto|]. split. { intros i l Hl Hi. rewrite <- LE by lia. apply G2; auto. }
  intros i j Hi Hj.
  set (x := fun k => val (X k j)). set (y := fun k => val (m3 (d_at B k j))).
  (* back substitution *)
  assert (HY : forall c, c < n -> fin (m3 (d_at B c j)) = true /\
    (Rabs (y c - Rsum n (fun k => U c k * x k)) <= d * Rsum n (fun k => Rabs (U c k * x k)) + w (n + 1)%nat * (eta * (2 * INR n + Rabs (U c c))))%R).
  { intros c Hc. specialize (R4 c j Hc Hj). cbv zeta in R4. cbn [as_dmat d_at] in R4.
    destruct R4 as (R41 & R42 & R43); [apply FX; auto|intros _; rewrite K3, <- K4 by auto; auto|]. split; [exact R41|].
    rewrite (Rsum_from n c (fun k => (U c k * x k)%R)); auto.
    2:{ intros k Hk. unfold U, upper_trap. destruct (Nat.leb_spec c k); [lia|]. cbn. ring. }
    rewrite (Rsum_from n c (fun k => Rabs (U c k * x k))); auto.
    2:{ intros k Hk. unfold U, upper_trap. destruct (Nat.leb_spec c k); [lia|]. cbn. rewrite Rmult_0_l. apply Rabs_R0. }
    assert (UC : U c c = val (m3 (g_addr SS A c c))).
    { unfold U, upper_trap. rewrite Nat.leb_refl, K4, K3 by auto. auto. }
    rewrite UC. unfold y, x.
    rewrite (Rsum_ext (n - (c + 1)) (fun k => (U c (c + 1 + k)%nat * val (X (c + 1 + k)%nat j))%R) (fun k => (val (m3 (g_addr SS A c (c + 1 + k)%nat)) * val (X (c + 1 + k)%nat j))%R)).
    2:{ intros k Hk. f_equal. unfold U, upper_trap. destruct (Nat.leb_spec c (c + 1 + k)); [|lia]. rewrite K4, K3 by lia. auto. }
    rewrite (Rsum_ext (n - (c + 1)) (fun k => Rabs (U c (c + 1 + k)%nat * val (X (c + 1 + k)%nat j))%R) (fun k => Rabs (val (m3 (g_addr SS A c (c + 1 + k)%nat)) * val (X (c + 1 + k)%nat j))%R)).
    2:{ intros k Hk. do 2 f_equal. unfold U, upper_trap. destruct (Nat.leb_spec c (c + 1 + k)); [|lia]. rewrite K4, K3 by lia. auto. }
    eapply Rle_trans; [exact R43|]. apply Rplus_le_compat.
    - apply Rmult_le_compat_r; [|unfold d; apply downs_mono; auto; lia]. apply Rplus_le_le_0_compat; [|apply Rabs_pos]. apply Rsum_nonneg. intros; apply Rabs_pos.
    - pose proof (powQ u Hu (n - (c + 1) + 2)). pose proof (powQ_mono u Hu (n - (c + 1) + 2) (n + 1) ltac:(lia)).
      assert (INR (n - (c + 1)) <= INR n)%R by (apply le_INR; lia). pose proof (pos_INR (n - (c + 1))). pose proof (Rabs_pos (val (m3 (g_addr SS A c c)))).
      apply Rmult_le_compat; try lra; [apply Rmult_le_pos; lra|exact H0|]. apply Rmult_le_compat_l; lra. }
  (* forward substitution *)
  assert (R2 : m2 (d_at B i j) = PB i j).
  { rewrite U2 by (split; lia). rewrite Nat.sub_0_r. unfold PB.
    destruct (interchanged_perm T p' n n (Nat.le_refl n)) as (s & s' & S1 & S2); [intros l Hl; apply G1; auto|]. rewrite !S2.
    apply FR1. intros i' j' Hi' Hj'. apply SEP; auto. apply S1; auto. }
  assert (HB : fin (PB i j) = true /\ (Rabs (val (PB i j) - Rsum n (fun c => L i c * y c)) <= d * Rsum n (fun c => Rabs (L i c * y c)) + w (n + 1)%nat * (eta * (2 * INR n)))%R).
  { specialize (R3 i j Hi Hj). cbv zeta in R3. cbn [as_dmat d_at] in R3. rewrite R2 in R3.
    destruct R3 as (R31 & R32 & R33); [apply HY; auto|discriminate|]. split; auto.
    rewrite (Rsum_upto n i (fun k => (L i k * y k)%R)); auto.
    2:{ intros k Hk. unfold L, unit_lower. destruct (Nat.ltb_spec k i); [lia|]. destruct (Nat.eqb_spec k i); [lia|]. cbn. ring. }
    rewrite (Rsum_upto n i (fun k => Rabs (L i k * y k))); auto.
    2:{ intros k Hk. unfold L, unit_lower. destruct (Nat.ltb_spec k i); [lia|]. destruct (Nat.eqb_spec k i); [lia|]. cbn. rewrite Rmult_0_l. apply Rabs_R0. }
    assert (LI : L i i = 1%R) by (unfold L, unit_lower; rewrite Nat.ltb_irrefl, Nat.eqb_refl; auto). rewrite LI. unfold y.
    rewrite (Rsum_ext i (fun k => (L i k * val (m3 (d_at B k j)))%R) (fun k => (val (m2 (g_addr SS A i k)) * val (m3 (d_at B k j)))%R)).
    2:{ intros k Hk. f_equal. unfold L, unit_lower. destruct (Nat.ltb_spec k i); [|lia]. rewrite K4, K2 by lia. auto. }
    rewrite (Rsum_ext i (fun k => Rabs (L i k * val (m3 (d_at B k j)))) (fun k => Rabs (val (m2 (g_addr SS A i k)) * val (m3 (d_at B k j))))).
    2:{ intros k Hk. do 2 f_equal. unfold L, unit_lower. destruct (Nat.ltb_spec k i); [|lia]. rewrite K4, K2 by lia. auto. }
    eapply Rle_trans; [exact R33|]. apply Rplus_le_compat.
    - apply Rmult_le_compat_r; [|unfold d; apply downs_mono; auto; lia]. apply Rplus_le_le_0_compat; [|apply Rabs_pos]. apply Rsum_nonneg. intros; apply Rabs_pos.
    - pose proof (powQ u Hu (i + 2)). pose proof (powQ_mono u Hu (i + 2) (n + 1) ltac:(lia)).
      assert (INR i <= INR n)%R by (apply le_INR; lia). pose proof (pos_INR i).
      apply Rmult_le_compat; try lra; [apply Rmult_le_pos; lra|exact H0|]. apply Rmult_le_compat_l; lra. }
  destruct HB as [HB1 HB2]. split; auto. split; [intros k Hk; apply G3; auto|].
  apply (residual n (fun i k => val (PA i k)) L U x y (fun i => val (PB i j)) i d (downs u g) (fun k => (w g * (eta * (4 * INR n + Rabs (U k k))))%R)
    (fun c => (w (n + 1)%nat * (eta * (2 * INR n + Rabs (U c c))))%R)); auto.
  - apply downs_nonneg; auto.
  - intros k Hk. destruct (G3 i k Hi Hk) as (_ & G4). fold PA in G4.
    assert (S1 : Rsum n (fun c => unit_lower rops (fun i j => val (m1 (g_addr SS A i j))) i c * upper_trap rops (fun i j => val (m1 (g_addr SS A i j))) c k)%R =
      Rsum n (fun c => L i c * U c k)%R) by (apply Rsum_ext; intros c Hc; rewrite LE, UE by auto; auto).
    assert (S2 : Rsum n (fun c => Rabs (unit_lower rops (fun i j => val (m1 (g_addr SS A i j))) i c * upper_trap rops (fun i j => val (m1 (g_addr SS A i j))) c k))%R =
      Rsum n (fun c => Rabs (L i c * U c k))%R) by (apply Rsum_ext; intros c Hc; rewrite LE, UE by auto; auto).
    rewrite S1, S2 in G4.
    eapply Rle_trans; [exact G4|]. apply Rplus_le_compat_l. unfold w. pose proof (powQ u Hu g).
    apply Rmult_le_compat_l; [lra|]. apply Rmult_le_compat_l; [lra|]. apply Rplus_le_compat_l.
    destruct (k <? i); [|apply Rabs_pos]. unfold U, upper_trap. rewrite Nat.leb_refl, K4 by auto. lra.
  - intros c Hc. apply HY; auto.
Qed.

(** ** Examples *)
(** The 3-by-3 matrix of C36_example (elements 0 to 11), two right-hand sides at 100 to 105: A * [1 2; 3 4; 5 6]. *)
Definition s_al (a : nat) : bool := (a <? 12) || ((100 <=? a) && (a <? 106)).
Definition sA := MArg (whole Properties_LU.rA) false.
Definition sB := DMat 3 2 (fun i j => 100 + i + 3 * j).
Example C58_example : lu_solve_pre 2 1 s_al sA sB.
Proof.
  pose proof C36_example as [[P1 P2 P3 P4 P5] P6]. fold sA in *.
  assert (W : forall a, c_alloc 2 Properties_LU.rA a = true -> s_al a = true).
  { intros a H. unfold c_alloc in H. cbn [Properties_LU.rA c_base Nat.leb andb] in H. unfold s_al. apply orb_true_iff. left. exact H. }
  constructor; try reflexivity.
  - constructor; [constructor|]; auto.
    + intros i j Hi Hj. apply W; auto.
    + intros i j Hi Hj. apply W; auto.
  - intros i j Hi Hj. cbn [sB d_at d_m d_n] in *. unfold s_al. apply orb_true_iff. right. apply andb_true_iff. split; [apply Nat.leb_le|apply Nat.ltb_lt]; lia.
  - intros i j i' j' Hi Hj Hi' Hj'. cbn in *. lia.
  - intros i j i' j' Hi Hj Hi' Hj'. cbn in *. lia.
Qed.
Definition s_m (a : nat) : Z := if a <? 100 then nth a [1; 2; 4; 99; 3; 1; 2; 99; 5; 3; 8; 99]%Z 0%Z else nth (a - 100) [35; 20; 50; 44; 26; 64]%Z 0%Z.
Example C58_example_run :
  match lu_solve 2 1 Qc qops s_al sA sB (fun a => Q2Qc (inject_Z (s_m a)), fun _ => 7) with
  | Ok (m', _) => map (fun a => show (m' a)) (seq 100 6) | _ => [] end = map (fun z => (z, 1%positive)) [1; 3; 5; 2; 4; 6]%Z.
Proof. vm_compute. reflexivity. Qed.
(** In double: the call returns and everything is finite. *)
Example C58_example_rounded :
  match lu_solve 2 1 b64 b64ops s_al sA sB (fun a => d64 (s_m a), fun _ => 7) with
  | Ok (m', _) => forallb (fun a => is_finite (m' a)) (seq 0 3 ++ seq 4 3 ++ seq 8 3 ++ seq 100 6) | _ => false end = true.
Proof. vm_compute. reflexivity. Qed.
(** Cholesky: 2-by-2, SIMD size 2, factored in place, two right-hand sides; a positive definite matrix: C28_example_pos_def. *)
Definition hA : container := Cont Dense false columnMajor 2 2 0.
Definition hB := DMat 2 2 (fun i j => 100 + i + 2 * j).
Definition h_al (a : nat) : bool := c_alloc 2 hA a || ((100 <=? a) && (a <? 104)).
Example C58_example_cholesky : potrf_pre 2 1 h_al (whole hA) (whole hA) /\ v_n (whole hA) = v_m (whole hA) /\ d_m hB = v_m (whole hA) /\
  allocated h_al (d_m hB) (d_n hB) (d_at hB) /\ distinct (d_m hB) (d_n hB) (d_at hB) /\
  separate (d_m hB) (d_n hB) (d_at hB) (nextMultiple (v_m (whole hA)) (1 * 2)) (v_n (whole hA)) (v_addr 2 (whole hA)).
Proof.
  split. { apply conts_pre; [lia| |reflexivity]. unfold potrf_conts. cbn [hA c_base c_so c_rows c_cols]. repeat split; auto; intros a H; unfold h_al; rewrite H; reflexivity. }
  repeat split; auto.
  - intros i j Hi Hj. unfold h_al. apply orb_true_iff. right. cbn [hB d_at d_m d_n] in *. apply andb_true_iff. split; [apply Nat.leb_le|apply Nat.ltb_lt]; lia.
  - cbn [hB d_at d_m d_n] in *. lia.
  - cbn [hB d_at d_m d_n] in *. lia.
  - intros i j i' j' Hi Hj Hi' Hj'. cbn in *. lia.
Qed.
