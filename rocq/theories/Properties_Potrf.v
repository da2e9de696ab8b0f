(** Properties_Potrf.v -- C28, C29: Cholesky factorization. *)
From Coq Require Import Arith Lia List Bool PeanoNat ZArith Reals Lra.
From Verif Require Import Base Base_Proofs Spec Algebra_Proofs Instances Layout_Model Layout_Proofs Simd_Model Simd_Proofs
  Reg_Model Reg_Proofs Vec_Proofs Tile_Model Tile_Proofs Gemm_Model Gemm_Proofs Arg_Proofs Ger_Model Ger_Proofs Potrf_Model Cholesky_Proofs Potrf_Proofs
  Properties_Gemm Properties_Trmm.
Import ListNotations.
Local Open Scope nat_scope.

(** Operands of potrf(A, L) with tile size cc*SS: column-major matrices, or windows of such starting at a SIMD boundary, of
    the same size M-by-N with N <= M.  Both are accessed up to the next multiple of the tile size in both directions.
    L may be A itself or be separate from A. *)
Record potrf_pre (SS cc : nat) (al : alloc) (A L : view) : Prop := {
  pp_A : aligned_cm SS A; pp_L : aligned_cm SS L;
  pp_sz : v_n A <= v_m A /\ v_m L = v_m A /\ v_n L = v_n A;
  pp_alA : allocated al (nextMultiple (v_m A) (cc * SS)) (nextMultiple (v_n A) (cc * SS)) (v_addr SS A);
  pp_alL : allocated al (nextMultiple (v_m A) (cc * SS)) (nextMultiple (v_n A) (cc * SS)) (v_addr SS L);
  pp_L_distinct : distinct (nextMultiple (v_m A) (cc * SS)) (v_n A) (v_addr SS L);
  pp_sep : forall i j i' j', i < nextMultiple (v_m A) (cc * SS) -> j < v_n A -> lower (v_m A) (v_n A) i' j' ->
             v_addr SS L i j = v_addr SS A i' j' -> i = i' /\ j = j'
}.

(** What is computed for element (i, j), j <= i, operation by operation.  The columns are treated in blocks of tile size TS;
    k is the first column of the block of column j.  First the columns to the left of the block are subtracted with
    fused multiply-adds of -L(i,l), then the columns of the block with fused negative multiply-adds, in this order. *)
Definition chol_num {T} (O : Ops T) (TS : nat) (ld : T -> T) (a l : nat -> nat -> T) (i j : nat) : T :=
  let k := TS * (j / TS) in
  fnma_chain O (j - k) (fun c => l j (k + c)) (fun c => l i (k + c))
    (fma_chain O k (fun c => omul O (om1 O) (l i c)) (fun c => l j c) (ld (a i j))).
(** The quotient: in the first three tiles from the diagonal by the square root of the diagonal numerator, farther below by the stored L(j,j). *)
Definition chol_elem {T} (O : Ops T) (TS : nat) (ld : T -> T) (a l : nat -> nat -> T) (i j : nat) : Prop :=
  l i j = odiv O (chol_num O TS ld a l i j) (if i <? TS * (j / TS) + 3 * TS then osqrt O (chol_num O TS ld a l j j) else l j j).
Lemma chol_elem_cases : forall T (O : Ops T) TS ld a l i j, 0 < TS -> chol_elem O TS ld a l i j ->
  l i j = odiv O (chol_num O TS ld a l i j) (osqrt O (chol_num O TS ld a l j j)) \/
  (j < i /\ l i j = odiv O (chol_num O TS ld a l i j) (l j j)).
Proof.
  intros T O TS ld a l i j HT H. unfold chol_elem in H. destruct (Nat.ltb_spec i (TS * (j / TS) + 3 * TS)); [left; auto|right; split; auto].
  pose proof (Nat.mul_succ_div_gt j TS ltac:(lia)). lia.
Qed.

(** Dense: the lower triangle satisfies the equations; nothing changes outside the lower triangle of L -- extended by the
    padding rows M <= i < nextMultiple(M, TS) -- in particular the elements above the diagonal of L are untouched. *)
Theorem C28_potrf_dense_ops : forall SS cc T (O : Ops T) al A L m, 0 < SS -> 0 < cc -> potrf_pre SS cc al A L ->
  exists m', potrf_dense SS cc (cc * SS) T O al A L m = Ok m' /\
    (forall i j, lower (v_m A) (v_n A) i j ->
       chol_elem O (cc * SS) (fun x => omul O (o1 O) x) (fun i j => m (v_addr SS A i j)) (fun i j => m' (v_addr SS L i j)) i j) /\
    (forall a, (forall i j, lower (nextMultiple (v_m A) (cc * SS)) (v_n A) i j -> a <> v_addr SS L i j) -> m' a = m a).
Proof.
  intros SS cc T O al A L m HSS Hcc [hA hL (z1 & z2 & z3) aA aL dL sL].
  destruct (loops_ok SS HSS cc Hcc T O A L m (fun x => omul O (o1 O) x) z1 (fun i j => j <= i) (potrf_dense_call SS cc (cc * SS) T O al A L))
    as (m' & E & F & V).
  { apply (potrf_dense_call_ok SS HSS cc Hcc T O al A L m (fun x => omul O (o1 O) x)); auto. intros; tauto. }
  exists m'. split; [|split].
  - unfold potrf_dense, potrf_check. rewrite z2, z3, !Nat.eqb_refl. destruct (Nat.ltb_spec (v_m A) (v_n A)); [lia|]. exact E.
  - intros i j H. apply V; auto. unfold done, lower in *. lia.
  - intros a H. apply F. intros i j Hw Hi Hj _. apply H. unfold lower. auto.
Qed.

(** Panel: as above, but the diagonal blocks are stored whole, so the elements of L above the diagonal that lie in a diagonal
    block of tile size are overwritten as well. *)
Theorem C28_potrf_panel_ops : forall SS cc T (O : Ops T) al A L m, 0 < SS -> 0 < cc -> potrf_pre SS cc al A L ->
  exists m', potrf_panel SS cc (cc * SS) T O al A L m = Ok m' /\
    (forall i j, lower (v_m A) (v_n A) i j ->
       chol_elem O (cc * SS) (fun x => x) (fun i j => m (v_addr SS A i j)) (fun i j => m' (v_addr SS L i j)) i j) /\
    (forall a, (forall i j, i < nextMultiple (v_m A) (cc * SS) -> j < v_n A -> cc * SS * (j / (cc * SS)) <= i -> a <> v_addr SS L i j) ->
       m' a = m a).
Proof.
  intros SS cc T O al A L m HSS Hcc [hA hL (z1 & z2 & z3) aA aL dL sL].
  destruct (loops_ok SS HSS cc Hcc T O A L m (fun x => x) z1 (fun i j => TS SS cc * (j / TS SS cc) <= i) (potrf_panel_call SS cc (cc * SS) T O al A L))
    as (m' & E & F & V).
  { apply (potrf_panel_call_ok SS HSS cc Hcc T O al A L m (fun x => x)); auto. intros; tauto. }
  exists m'. split; [|split].
  - unfold potrf_panel, potrf_check. rewrite z2, z3, !Nat.eqb_refl. destruct (Nat.ltb_spec (v_m A) (v_n A)); [lia|]. exact E.
  - intros i j H. apply V; auto. unfold done, lower in *. lia.
  - intros a H. apply F. intros i j Hw Hi Hj _. apply H; auto.
Qed.

(** Strictly upper elements of a dense L are unchanged. *)
Theorem C28_potrf_dense_upper_untouched : forall SS cc T (O : Ops T) al A L m m', 0 < SS -> 0 < cc -> potrf_pre SS cc al A L ->
  potrf_dense SS cc (cc * SS) T O al A L m = Ok m' ->
  forall i j, i < j -> j < v_n A -> m' (v_addr SS L i j) = m (v_addr SS L i j).
Proof.
  intros SS cc T O al A L m m' HSS Hcc P E i j Hij Hj.
  destruct (C28_potrf_dense_ops SS cc T O al A L m HSS Hcc P) as (m1 & E1 & _ & U). rewrite E in E1. injection E1 as <-.
  destruct P as [_ _ (z1 & z2 & z3) _ _ dL _].
  assert (0 < cc * SS) by nia. destruct (nextMultiple_spec (v_m A) (cc * SS)) as (X & _); auto.
  apply U. intros i' j' (H1 & H2 & H3) Y. apply dL in Y; lia.
Qed.

(** Size checks: M < N or different sizes throw before any access. *)
Theorem C28_potrf_throws : forall SS cc KN T (O : Ops T) al A L m,
  v_m A < v_n A \/ v_m L <> v_m A \/ v_n L <> v_n A ->
  potrf_dense SS cc KN T O al A L m = Throw InvalidArgument /\ potrf_panel SS cc KN T O al A L m = Throw InvalidArgument.
Proof.
  intros SS cc KN T O al A L m H. unfold potrf_dense, potrf_panel, potrf_check.
  destruct (Nat.ltb_spec (v_m A) (v_n A)), (Nat.eqb_spec (v_m L) (v_m A)), (Nat.eqb_spec (v_n L) (v_n A)); cbn [negb]; auto. lia.
Qed.

(* ------------------------------------------------------------------ exact arithmetic *)
(** The symmetric matrix [a] of order N is positive definite. *)
Definition pos_def (N : nat) (a : nat -> nat -> R) : Prop :=
  (forall i j, i < N -> j < N -> a i j = a j i) /\
  forall v : nat -> R, (exists i, i < N /\ v i <> 0%R) -> (0 < sum rops N (fun i => sum rops N (fun j => v i * a i j * v j)))%R.
(** The lower trapezoidal M-by-N matrix [l] is the Cholesky factor of the lower trapezoidal part of [a]: L * L^T = A and
    the diagonal of L is positive. *)
Definition cholesky_factor (M N : nat) (a l : nat -> nat -> R) : Prop :=
  (forall i j, lower M N i j -> sum rops N (fun k => lower_of rops l i k * lower_of rops l j k)%R = a i j) /\
  (forall j, j < N -> (0 < l j j)%R).

Lemma chol_num_real : forall TS ld a l i j, 0 < TS -> (forall x, ld x = x) ->
  chol_num rops TS ld a l i j = (a i j - sum rops j (fun k => l i k * l j k))%R.
Proof.
  intros TS ld a l i j HT Hld. unfold chol_num. cbv zeta. set (k := TS * (j / TS)).
  assert (Hk : k <= j) by (apply Nat.mul_div_le; lia).
  rewrite (fnma_chain_sum rops rops_ring), (fma_chain_sum rops rops_ring), Hld.
  assert (SP : sum rops j (fun c => (l i c * l j c)%R) = (sum rops k (fun c => l i c * l j c) + sum rops (j - k) (fun c => l i (k + c)%nat * l j (k + c)%nat))%R).
  { replace j with (k + (j - k)) at 1 by lia. rewrite (sum_split rops rops_ring). reflexivity. }
  rewrite SP.
  rewrite (sum_ext rops k (fun c => omul rops (omul rops (om1 rops) (l i c)) (l j c)) (fun c => (-1 * (l i c * l j c))%R))
    by (intros c _; cbn; ring).
  change (sum rops k (fun c => (-1 * (l i c * l j c))%R)) with (S_ k (fun c => (-1 * (l i c * l j c))%R)). rewrite S_scale.
  rewrite (sum_ext rops (j - k) (fun c => omul rops (l j (k + c)) (l i (k + c))) (fun c => (l i (k + c)%nat * l j (k + c)%nat)%R)) by (intros c _; cbn; ring).
  cbn [oadd osub omul rops]. lra.
Qed.

Lemma chol_real : forall TS ld a a0 l M N, 0 < TS -> (forall x, ld x = x) -> N <= M ->
  (forall i j, lower M N i j -> chol_elem rops TS ld a0 l i j) ->
  pos_def N a -> (forall i j, lower M N i j -> a0 i j = a i j) -> cholesky_factor M N a l.
Proof.
  intros TS ld a a0 l M N HT Hld HNM HE [Sy PD] Ha.
  assert (Q : forall x, (0 < x -> x / sqrt x = sqrt x)%R).
  { intros x Hx. pose proof (sqrt_lt_R0 x Hx). apply (Rmult_eq_reg_r (sqrt x)); [|lra].
    unfold Rdiv. rewrite Rmult_assoc, Rinv_l, sqrt_sqrt by lra. lra. }
  assert (D : forall j, j < N -> l j j = (pivot a l j / sqrt (pivot a l j))%R).
  { intros j Hj. destruct (chol_elem_cases _ _ _ _ _ _ _ _ HT (HE j j ltac:(unfold lower; lia))) as [E|[E _]]; [|lia]. rewrite chol_num_real in E by auto.
    rewrite Ha in E by (unfold lower; lia). exact E. }
  assert (K : forall i j, lower M N i j -> (0 < pivot a l j -> l i j * l j j = a i j - sum rops j (fun k => l i k * l j k))%R).
  { intros i j Hl Hp. pose proof Hl as (H1 & H2 & H3). pose proof (sqrt_lt_R0 _ Hp) as Hs.
    pose proof (D j H3) as Dj. rewrite Q in Dj by auto. specialize (HE i j Hl). apply chol_elem_cases in HE; auto. rewrite !chol_num_real in HE by auto.
    rewrite !Ha in HE by (unfold lower; lia).
    assert (E : l i j = ((a i j - sum rops j (fun k => l i k * l j k)) / sqrt (pivot a l j))%R).
    { destruct HE as [E|[_ E]]; [exact E|]. rewrite E, Dj. reflexivity. }
    rewrite Dj, E. unfold Rdiv. rewrite Rmult_assoc, Rinv_l by lra. lra. }
  assert (POS : forall j, j < N -> (0 < pivot a l j)%R).
  { apply (pivots_positive N a l); auto. intros j Hj Hp. split.
    - rewrite D, Q by auto. apply sqrt_lt_R0; auto.
    - intros i Hi. change (sum rops j (fun k => l i k * l j k)%R + l i j * l j j = a i j)%R.
      rewrite K by (auto; unfold lower; lia). lra. }
  split.
  - intros i j Hl. pose proof Hl as (H1 & H2 & H3).
    change (S_ N (fun k => (lower_of rops l i k * lower_of rops l j k)%R) = a i j).
    rewrite (S_trunc N (S j)).
    + change (sum rops j (fun k => lower_of rops l i k * lower_of rops l j k)%R + lower_of rops l i j * lower_of rops l j j = a i j)%R.
      rewrite (sum_ext rops j _ (fun k => (l i k * l j k)%R)).
      * unfold lower_of. rewrite !(proj2 (Nat.leb_le _ _)) by lia. rewrite K by auto. lra.
      * intros k Hk. unfold lower_of. rewrite !(proj2 (Nat.leb_le _ _)) by lia. reflexivity.
    + lia.
    + intros k Hk. unfold lower_of at 2. destruct (Nat.leb_spec k j); [lia|]. cbn. ring.
  - intros j Hj. rewrite D, Q by auto. apply sqrt_lt_R0; auto.
Qed.

(** Over the reals: if the stored lower trapezoid is that of a matrix whose leading N-by-N block is symmetric positive
    definite, the stored lower trapezoid of L is its Cholesky factor.  The upper triangles of A and L play no role. *)
Theorem C28_potrf_dense_real : forall SS cc al A L m a, 0 < SS -> 0 < cc -> potrf_pre SS cc al A L ->
  pos_def (v_n A) a -> (forall i j, lower (v_m A) (v_n A) i j -> m (v_addr SS A i j) = a i j) ->
  exists m', potrf_dense SS cc (cc * SS) R rops al A L m = Ok m' /\
    cholesky_factor (v_m A) (v_n A) a (fun i j => m' (v_addr SS L i j)).
Proof.
  intros SS cc al A L m a HSS Hcc P PD Ha.
  destruct (C28_potrf_dense_ops SS cc R rops al A L m HSS Hcc P) as (m' & E & V & _).
  exists m'. split; auto. apply (chol_real (cc * SS) (fun x => omul rops (o1 rops) x) a (fun i j => m (v_addr SS A i j))); auto.
  - nia.
  - intros x. cbn. ring.
  - destruct (pp_sz _ _ _ _ _ P). auto.
Qed.
Theorem C28_potrf_panel_real : forall SS cc al A L m a, 0 < SS -> 0 < cc -> potrf_pre SS cc al A L ->
  pos_def (v_n A) a -> (forall i j, lower (v_m A) (v_n A) i j -> m (v_addr SS A i j) = a i j) ->
  exists m', potrf_panel SS cc (cc * SS) R rops al A L m = Ok m' /\
    cholesky_factor (v_m A) (v_n A) a (fun i j => m' (v_addr SS L i j)).
Proof.
  intros SS cc al A L m a HSS Hcc P PD Ha.
  destruct (C28_potrf_panel_ops SS cc R rops al A L m HSS Hcc P) as (m' & E & V & _).
  exists m'. split; auto. apply (chol_real (cc * SS) (fun x => x) a (fun i j => m (v_addr SS A i j))); auto.
  - nia.
  - destruct (pp_sz _ _ _ _ _ P). auto.
Qed.

(* ------------------------------------------------------------------ memory footprint *)
(** Two column-major matrices of the same kind and size, N <= M, in one or in two buffers. *)
Definition potrf_conts (SS : nat) (al : alloc) (A L : container) : Prop :=
  c_base A mod SS = 0 /\ c_base L mod SS = 0 /\ c_so A = columnMajor /\ c_so L = columnMajor /\
  c_cols A <= c_rows A /\ c_rows L = c_rows A /\ c_cols L = c_cols A /\
  (forall x, c_alloc SS A x = true -> al x = true) /\ (forall x, c_alloc SS L x = true -> al x = true) /\
  (L = A \/ forall x, c_alloc SS L x = true -> c_alloc SS A x = false).

Lemma c_index_inj_pad : forall SS c i j i' j', 0 < SS -> c_so c = columnMajor ->
  i < nextMultiple (c_rows c) SS -> j < c_cols c -> i' < nextMultiple (c_rows c) SS -> j' < c_cols c ->
  c_index SS c i j = c_index SS c i' j' -> i = i' /\ j = j'.
Proof.
  intros SS c i j i' j' HSS So Hi Hj Hi' Hj' E.
  destruct (nextMultiple_spec (c_rows c) SS HSS) as (_ & X & _).
  apply (c_index_inj SS HSS (Cont (c_kind c) (c_static c) (c_so c) (nextMultiple (c_rows c) SS) (c_cols c) (c_base c))); auto.
  unfold c_index, c_spacing in *. cbn [c_kind c_so c_rows c_cols]. rewrite So in *. destruct (c_kind c); auto.
  rewrite (nextMultiple_id (nextMultiple _ _)) by auto. auto.
Qed.

Lemma conts_pre : forall SS al A L, 0 < SS -> potrf_conts SS al A L -> c_cols A mod SS = 0 -> potrf_pre SS 1 al (whole A) (whole L).
Proof.
  intros SS al A L HSS (b1 & b2 & s1 & s2 & z1 & z2 & z3 & l1 & l2 & sep) HN.
  assert (IN : forall c, c_base c mod SS = 0 -> c_so c = columnMajor -> forall i j, i < nextMultiple (c_rows c) SS -> j < c_cols c ->
     c_alloc SS c (c_addr SS c i j) = true).
  { intros c Hb Hs i j Hi Hj. unfold c_alloc, c_addr. apply andb_true_intro. split; [apply Nat.leb_le; lia|apply Nat.ltb_lt].
    apply Nat.add_lt_mono_l. apply c_index_bound_pad; auto; rewrite Hs; auto. }
  assert (NM : nextMultiple (c_cols A) SS = c_cols A) by (apply nextMultiple_id; auto).
  destruct (nextMultiple_spec (c_rows A) SS HSS) as (MM & _ & _).
  constructor; cbn [whole v_m v_n v_cont v_i v_j]; rewrite ?Nat.mul_1_l, ?NM; auto.
  - split; [|split]; auto. cbn. apply Nat.mod_0_l. lia.
  - split; [|split]; auto. cbn. apply Nat.mod_0_l. lia.
  - intros i j Hi Hj. apply l1. change (v_addr SS (whole A) i j) with (c_addr SS A i j). apply IN; auto.
  - intros i j Hi Hj. apply l2. change (v_addr SS (whole L) i j) with (c_addr SS L i j). apply IN; auto; rewrite ?z2, ?z3; auto.
  - intros i j i' j' Hi Hj Hi' Hj' X. change (c_addr SS L i j = c_addr SS L i' j') in X. unfold c_addr in X. apply Nat.add_cancel_l in X.
    apply (c_index_inj_pad SS L); auto; rewrite ?z2, ?z3; auto.
  - intros i j i' j' Hi Hj (H1 & H2 & H3) X. change (c_addr SS L i j = c_addr SS A i' j') in X. destruct sep as [->|sep].
    + unfold c_addr in X. apply Nat.add_cancel_l in X. apply (c_index_inj_pad SS A); auto. lia.
    + assert (Y : c_alloc SS L (c_addr SS L i j) = true) by (apply IN; auto; rewrite ?z2, ?z3; auto).
      apply sep in Y. rewrite X in Y. rewrite IN in Y; auto. discriminate. lia.
Qed.

(** With the row step equal to the SIMD size (cc = 1: double on AVX2; all panel kernels), N a multiple of
    the SIMD size and as many kernel columns as SIMD lanes: no access outside the two buffers (the call succeeds for every
    allocation that contains them) and only L's buffer changes. *)
Theorem C29_potrf_dense_footprint : forall SS T (O : Ops T) al A L m, 0 < SS -> potrf_conts SS al A L -> c_cols A mod SS = 0 ->
  exists m', potrf_dense SS 1 (1 * SS) T O al (whole A) (whole L) m = Ok m' /\
    forall a, c_alloc SS L a = false -> m' a = m a.
Proof.
  intros SS T O al A L m HSS P HN. pose proof (conts_pre SS al A L HSS P HN) as Q.
  destruct (C28_potrf_dense_ops SS 1 T O al (whole A) (whole L) m HSS ltac:(lia) Q) as (m' & E & _ & U).
  exists m'. split; auto. intros a Ha. apply U. intros i j (H1 & H2 & H3) ->.
  destruct P as (b1 & b2 & s1 & s2 & z1 & z2 & z3 & _). rewrite Nat.mul_1_l in H2. cbn [whole v_m v_n] in *.
  apply Bool.not_true_iff_false in Ha. apply Ha. change (v_addr SS (whole L) i j) with (c_base L + c_index SS L i j).
  unfold c_alloc. apply andb_true_intro. split; [apply Nat.leb_le; lia|apply Nat.ltb_lt].
  apply Nat.add_lt_mono_l. apply c_index_bound_pad; auto; rewrite s2, z2, z3; auto.
Qed.
Theorem C29_potrf_panel_footprint : forall SS T (O : Ops T) al A L m, 0 < SS -> potrf_conts SS al A L -> c_cols A mod SS = 0 ->
  exists m', potrf_panel SS 1 (1 * SS) T O al (whole A) (whole L) m = Ok m' /\
    forall a, c_alloc SS L a = false -> m' a = m a.
Proof.
  intros SS T O al A L m HSS P HN. pose proof (conts_pre SS al A L HSS P HN) as Q.
  destruct (C28_potrf_panel_ops SS 1 T O al (whole A) (whole L) m HSS ltac:(lia) Q) as (m' & E & _ & U).
  exists m'. split; auto. intros a Ha. apply U. intros i j H1 H2 H3 ->.
  destruct P as (b1 & b2 & s1 & s2 & z1 & z2 & z3 & _). rewrite Nat.mul_1_l in H1. cbn [whole v_m v_n] in *.
  apply Bool.not_true_iff_false in Ha. apply Ha. change (v_addr SS (whole L) i j) with (c_base L + c_index SS L i j).
  unfold c_alloc. apply andb_true_intro. split; [apply Nat.leb_le; lia|apply Nat.ltb_lt].
  apply Nat.add_lt_mono_l. apply c_index_bound_pad; auto; rewrite s2, z2, z3; auto.
Qed.

(** The two halves of the claim fail in the remaining cases.
    (1) N not a multiple of 4: a 1-by-1 double matrix (SIMD size 4) -- the kernel reads 4 columns of a 1-column buffer. *)
Definition two (SS : nat) (k : kind) (M N b : nat) : container * container :=
  (Cont k true columnMajor M N 0, Cont k true columnMajor M N b).
Definition two_al (SS : nat) (p : container * container) (x : nat) : bool := c_alloc SS (fst p) x || c_alloc SS (snd p) x.
Theorem C29_potrf_columns_refuted :
  potrf_dense 4 1 4 Z zops (two_al 4 (two 4 Dense 1 1 4)) (whole (fst (two 4 Dense 1 1 4))) (whole (snd (two 4 Dense 1 1 4))) (fun _ => 1%Z) = UB /\
  potrf_panel 4 1 4 Z zops (two_al 4 (two 4 Panel 5 5 64)) (whole (fst (two 4 Panel 5 5 64))) (whole (snd (two 4 Panel 5 5 64))) (fun _ => 1%Z) = UB.
Proof. vm_compute. auto. Qed.
(** (2) Tile of two SIMD registers (double on NEON: SIMD size 2, row step 4), 14-by-4 matrices: accesses outside the buffers;
    even in a large allocation the rows 14 and 15 of a column, which are rows 0 and 1 of the next one, are overwritten and the
    result is wrong: for A = diag(1, 9, 1, 1) extended by zeros L(1,1) = 9 instead of 3. *)
Definition neon_p := two 2 Dense 14 4 60.
Definition neon_m (x : nat) : Z := if x =? 15 then 9%Z else if existsb (fun i => x =? i + 14 * i) [0; 2; 3] then 1%Z else 0%Z.
Theorem C29_potrf_tile_rows_refuted :
  potrf_dense 2 2 4 Z zops (two_al 2 neon_p) (whole (fst neon_p)) (whole (snd neon_p)) neon_m = UB /\
  match potrf_dense 2 2 4 Z zops (fun x => x <? 120) (whole (fst neon_p)) (whole (snd neon_p)) neon_m with
  | Ok m' => m' (v_addr 2 (whole (snd neon_p)) 1 1) = 9%Z
  | _ => False
  end.
Proof. vm_compute. auto. Qed.
(** (3) float with SIMD size 8: 4 columns per kernel, so the second block column starts at row 4: a misaligned access. *)
Theorem C29_potrf_float_refuted :
  potrf_dense 8 1 4 Z zops (fun _ => true) (whole (fst (two 8 Dense 8 8 64))) (whole (snd (two 8 Dense 8 8 64))) (fun _ => 1%Z) = UB /\
  potrf_panel 8 1 4 Z zops (fun _ => true) (whole (fst (two 8 Panel 8 8 64))) (whole (snd (two 8 Panel 8 8 64))) (fun _ => 1%Z) = UB.
Proof. vm_compute. auto. Qed.
(** (4) A window of 5 rows of an 8-by-4 matrix: the rows of the parent below the window are overwritten. *)
Definition par_A := Cont Dense true columnMajor 8 4 0.
Definition par_L := Cont Dense true columnMajor 8 4 32.
Definition par_m (x : nat) : Z := if existsb (fun i => x =? i + 8 * i) [0; 1; 2; 3] then 1%Z else if x <? 32 then 0%Z else 7%Z.
Theorem C29_potrf_parent_refuted :
  match potrf_dense 4 1 4 Z zops (fun x => x <? 64) (submatrix true par_A 0 0 5 4) (submatrix true par_L 0 0 5 4) par_m with
  | Ok m' => m' (c_addr 4 par_L 6 1) = 0%Z /\ par_m (c_addr 4 par_L 6 1) = 7%Z
  | _ => False
  end.
Proof. vm_compute. auto. Qed.
(** (5) potrf on panel matrices overwrites elements of L above the diagonal: A = diag(1,..,1), L(0,1) = 7 before. *)
Theorem C28_potrf_panel_upper_refuted :
  let A := Cont Panel true columnMajor 4 4 0 in let L := Cont Panel true columnMajor 4 4 16 in
  let m := fun x => if existsb (fun i => x =? i + 4 * i) [0; 1; 2; 3] then 1%Z else if x <? 16 then 0%Z else 7%Z in
  match potrf_panel 4 1 4 Z zops (fun x => x <? 32) (whole A) (whole L) m with
  | Ok m' => m (c_addr 4 L 0 1) = 7%Z /\ m' (c_addr 4 L 0 1) = 0%Z
  | _ => False
  end.
Proof. vm_compute. auto. Qed.

(* ------------------------------------------------------------------ examples *)
(** 6-by-4 matrices, the second at address 32. *)
Definition xA := Cont Dense true columnMajor 6 4 0.
Definition xL := Cont Dense true columnMajor 6 4 32.
Definition x_al (x : nat) : bool := c_alloc 4 xA x || c_alloc 4 xL x.
Example C29_example : potrf_conts 4 x_al xA xL /\ c_cols xA mod 4 = 0.
Proof.
  split; [|reflexivity]. unfold potrf_conts, x_al. cbn [xA xL c_base c_so c_rows c_cols]. repeat split; auto.
  - intros x ->. reflexivity.
  - intros x ->. apply Bool.orb_true_r.
  - right. intros x. unfold c_alloc. intros H. apply andb_prop in H. destruct H as [H _]. apply Nat.leb_le in H. cbn in H.
    apply Bool.andb_false_intro2. apply Nat.ltb_ge. cbn. lia.
Qed.
Example C28_example : potrf_pre 4 1 x_al (whole xA) (whole xL).
Proof. apply conts_pre; [lia|apply C29_example|reflexivity]. Qed.
(** In place. *)
Example C28_example_in_place : potrf_pre 4 1 (c_alloc 4 xA) (whole xA) (whole xA).
Proof. apply conts_pre; [lia| |reflexivity]. unfold potrf_conts. cbn. repeat split; auto. Qed.
(** A positive definite matrix: [2 1; 1 2]. *)
Example C28_example_pos_def : pos_def 2 (fun i j => if i =? j then 2%R else 1%R).
Proof.
  split.
  - intros i j _ _. rewrite Nat.eqb_sym. reflexivity.
  - intros v (i & Hi & Hv). cbn.
    assert (E : (0 + (0 + v 0%nat * 2 * v 0%nat + v 0%nat * 1 * v 1%nat) + (0 + v 1%nat * 1 * v 0%nat + v 1%nat * 2 * v 1%nat) =
      v 0%nat * v 0%nat + v 1%nat * v 1%nat + (v 0%nat + v 1%nat) * (v 0%nat + v 1%nat))%R) by ring.
    rewrite E. pose proof (Rle_0_sqr (v 0%nat)). pose proof (Rle_0_sqr (v 1%nat)). pose proof (Rle_0_sqr (v 0%nat + v 1%nat)).
    unfold Rsqr in *. destruct i as [|[|]]; [| |lia]; apply Rsqr_pos_lt in Hv; unfold Rsqr in Hv; lra.
Qed.
(** Integer run: A = L0 * L0^T with L0(i,j) = 1 for j <= i, i.e. A(i,j) = min(i,j)+1; the factor has ones. *)
Definition x_m (x : nat) : Z := if x <? 32 then Z.of_nat (min (x mod 8) (x / 8) + 1) else 7%Z.
Example C28_example_run :
  match potrf_dense 4 1 4 Z zops x_al (whole xA) (whole xL) x_m with
  | Ok m' => map (fun j => map (fun i => m' (c_addr 4 xL i j)) (seq 0 6)) (seq 0 4)
  | _ => [] end = [[1;1;1;1;1;1]; [7;1;1;1;1;1]; [7;7;1;1;1;1]; [7;7;7;1;1;1]]%Z.
Proof. vm_compute. reflexivity. Qed.
