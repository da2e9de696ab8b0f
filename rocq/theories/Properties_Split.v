(** Properties_Split.v -- C79: a call can be replaced by several smaller calls, to the last bit. *)
From Coq Require Import Arith Lia List Bool PeanoNat ZArith.
From Verif Require Import Base Base_Proofs Spec Instances Layout_Model Layout_Proofs Simd_Model Simd_Proofs Reg_Model Reg_Proofs Vec_Proofs Tile_Model Tile_Proofs
  Gemm_Model Arg_Proofs Gemm_Proofs Ger_Model Ger_Proofs Syrk_Model Syrk_Proofs Tri_Model Tri_Proofs LU_Model LU_Proofs Algebra_Proofs
  Properties_Gemm Properties_Ger Properties_Syrk Properties_Tri Properties_LU.
Import ListNotations.

(* ------------------------------------------------------------------ rank-one updates *)
(** A client program: for k = 0..K-1: ger(alpha, x_k, y_k, G, G). *)
Definition rank1_updates (SS cc : nat) {T} (O : Ops T) (al : alloc) (alpha : T) (x y : nat -> varg) (G : marg) (K : nat) (m : mem T) : res (mem T) :=
  for_ 0 K (fun k m => ger_cm SS cc T O al alpha (x k) (y k) G G m) m.

(** Every element of G goes through K fused multiply-adds in the order of the calls, and nothing else changes. *)
Theorem C79_rank1_updates : forall SS cc T (O : Ops T) al alpha x y G M N K m, 0 < SS -> 0 < cc -> (forall a, omul O (o1 O) a = a) ->
  (forall k, k < K -> x_size (x k) = M /\ x_size (y k) = N /\ ger_pre SS cc al (x k) (y k) G G) ->
  exists m', rank1_updates SS cc O al alpha x y G K m = Ok m' /\
    updated (block M N) (g_addr SS G)
      (fun i j => fma_chain O K (fun k => omul O alpha (m (vaddr SS (x_ptr (x k)) i))) (fun k => m (vaddr SS (x_ptr (y k)) j)) (m (g_addr SS G i j))) m m'.
Proof.
  intros SS cc T O al alpha x y G M N K m HSS Hcc H1 HP. unfold rank1_updates.
  destruct (for_inv (mem T) (fun k m' => updated (block M N) (g_addr SS G)
    (fun i j => fma_chain O k (fun k => omul O alpha (m (vaddr SS (x_ptr (x k)) i))) (fun k => m (vaddr SS (x_ptr (y k)) j)) (m (g_addr SS G i j))) m m')
    0 K (fun k m => ger_cm SS cc T O al alpha (x k) (y k) G G m) m) as (m' & E & U); try lia.
  - split; auto.
  - intros k m1 Hk [V F]. destruct (HP k ltac:(lia)) as (Zx & Zy & P).
    destruct (C23_ger_column_major_fma SS cc T O al alpha (x k) (y k) G G m1 HSS Hcc P H1) as (m2 & E & V2 & F2).
    rewrite Zx, Zy in *. exists m2. split; [exact E|]. split.
    + intros i j Hij. rewrite V2 by auto. cbn [fma_chain]. destruct Hij as [Hi Hj]. rewrite V by (split; auto).
      rewrite !(F (vaddr _ _ _)).
      * reflexivity.
      * intros i' j' [Hi' Hj'] X. destruct P. rewrite Zx, Zy in *. apply (rp_sepy i' j' j); auto.
      * intros i' j' [Hi' Hj'] X. destruct P. rewrite Zx, Zy in *. apply (rp_sepx i' j' i); auto.
    + intros a Ha. rewrite F2, F; auto.
  - exists m'. split; auto.
Qed.

(** syrkLower performs the operations of K rank-one updates of beta*C with the columns of A. *)
Theorem C79_syrk_by_rank1_updates : forall SS cc T (O : Ops T) al alpha A beta C D x y G m, 0 < SS -> 0 < cc -> (forall a, omul O (o1 O) a = a) ->
  syrk_pre SS cc al A C D ->
  (forall k, k < v_n A -> x_size (x k) = v_m A /\ x_size (y k) = v_m A /\ ger_pre SS cc al (x k) (y k) G G /\
     forall i, i < v_m A -> vaddr SS (x_ptr (x k)) i = v_addr SS A i k /\ vaddr SS (x_ptr (y k)) i = v_addr SS A i k) ->
  (forall i j, lower (v_m A) (v_m A) i j -> m (g_addr SS G i j) = omul O beta (m (v_addr SS C i j))) ->
  exists m1 m2, syrkLower SS cc T O al alpha A beta C D m = Ok m1 /\ rank1_updates SS cc O al alpha x y G (v_n A) m = Ok m2 /\
    forall i j, lower (v_m A) (v_m A) i j -> m1 (v_addr SS D i j) = m2 (g_addr SS G i j).
Proof.
  intros SS cc T O al alpha A beta C D x y G m HSS Hcc H1 P HX HG.
  destruct (C24_syrk_ops SS cc T O al alpha A beta C D m HSS Hcc P) as (m1 & E1 & V1 & _).
  destruct (C79_rank1_updates SS cc T O al alpha x y G (v_m A) (v_m A) (v_n A) m HSS Hcc H1) as (m2 & E2 & V2 & _).
  { intros k Hk. destruct (HX k Hk) as (a & b & c & _). auto. }
  exists m1, m2. split; auto. split; auto. intros i j Hij. rewrite V1 by auto. destruct Hij as (Hji & Hi & Hj). rewrite V2 by (split; lia).
  rewrite HG by (repeat split; auto). apply fma_chain_ext; intros k Hk; destruct (HX k Hk) as (_ & _ & _ & Q).
  - destruct (Q i Hi) as [-> _]. reflexivity.
  - destruct (Q j ltac:(lia)) as [_ ->]. reflexivity.
Qed.

(** gemm accumulates the rank-one updates of a zero matrix with the columns of A and the rows of B, then scales once: to the last bit. *)
Theorem C79_gemm_by_rank1_updates : forall SS cc T (O : Ops T) al alpha A B beta C D x y G m, 0 < SS -> 0 < cc -> (forall a, omul O (o1 O) a = a) ->
  gemm_pre SS al A B C D ->
  (forall k, k < g_cols A -> x_size (x k) = g_rows A /\ x_size (y k) = g_cols B /\ ger_pre SS cc al (x k) (y k) G G /\
     (forall i, i < g_rows A -> vaddr SS (x_ptr (x k)) i = g_addr SS A i k) /\ (forall j, j < g_cols B -> vaddr SS (x_ptr (y k)) j = g_addr SS B k j)) ->
  (forall i j, block (g_rows A) (g_cols B) i j -> m (g_addr SS G i j) = o0 O) ->
  exists m1 m2, gemm SS T O al alpha A B beta C D m = Ok m1 /\ rank1_updates SS cc O al (o1 O) x y G (g_cols A) m = Ok m2 /\
    forall i j, block (g_rows A) (g_cols B) i j ->
      m1 (g_addr SS D i j) = ofma O beta (m (g_addr SS C i j)) (omul O (m2 (g_addr SS G i j)) alpha).
Proof.
  intros SS cc T O al alpha A B beta C D x y G m HSS Hcc H1 P HX HG.
  destruct (C17_gemm_ops SS T O al alpha A B beta C D m HSS P) as (m1 & E1 & V1 & _).
  destruct (C79_rank1_updates SS cc T O al (o1 O) x y G (g_rows A) (g_cols B) (g_cols A) m HSS Hcc H1) as (m2 & E2 & V2 & _).
  { intros k Hk. destruct (HX k Hk) as (a & b & c & _). auto. }
  exists m1, m2. split; auto. split; auto. intros i j Hij. rewrite V1, V2 by auto. f_equal. f_equal.
  rewrite HG by auto. destruct Hij as [Hi Hj]. apply fma_chain_ext; intros k Hk; destruct (HX k Hk) as (_ & _ & _ & Q1 & Q2).
  - rewrite Q1, H1; auto.
  - rewrite Q2; auto.
Qed.

(* ------------------------------------------------------------------ triangular solves *)
(** Columns c, c+1, ..., c+n-1 of a matrix. *)
Definition columns_of (A : dmat) (c n : nat) : dmat := DMat (d_m A) n (fun i j => d_at A i (c + j)).
Definition column_of (A : dmat) (c : nat) : dvec := DVec (d_m A) (fun i => d_at A i c).

Definition substituted {T} (O : Ops T) (ul : uplo) (unit : bool) (N : nat) (a : nat -> T) (x : nat -> T) (b : T) (i : nat) : T :=
  let acc := match ul with
             | Lower => sub_chain O i a x b
             | Upper => sub_chain O (N - (i + 1)) (fun c => a (i + 1 + c)) (fun c => x (i + 1 + c)) b
             end in
  if unit then acc else odiv O acc (a i).
Lemma substituted_unique : forall T (O : Ops T) ul unit N a b x y,
  (forall i, i < N -> x i = substituted O ul unit N (a i) x (b i) i) -> (forall i, i < N -> y i = substituted O ul unit N (a i) y (b i) i) ->
  forall i, i < N -> x i = y i.
Proof.
  intros T O ul unit N a b x y Hx Hy. destruct ul.
  - induction i as [i IH] using lt_wf_ind. intros Hi. rewrite Hx, Hy by auto. unfold substituted.
    rewrite (sub_chain_ext O i (a i) x (a i) y) by (auto; intros k Hk; apply IH; lia). reflexivity.
  - assert (G : forall d i, i < N -> N - i = d -> x i = y i).
    { induction d as [d IH] using lt_wf_ind. intros i Hi Hd. rewrite Hx, Hy by auto. unfold substituted.
      rewrite (sub_chain_ext O (N - (i + 1)) (fun c => a i (i + 1 + c)) (fun c => x (i + 1 + c)) (fun c => a i (i + 1 + c)) (fun c => y (i + 1 + c))); auto.
      intros k Hk. apply (IH (N - (i + 1 + k))); lia. }
    intros i Hi. apply (G (N - i)); auto.
Qed.
Lemma trsm_substituted : forall T (O : Ops T) al ul unit A B X m, trsm_pre al ul unit A B X ->
  exists m', trsm T O al ul unit A B X m = Ok m' /\
    (forall i j, i < d_m B -> j < d_n B -> m' (d_at X i j) = substituted O ul unit (d_m B) (fun k => m (d_at A i k)) (fun k => m' (d_at X k j)) (m (d_at B i j)) i) /\
    (forall a, (forall i j, i < d_m B -> j < d_n B -> a <> d_at X i j) -> m' a = m a).
Proof.
  intros T O al ul unit A B X m P. destruct (C31_trsm_ops T O al ul unit A B X m P) as (m' & E & V & F). exists m'. split; auto.
Qed.
(** B' is columns c, c+1, ..., c+n-1 of B. *)
Definition is_columns (B' B : dmat) (c n : nat) : Prop := d_m B' = d_m B /\ d_n B' = n /\ forall i j, j < n -> d_at B' i j = d_at B i (c + j).
Lemma trsm_pre_columns : forall al ul unit A B X B' X' c n, trsm_pre al ul unit A B X -> is_columns B' B c n -> is_columns X' X c n -> c + n <= d_n B ->
  trsm_pre al ul unit A B' X'.
Proof.
  intros al ul unit A B X B' X' c n [h1 [h2 h2'] h3 h4 h5 h6 h7 h8] (b1 & b2 & b3) (x1 & x2 & x3) Hc. constructor; rewrite ?b1, ?b2, ?x1, ?x2; auto.
  - intros i j Hi Hj. rewrite b3 by auto. apply h4; lia.
  - intros i j Hi Hj. rewrite x3 by auto. apply h5; lia.
  - intros i j i' j' Hi Hj Hi' Hj' E. rewrite !x3 in E by auto. destruct (h6 i (c + j) i' (c + j')) as [-> X0]; auto; lia.
  - intros i j i' k Hi Hj Hi' Hk R. rewrite x3 by auto. apply h7; auto; lia.
  - intros i j i' j' Hi Hj Hi' Hj' E. rewrite x3, b3 in E by auto. destruct (h8 i (c + j) i' (c + j')) as [-> X0]; auto; lia.
Qed.
Lemma substituted_ext : forall T (O : Ops T) ul unit N a a' x b b' i, i < N -> (forall k, k < N -> referenced ul unit i k -> a k = a' k) -> b = b' ->
  substituted O ul unit N a x b i = substituted O ul unit N a' x b' i.
Proof.
  intros T O ul unit N a a' x b b' i Hi Ha <-. unfold substituted.
  assert (D : forall c c', c = c' -> (if unit then c else odiv O c (a i)) = (if unit then c' else odiv O c' (a' i))).
  { intros c c' <-. destruct unit; auto. rewrite Ha; auto. right. auto. }
  destruct ul; cbv zeta; apply D; apply sub_chain_ext; auto; intros k Hk; apply Ha; try lia; left; lia.
Qed.

Lemma substituted_ext_x : forall T (O : Ops T) ul unit N a x x' b i, (forall k, x k = x' k) ->
  substituted O ul unit N a x b i = substituted O ul unit N a x' b i.
Proof.
  intros T O ul unit N a x x' b i H. unfold substituted. destruct ul.
  - rewrite (sub_chain_ext O i a x a x'); auto.
  - rewrite (sub_chain_ext O (N - (i + 1)) (fun c => a (i + 1 + c)) (fun c => x (i + 1 + c)) (fun c => a (i + 1 + c)) (fun c => x' (i + 1 + c))); auto.
Qed.

Section Columns.
Variables (T : Type) (O : Ops T) (al : alloc) (ul : uplo) (unit : bool) (A B X : dmat) (m mf : mem T).
Hypothesis P : trsm_pre al ul unit A B X.
Hypothesis E : trsm T O al ul unit A B X m = Ok mf.
Definition columns_done (c : nat) (m1 : mem T) : Prop :=
  (forall i j, i < d_m B -> j < c -> m1 (d_at X i j) = mf (d_at X i j)) /\
  (forall a, (forall i j, i < d_m B -> j < c -> a <> d_at X i j) -> m1 a = m a).
Lemma columns_step : forall c n B' X' m1, columns_done c m1 -> c + n <= d_n B -> is_columns B' B c n -> is_columns X' X c n ->
  exists m2, trsm T O al ul unit A B' X' m1 = Ok m2 /\ columns_done (c + n) m2.
Proof.
  intros c n B' X' m1 [V F] Hc HB HX.
  destruct (trsm_substituted T O al ul unit A B X m P) as (mf' & E' & VF & _). rewrite E in E'. injection E' as <-.
  destruct (trsm_substituted T O al ul unit A _ _ m1 (trsm_pre_columns _ _ _ _ _ _ _ _ _ _ P HB HX Hc)) as (m2 & E2 & V2 & F2).
  destruct HB as (b1 & b2 & b3), HX as (x1 & x2 & x3). rewrite b1, b2 in *.
  exists m2. split; auto. pose proof P as [h1 [h2 h2'] h3 h4 h5 h6 h7 h8]. split.
  - intros i j Hi Hj. destruct (le_lt_dec c j) as [L|L].
    + replace j with (c + (j - c)) by lia. revert i Hi.
      apply (substituted_unique T O ul unit (d_m B) (fun i k => m (d_at A i k)) (fun i => m (d_at B i (c + (j - c))))
               (fun i => m2 (d_at X i (c + (j - c)))) (fun i => mf (d_at X i (c + (j - c))))); cbn beta.
      * intros i Hi. rewrite <- x3 by lia. rewrite V2 by (auto; lia).
        rewrite (substituted_ext_x T O ul unit (d_m B) _ (fun k => m2 (d_at X' k (j - c))) (fun k => m2 (d_at X k (c + (j - c))))) by (intros; cbn beta; rewrite x3; auto; lia).
        apply substituted_ext; auto.
        -- intros k Hk R. apply F. intros i' j' Hi' Hj' Q. apply (h7 i' j' i k); auto. lia.
        -- rewrite b3 by lia. apply F. intros i' j' Hi' Hj' Q. destruct (h8 i' j' i (c + (j - c))); auto; lia.
      * intros i Hi. apply VF; auto. lia.
    + rewrite F2; [apply V; auto|]. intros i' j' Hi' Hj' Q. rewrite x3 in Q by auto. destruct (h6 i j i' (c + j')) as [_ ?]; auto; lia.
  - intros a Ha. rewrite F2, F; auto; intros i j Hi Hj; rewrite ?x3 by auto; apply Ha; auto; lia.
Qed.
Lemma columns_all : forall m1, columns_done (d_n B) m1 -> forall a, m1 a = mf a.
Proof.
  intros m1 [V F] a.
  destruct (trsm_substituted T O al ul unit A B X m P) as (mf' & E' & _ & FF). rewrite E in E'. injection E' as <-.
  assert (D : (exists i j, i < d_m B /\ j < d_n B /\ a = d_at X i j) \/ (forall i j, i < d_m B -> j < d_n B -> a <> d_at X i j)).
  { clear. generalize (d_m B) as M, (d_n B) as N. induction M as [|M IH]; intros N; [right; intros; lia|].
    destruct (IH N) as [(i & j & Hi & Hj & Q)|H]; [left; exists i, j; auto|].
    assert (R : (exists j, j < N /\ a = d_at X M j) \/ forall j, j < N -> a <> d_at X M j).
    { clear. induction N as [|N IH]; [right; intros; lia|]. destruct IH as [(j & Hj & Q)|H]; [left; exists j; auto|].
      destruct (Nat.eq_dec a (d_at X M N)); [left; exists N; auto|]. right. intros j Hj. destruct (Nat.eq_dec j N) as [->|]; auto. apply H. lia. }
    destruct R as [(j & Hj & Q)|R]; [left; exists M, j; auto|]. right. intros i j Hi Hj. destruct (Nat.eq_dec i M) as [->|]; auto. apply H; lia. }
  destruct D as [(i & j & Hi & Hj & ->)|D]; [auto|]. rewrite F, FF; auto.
Qed.
End Columns.

(** Solving for the first n1 columns, then for the rest, is solving for all of them; and so on for more parts. *)
Theorem C79_trsm_by_columns : forall T (O : Ops T) al ul unit A B X m n1 n2, trsm_pre al ul unit A B X -> n1 + n2 = d_n B ->
  exists m1 m2, trsm T O al ul unit A B X m = Ok m1 /\
    (m' <- trsm T O al ul unit A (columns_of B 0 n1) (columns_of X 0 n1) m ;; trsm T O al ul unit A (columns_of B n1 n2) (columns_of X n1 n2) m') = Ok m2 /\
    forall a, m1 a = m2 a.
Proof.
  intros T O al ul unit A B X m n1 n2 P Hn. destruct (trsm_substituted T O al ul unit A B X m P) as (mf & E & _).
  destruct (columns_step T O al ul unit A B X m mf P E 0 n1 (columns_of B 0 n1) (columns_of X 0 n1) m) as (m1 & E1 & D1); try lia; try (repeat split).
  { intros; lia. }
  destruct (columns_step T O al ul unit A B X m mf P E n1 n2 (columns_of B n1 n2) (columns_of X n1 n2) m1) as (m2 & E2 & D2); try lia; auto; try (repeat split).
  exists mf, m2. split; auto. rewrite E1. cbn [bind]. split; auto. intros a. symmetry. rewrite Hn in D2. eapply columns_all; eauto.
Qed.

(** trsm is trsv on the columns, one after another. *)
Theorem C79_trsm_by_trsv : forall T (O : Ops T) al ul A B X m, trsm_pre al ul false A B X ->
  exists m1 m2, trsm T O al ul false A B X m = Ok m1 /\
    for_ 0 (d_n B) (fun j m => trsv T O al ul A (column_of B j) (column_of X j) m) m = Ok m2 /\ forall a, m1 a = m2 a.
Proof.
  intros T O al ul A B X m P. destruct (trsm_substituted T O al ul false A B X m P) as (mf & E & _).
  destruct (for_inv (mem T) (columns_done T B X m mf) 0 (d_n B) (fun j m => trsv T O al ul A (column_of B j) (column_of X j) m) m) as (m2 & E2 & D2); try lia.
  { split; auto. intros; lia. }
  { intros j m1 Hj D.
    destruct (columns_step T O al ul false A B X m mf P E j 1 (as_column (column_of B j)) (as_column (column_of X j)) m1 D) as (m2 & E2 & D2); try lia.
    - repeat split. intros i j' Hj'. cbn. f_equal. lia.
    - repeat split. intros i j' Hj'. cbn. f_equal. lia.
    - exists m2. rewrite trsv_trsm by (cbn; destruct (ts_X _ _ _ _ _ _ P); auto). split; auto. rewrite <- Nat.add_1_r. exact D2. }
  exists mf, m2. split; auto. split; auto. intros a. symmetry. eapply columns_all; eauto.
Qed.

(* ------------------------------------------------------------------ row interchanges *)
(** laswp over consecutive ranges: no condition on the matrix, the pivots or the memory. *)
Theorem C79_laswp_split : forall T al A k0 k1 k2 p (m : mem T), k0 <= k1 -> k1 <= k2 ->
  laswp T al A k0 k2 p m = (m' <- laswp T al A k0 k1 p m ;; laswp T al A k1 k2 p m').
Proof.
  intros T al A k0 k1 k2 p m H0 H1. unfold laswp, for_. set (f := fun k (m : mem T) => _). replace (k2 - k0) with ((k1 - k0) + (k2 - k1)) by lia.
  assert (G : forall n1 n2 k m, loop (n1 + n2) k f m = (m' <- loop n1 k f m ;; loop n2 (k + n1) f m')).
  { induction n1 as [|n1 IH]; intros n2 k m'; cbn [loop Nat.add bind]; [rewrite Nat.add_0_r; reflexivity|].
    destruct (f k m') as [s| | | |]; cbn [bind]; auto. rewrite IH. replace (S k + n1) with (k + S n1) by lia. reflexivity. }
  rewrite G. replace (k0 + (k1 - k0)) with k1 by lia. reflexivity.
Qed.

(* ------------------------------------------------------------------ index of the maximum *)
(** The index for two consecutive parts of a vector is that of the first part, unless the maximum of the second is strictly larger. *)
Theorem C79_iamax_split : forall T (O : Ops T) al n1 n2 at_ (m : mem T), 0 < n1 -> 0 < n2 -> magnitudes_ordered O -> (forall i, i < n1 + n2 -> al (at_ i) = true) ->
  exists r1 r2, iamax_d T O al (DVec n1 at_) m = Ok r1 /\ iamax_d T O al (DVec n2 (fun i => at_ (n1 + i))) m = Ok r2 /\
    iamax_d T O al (DVec (n1 + n2) at_) m = Ok (if oltb O (oabs O (m (at_ r1))) (oabs O (m (at_ (n1 + r2)))) then n1 + r2 else r1).
Proof.
  intros T O al n1 n2 at_ m H1 H2 MO Hal. pose proof MO as (M1 & M2 & M3).
  assert (G : forall n at_, 0 < n -> (forall i, i < n -> al (at_ i) = true) -> exists r, iamax_d T O al (DVec n at_) m = Ok r /\ first_max O n (fun i => m (at_ i)) r).
  { intros n a Hn Ha. destruct (C32_iamax_blaze T O al n a m) as [_ X]. destruct (X Hn Ha) as (r & E & _ & F). exists r. split; auto. apply F.
    split; [|split]; cbn; intros; eauto. }
  destruct (G n1 at_ H1) as (r1 & E1 & L1 & F1 & S1); [intros; apply Hal; lia|].
  destruct (G n2 (fun i => at_ (n1 + i)) H2) as (r2 & E2 & L2 & F2 & S2); [intros; apply Hal; lia|].
  destruct (G (n1 + n2) at_) as (r & E & L & F & S); [lia|auto|]. cbn beta in *.
  exists r1, r2. split; auto. split; auto. rewrite E. f_equal.
  assert (U : forall r', r' < n1 + n2 -> (forall j, j < n1 + n2 -> oltb O (oabs O (m (at_ r'))) (oabs O (m (at_ j))) = false) ->
     (forall j, j < r' -> oltb O (oabs O (m (at_ j))) (oabs O (m (at_ r'))) = true) -> r = r').
  { intros r' L' F' S'. destruct (lt_eq_lt_dec r r') as [[Q|Q]|Q]; auto.
    - specialize (S' r Q). rewrite (F r' L') in S'. discriminate.
    - specialize (S r' Q). rewrite (F' r L) in S. discriminate. }
  destruct (oltb O (oabs O (m (at_ r1))) (oabs O (m (at_ (n1 + r2))))) eqn:C; apply U; try lia.
  - intros j Hj. destruct (le_lt_dec n1 j).
    + replace j with (n1 + (j - n1)) by lia. apply F2. lia.
    + destruct (oltb O (oabs O (m (at_ (n1 + r2)))) (oabs O (m (at_ j)))) eqn:D; auto. pose proof (M2 _ _ _ C D) as X. rewrite F1 in X by auto. discriminate.
  - intros j Hj. destruct (le_lt_dec n1 j).
    + replace j with (n1 + (j - n1)) by lia. apply S2. lia.
    + destruct (oltb O (oabs O (m (at_ j))) (oabs O (m (at_ (n1 + r2))))) eqn:D; auto.
      pose proof (M3 _ _ _ (F1 j l) D) as X. congruence.
  - intros j Hj. destruct (le_lt_dec n1 j); [|apply F1; auto].
    replace j with (n1 + (j - n1)) by lia. eapply M3; [exact C|]. apply F2. lia.
  - intros j Hj. apply S1; auto.
Qed.

(* ------------------------------------------------------------------ examples *)
Lemma all1_ok : forall n P, forallb P (seq 0 n) = true -> forall i, i < n -> P i = true.
Proof. intros n P H i Hi. rewrite forallb_forall in H. apply H. apply in_seq. lia. Qed.
(** A is 6-by-3 (column k at 8*k), C = D is 6-by-6 at 32, G 6-by-6 at 80 holding 3*C. *)
Definition xA : view := whole sA.
Definition xD : view := whole sD.
Definition xG : marg := MArg (whole (Cont Dense false columnMajor 6 6 80)) false.
Definition x_al (a : nat) : bool := a <? 128.
Definition x_m (a : nat) : Z := if a <? 80 then Z.of_nat a else (3 * Z.of_nat (a - 48))%Z.
Definition x_col (k : nat) : varg := VArg 6 (VStat 1 true (8 * k)).
Definition x_row (k : nat) : varg := VArg 6 (VStat 1 false (8 * k)).
Example C79_example_syrk :
  syrk_pre 4 1 x_al xA xD xD /\
  (forall k, k < 3 -> x_size (x_col k) = 6 /\ x_size (x_row k) = 6 /\ ger_pre 4 1 x_al (x_col k) (x_row k) xG xG /\
     forall i, i < 6 -> vaddr 4 (x_ptr (x_col k)) i = v_addr 4 xA i k /\ vaddr 4 (x_ptr (x_row k)) i = v_addr 4 xA i k) /\
  (forall i j, lower 6 6 i j -> x_m (g_addr 4 xG i j) = (3 * x_m (v_addr 4 xD i j))%Z).
Proof.
  assert (HB : arg_ok 4 xG) by (cbv; repeat split; auto; lia).
  assert (AD : forall i j, g_addr 4 xG i j = 80 + (i + 8 * j)) by (intros; unfold g_addr, v_addr, c_addr, c_index; cbn; lia).
  assert (AA : forall i j, v_addr 4 xA i j = i + 8 * j) by (intros; unfold v_addr, c_addr, c_index; cbn; lia).
  assert (AC : forall i j, v_addr 4 xD i j = 32 + (i + 8 * j)) by (intros; unfold v_addr, c_addr, c_index; cbn; lia).
  assert (SZ : v_m xA = 6 /\ v_n xA = 3) by (split; reflexivity). destruct SZ as [S6 S3].
  split; [|split].
  - constructor; try (repeat split; reflexivity); try (cbn; lia).
    + intros i j Hi Hj. rewrite AA. change (nextMultiple (v_m xA) (1 * 4)) with 8 in Hi. rewrite ?S6, ?S3 in *. unfold x_al. apply Nat.ltb_lt. lia.
    + intros i j Hi Hj. rewrite AC. change (nextMultiple (v_m xA) (1 * 4)) with 8 in Hi. rewrite ?S6, ?S3 in *. unfold x_al. apply Nat.ltb_lt. lia.
    + intros i j (H1 & H2 & H3). rewrite AC. rewrite ?S6, ?S3 in *. unfold x_al. apply Nat.ltb_lt. lia.
    + intros i j i' j' (H1 & H2 & H3) (H1' & H2' & H3') X. rewrite !AC in X. rewrite ?S6, ?S3 in *. lia.
  - intros k Hk. split; auto. split; auto. split.
    + constructor; auto; try reflexivity; try (cbn; split; reflexivity).
      * intros _ _. cbn. destruct k as [|[|[|]]]; auto; lia.
      * intros i Hi. change (nextMultiple (x_size (x_col k)) (1 * 4)) with 8 in Hi. cbn [vaddr x_ptr x_col]. unfold x_al. apply Nat.ltb_lt. lia.
      * intros i Hi. cbn [vaddr x_ptr x_row x_size] in *. unfold x_al. apply Nat.ltb_lt. lia.
      * intros i j Hi Hj. rewrite AD. change (nextMultiple (x_size (x_col k)) 4) with 8 in Hi. cbn in Hj. unfold x_al. apply Nat.ltb_lt. lia.
      * intros i j Hi Hj. rewrite AD. cbn in Hi, Hj. unfold x_al. apply Nat.ltb_lt. lia.
      * intros i j l Hi Hj Hl. rewrite AD. cbn [vaddr x_ptr x_col x_size] in *. lia.
      * intros i j l Hi Hj Hl. rewrite AD. cbn [vaddr x_ptr x_row x_size] in *. lia.
      * intros i j i' j' [Hi Hj] [Hi' Hj'] X. rewrite !AD in X. cbn in Hi, Hj, Hi', Hj'. lia.
    + intros i Hi. rewrite AA. cbn [vaddr x_ptr x_row x_col]. lia.
  - intros i j (H1 & H2 & H3). rewrite AD, AC. unfold x_m. destruct (Nat.ltb_spec (80 + (i + 8 * j)) 80); [lia|].
    destruct (Nat.ltb_spec (32 + (i + 8 * j)) 80); [|lia]. replace (80 + (i + 8 * j) - 48) with (32 + (i + 8 * j)) by lia. reflexivity.
Qed.
(** Both programs, run: the element (5, 2). *)
Example C79_example_run :
  match syrkLower 4 1 Z zops x_al 2%Z xA 3%Z xD xD x_m, rank1_updates 4 1 zops x_al 2%Z x_col x_row xG 3 x_m with
  | Ok m1, Ok m2 => m1 (v_addr 4 xD 5 2) = 1195%Z /\ m2 (g_addr 4 xG 5 2) = 1195%Z
  | _, _ => False end.
Proof. vm_compute. auto. Qed.
(** The solve of C31's example by its two columns. *)
Example C79_example_columns : trsm_pre t_al Lower false tA tB tB /\ 1 + 1 = d_n tB.
Proof. split; [exact C31_example|reflexivity]. Qed.
Example C79_example_iamax : magnitudes_ordered zops /\
  iamax_d Z zops (fun _ => true) (DVec 4 (fun i => i)) (fun a => nth a [3; -7; 7; 5]%Z 0%Z) = Ok 1.
Proof. split; [|reflexivity]. repeat split; cbn; intros; try apply Z.ltb_irrefl; rewrite ?Z.ltb_lt, ?Z.ltb_ge in *; lia. Qed.
