(** Properties_NaN.v -- C71: exceptional values (NaN): where they go, where they do not, and that a zero factor does not stop them. *)
From Coq Require Import Arith Lia List Bool PeanoNat ZArith Reals.
From Flocq Require Import Core BinarySingleNaN.
From Verif Require Import Base Base_Proofs Spec Algebra_Proofs Instances Layout_Model Layout_Proofs Simd_Model Reg_Model Arg_Proofs Gemm_Model Properties_Gemm Ger_Model Properties_Ger
  Syrk_Model Properties_Syrk Tri_Model Tri_Proofs Properties_Tri Trmm_Model Properties_Trmm Potrf_Model Properties_Potrf Round_Spec Float_Proofs.
Import ListNotations.
Local Open Scope nat_scope.

(** A value that swallows everything it is combined with, as NaN does in IEEE 754 arithmetic. *)
Record absorbing {T} (O : Ops T) (p : T) : Prop := {
  ab_add : forall x, oadd O p x = p /\ oadd O x p = p;
  ab_sub : forall x, osub O p x = p /\ osub O x p = p;
  ab_mul : forall x, omul O p x = p /\ omul O x p = p;
  ab_div : forall x, odiv O p x = p /\ odiv O x p = p;
  ab_fma : forall x y, ofma O p x y = p /\ ofma O x p y = p /\ ofma O x y p = p;
  ab_fnma : forall x y, ofnma O p x y = p /\ ofnma O x p y = p /\ ofnma O x y p = p;
  ab_sqrt : osqrt O p = p
}.

(** NaN is such a value, in every binary floating-point format. *)
Lemma nan_absorbing : forall prec emax Hp Hm, absorbing (fops prec emax Hp Hm) B754_nan.
Proof.
  intros prec emax Hp Hm. constructor; cbn [oadd osub omul odiv ofma ofnma osqrt fops].
  - intros []; split; reflexivity.
  - intros []; split; reflexivity.
  - intros []; split; reflexivity.
  - intros []; split; reflexivity.
  - intros [] []; repeat split; reflexivity.
  - intros [] []; repeat split; reflexivity.
  - reflexivity.
Qed.

Section Chains.
Context {T : Type} (O : Ops T) (p : T) (AB : absorbing O p).
Lemma fma_chain_nan : forall K x y z, z = p \/ (exists k, k < K /\ (x k = p \/ y k = p)) -> fma_chain O K x y z = p.
Proof.
  induction K as [|K IH]; intros x y z [H|(k & Hk & H)]; cbn [fma_chain]; auto; try lia.
  - rewrite (IH x y z) by auto. apply (ab_fma O p AB).
  - destruct (Nat.eq_dec k K) as [->|].
    + destruct H as [-> | ->]; apply (ab_fma O p AB).
    + rewrite (IH x y z) by (right; exists k; split; [lia|auto]). apply (ab_fma O p AB).
Qed.
Lemma fnma_chain_nan : forall K x y z, z = p \/ (exists k, k < K /\ (x k = p \/ y k = p)) -> fnma_chain O K x y z = p.
Proof.
  induction K as [|K IH]; intros x y z [H|(k & Hk & H)]; cbn [fnma_chain]; auto; try lia.
  - rewrite (IH x y z) by auto. apply (ab_fnma O p AB).
  - destruct (Nat.eq_dec k K) as [->|].
    + destruct H as [-> | ->]; apply (ab_fnma O p AB).
    + rewrite (IH x y z) by (right; exists k; split; [lia|auto]). apply (ab_fnma O p AB).
Qed.
Lemma sub_chain_nan : forall K x y z, z = p \/ (exists k, k < K /\ (x k = p \/ y k = p)) -> sub_chain O K x y z = p.
Proof.
  induction K as [|K IH]; intros x y z [H|(k & Hk & H)]; cbn [sub_chain]; auto; try lia.
  - rewrite (IH x y z) by auto. apply (ab_sub O p AB).
  - destruct (Nat.eq_dec k K) as [->|].
    + destruct H as [-> | ->]; [rewrite (proj1 (ab_mul O p AB _))|rewrite (proj2 (ab_mul O p AB _))]; apply (ab_sub O p AB).
    + rewrite (IH x y z) by (right; exists k; split; [lia|auto]). apply (ab_sub O p AB).
Qed.
End Chains.

(* ------------------------------------------------------------------ gemm *)
(** A NaN in row i of A, in column j of B, in C(i,j) or in a factor makes D(i,j) NaN -- whatever the other factor is.  And D(i,j) depends on nothing else. *)
Theorem C71_gemm : forall SS T (O : Ops T) p al alpha A B beta C D m, 0 < SS -> absorbing O p -> gemm_pre SS al A B C D ->
  exists m', gemm SS T O al alpha A B beta C D m = Ok m' /\
    forall i j, i < g_rows A -> j < g_cols B ->
      alpha = p \/ beta = p \/ m (g_addr SS C i j) = p \/ (exists k, k < g_cols A /\ (m (g_addr SS A i k) = p \/ m (g_addr SS B k j) = p)) ->
      m' (g_addr SS D i j) = p.
Proof.
  intros SS T O p al alpha A B beta C D m HSS AB P. destruct (C17_gemm_ops SS T O al alpha A B beta C D m HSS P) as (m' & E & V & _).
  exists m'. split; auto. intros i j Hi Hj H. rewrite V by (split; auto).
  destruct H as [->|[->|[->|H]]]; try apply (ab_fma O p AB).
  - rewrite (proj2 (ab_mul O p AB _)). apply (ab_fma O p AB).
  - rewrite (fma_chain_nan O p AB) by auto. rewrite (proj1 (ab_mul O p AB _)). apply (ab_fma O p AB).
Qed.
Theorem C71_gemm_contained : forall SS T (O : Ops T) al alpha A B beta C D m1 m2 i j, 0 < SS -> gemm_pre SS al A B C D -> i < g_rows A -> j < g_cols B ->
  (forall k, k < g_cols A -> m1 (g_addr SS A i k) = m2 (g_addr SS A i k) /\ m1 (g_addr SS B k j) = m2 (g_addr SS B k j)) ->
  m1 (g_addr SS C i j) = m2 (g_addr SS C i j) ->
  exists m1' m2', gemm SS T O al alpha A B beta C D m1 = Ok m1' /\ gemm SS T O al alpha A B beta C D m2 = Ok m2' /\ m1' (g_addr SS D i j) = m2' (g_addr SS D i j).
Proof.
  intros SS T O al alpha A B beta C D m1 m2 i j HSS P Hi Hj HAB HC.
  destruct (C17_gemm_ops SS T O al alpha A B beta C D m1 HSS P) as (m1' & E1 & V1 & _). destruct (C17_gemm_ops SS T O al alpha A B beta C D m2 HSS P) as (m2' & E2 & V2 & _).
  exists m1', m2'. split; auto. split; auto. rewrite V1, V2 by (split; auto). rewrite HC. f_equal. f_equal. apply fma_chain_ext; intros k Hk; apply (HAB k Hk).
Qed.

(** Multiplying by zero: z * c + x is x for every c that is neither infinite nor NaN (up to the sign of a zero), ... *)
Lemma fma_zero : forall prec emax Hp Hm (c x : binary_float prec emax), is_finite c = true ->
  let r := ofma (fops prec emax Hp Hm) (B754_zero false) c x in r = x \/ (is_finite x = true /\ B2R x = 0%R /\ is_finite r = true /\ B2R r = 0%R).
Proof.
  intros prec emax Hp Hm c x Hc. cbn [ofma fops]. destruct c; try discriminate Hc; destruct x; cbn; auto.
Qed.
(** ... so with beta = 0 and no infinity or NaN in C, gemm stores alpha * A * B whatever C contains. *)
Theorem C71_gemm_beta_zero : forall SS prec emax Hp Hm al alpha A B C D m i j, let O := fops prec emax Hp Hm in
  0 < SS -> gemm_pre SS al A B C D -> i < g_rows A -> j < g_cols B -> is_finite (m (g_addr SS C i j)) = true ->
  exists m', gemm SS _ O al alpha A B (o0 O) C D m = Ok m' /\
    let s := omul O (fma_chain O (g_cols A) (fun k => m (g_addr SS A i k)) (fun k => m (g_addr SS B k j)) (o0 O)) alpha in
    let r := m' (g_addr SS D i j) in r = s \/ (is_finite s = true /\ B2R s = 0%R /\ is_finite r = true /\ B2R r = 0%R).
Proof.
  intros SS prec emax Hp Hm al alpha A B C D m i j O HSS P Hi Hj HC.
  destruct (C17_gemm_ops SS _ O al alpha A B (o0 O) C D m HSS P) as (m' & E & V & _). exists m'. split; auto. cbv zeta. rewrite V by (split; auto).
  apply (fma_zero prec emax Hp Hm). exact HC.
Qed.
(** Refuted, for all operands: the BLAS convention that with beta = 0 the matrix C need not contain numbers, and that with alpha = 0 the matrices A and B need not.
    Both factors zero, one NaN: D contains NaN. *)
Theorem C71_zero_factor_refuted : forall SS prec emax Hp Hm al A B C D m i j, let O := fops prec emax Hp Hm in
  0 < SS -> gemm_pre SS al A B C D -> i < g_rows A -> j < g_cols B ->
  m (g_addr SS C i j) = B754_nan \/ (exists k, k < g_cols A /\ (m (g_addr SS A i k) = B754_nan \/ m (g_addr SS B k j) = B754_nan)) ->
  exists m', gemm SS _ O al (o0 O) A B (o0 O) C D m = Ok m' /\ m' (g_addr SS D i j) = B754_nan.
Proof.
  intros SS prec emax Hp Hm al A B C D m i j O HSS P Hi Hj H.
  destruct (C71_gemm SS _ O B754_nan al (o0 O) A B (o0 O) C D m HSS (nan_absorbing _ _ _ _) P) as (m' & E & V). exists m'. split; auto.
Qed.

(* ------------------------------------------------------------------ ger, syrk, trmm *)
Theorem C71_ger : forall SS cc T (O : Ops T) p al alpha x y A B m, 0 < SS -> 0 < cc -> absorbing O p -> ger_pre SS cc al x y A B ->
  exists m', ger_cm SS cc T O al alpha x y A B m = Ok m' /\
    forall i j, i < x_size x -> j < x_size y ->
      alpha = p \/ m (vaddr SS (x_ptr x) i) = p \/ m (vaddr SS (x_ptr y) j) = p \/ m (g_addr SS A i j) = p -> m' (g_addr SS B i j) = p.
Proof.
  intros SS cc T O p al alpha x y A B m HSS Hcc AB P. destruct (C23_ger_column_major SS cc T O al alpha x y A B m HSS Hcc P) as (m' & E & V & _).
  exists m'. split; auto. intros i j Hi Hj H. rewrite V by (split; auto).
  destruct H as [->|[->|[->| ->]]]; rewrite ?(proj1 (ab_mul O p AB _)), ?(proj2 (ab_mul O p AB _)); apply (ab_fma O p AB).
Qed.
Theorem C71_syrk : forall SS cc T (O : Ops T) p al alpha A beta C D m, 0 < SS -> 0 < cc -> absorbing O p -> syrk_pre SS cc al A C D ->
  exists m', syrkLower SS cc T O al alpha A beta C D m = Ok m' /\
    forall i j, lower (v_m A) (v_m A) i j ->
      (alpha = p /\ 0 < v_n A) \/ beta = p \/ m (v_addr SS C i j) = p \/ (exists k, k < v_n A /\ (m (v_addr SS A i k) = p \/ m (v_addr SS A j k) = p)) ->
      m' (v_addr SS D i j) = p.
Proof.
  intros SS cc T O p al alpha A beta C D m HSS Hcc AB P. destruct (C24_syrk_ops SS cc T O al alpha A beta C D m HSS Hcc P) as (m' & E & V & _).
  exists m'. split; auto. intros i j Hij H. rewrite V by auto. apply (fma_chain_nan O p AB).
  destruct H as [[-> H]|[->|[->|(k & Hk & [H|H])]]].
  - right. exists 0. split; auto. left. apply (ab_mul O p AB).
  - left. apply (ab_mul O p AB).
  - left. apply (ab_mul O p AB).
  - right. exists k. split; auto. left. rewrite H. apply (ab_mul O p AB).
  - right. exists k. auto.
Qed.
(** trmm on the right: only the elements of the lower triangle of A, and of B in the columns from j on, reach C(i,j). *)
Theorem C71_trmm_right : forall SS cc T (O : Ops T) p al alpha B A C m, 0 < SS -> 0 < cc -> absorbing O p -> trmmR_pre SS cc al B A C ->
  exists m', trmmR SS cc T O al alpha B A Lower false C m = Ok m' /\
    forall i j, i < g_rows B -> j < g_cols B ->
      alpha = p \/ (exists k, j <= k /\ k < g_cols B /\ (m (g_addr SS B i k) = p \/ m (g_addr SS A k j) = p)) -> m' (g_addr SS C i j) = p.
Proof.
  intros SS cc T O p al alpha B A C m HSS Hcc AB P. destruct (C26_trmm_right_ops SS cc T O al alpha B A C m HSS Hcc P) as (m' & E & V & _).
  exists m'. split; auto. intros i j Hi Hj H. rewrite V by (split; auto). apply (fma_chain_nan O p AB). right.
  destruct H as [->|(k & Hk1 & Hk2 & [H|H])].
  - exists 0. split; [lia|]. left. apply (ab_mul O p AB).
  - exists (k - j). split; [lia|]. left. replace (j + (k - j)) with k by lia. rewrite H. apply (ab_mul O p AB).
  - exists (k - j). split; [lia|]. right. replace (j + (k - j)) with k by lia. exact H.
Qed.

(** ... and nothing else matters. *)
Theorem C71_ger_contained : forall SS cc T (O : Ops T) al alpha x y A B m1 m2 i j, 0 < SS -> 0 < cc -> ger_pre SS cc al x y A B -> i < x_size x -> j < x_size y ->
  m1 (vaddr SS (x_ptr x) i) = m2 (vaddr SS (x_ptr x) i) -> m1 (vaddr SS (x_ptr y) j) = m2 (vaddr SS (x_ptr y) j) -> m1 (g_addr SS A i j) = m2 (g_addr SS A i j) ->
  exists m1' m2', ger_cm SS cc T O al alpha x y A B m1 = Ok m1' /\ ger_cm SS cc T O al alpha x y A B m2 = Ok m2' /\ m1' (g_addr SS B i j) = m2' (g_addr SS B i j).
Proof.
  intros SS cc T O al alpha x y A B m1 m2 i j HSS Hcc P Hi Hj H1 H2 H3.
  destruct (C23_ger_column_major SS cc T O al alpha x y A B m1 HSS Hcc P) as (m1' & E1 & V1 & _). destruct (C23_ger_column_major SS cc T O al alpha x y A B m2 HSS Hcc P) as (m2' & E2 & V2 & _).
  exists m1', m2'. split; auto. split; auto. rewrite V1, V2 by (split; auto). rewrite H1, H2, H3. reflexivity.
Qed.
Theorem C71_syrk_contained : forall SS cc T (O : Ops T) al alpha A beta C D m1 m2 i j, 0 < SS -> 0 < cc -> syrk_pre SS cc al A C D -> lower (v_m A) (v_m A) i j ->
  (forall k, k < v_n A -> m1 (v_addr SS A i k) = m2 (v_addr SS A i k) /\ m1 (v_addr SS A j k) = m2 (v_addr SS A j k)) -> m1 (v_addr SS C i j) = m2 (v_addr SS C i j) ->
  exists m1' m2', syrkLower SS cc T O al alpha A beta C D m1 = Ok m1' /\ syrkLower SS cc T O al alpha A beta C D m2 = Ok m2' /\ m1' (v_addr SS D i j) = m2' (v_addr SS D i j).
Proof.
  intros SS cc T O al alpha A beta C D m1 m2 i j HSS Hcc P Hij H1 H2.
  destruct (C24_syrk_ops SS cc T O al alpha A beta C D m1 HSS Hcc P) as (m1' & E1 & V1 & _). destruct (C24_syrk_ops SS cc T O al alpha A beta C D m2 HSS Hcc P) as (m2' & E2 & V2 & _).
  exists m1', m2'. split; auto. split; auto. rewrite V1, V2 by auto. rewrite H2. apply fma_chain_ext; intros k Hk; [rewrite (proj1 (H1 k Hk)); reflexivity|apply (H1 k Hk)].
Qed.
Theorem C71_trmm_right_contained : forall SS cc T (O : Ops T) al alpha B A C m1 m2 i j, 0 < SS -> 0 < cc -> trmmR_pre SS cc al B A C -> i < g_rows B -> j < g_cols B ->
  (forall k, j <= k -> k < g_cols B -> m1 (g_addr SS B i k) = m2 (g_addr SS B i k) /\ m1 (g_addr SS A k j) = m2 (g_addr SS A k j)) ->
  exists m1' m2', trmmR SS cc T O al alpha B A Lower false C m1 = Ok m1' /\ trmmR SS cc T O al alpha B A Lower false C m2 = Ok m2' /\ m1' (g_addr SS C i j) = m2' (g_addr SS C i j).
Proof.
  intros SS cc T O al alpha B A C m1 m2 i j HSS Hcc P Hi Hj H.
  destruct (C26_trmm_right_ops SS cc T O al alpha B A C m1 HSS Hcc P) as (m1' & E1 & V1 & _). destruct (C26_trmm_right_ops SS cc T O al alpha B A C m2 HSS Hcc P) as (m2' & E2 & V2 & _).
  exists m1', m2'. split; auto. split; auto. rewrite V1, V2 by (split; auto).
  apply fma_chain_ext; intros k Hk; destruct (H (j + k) ltac:(lia) ltac:(lia)) as [Q1 Q2]; [rewrite Q1; reflexivity|exact Q2].
Qed.

(* ------------------------------------------------------------------ triangular solves *)
(** A NaN in element (k, j) of the right-hand side spoils the elements of column j from row k on in the direction of the substitution (and no other column: C61_trsm,
    C71_trsm_contained). *)
Theorem C71_trsm : forall T (O : Ops T) p al ul unit A B X m, absorbing O p -> trsm_pre al ul unit A B X ->
  exists m', trsm T O al ul unit A B X m = Ok m' /\
    forall i k j, i < d_m B -> k < d_m B -> j < d_n B -> match ul with Lower => k <= i | Upper => i <= k end ->
      m (d_at B k j) = p \/ (exists l, l < d_m B /\ referenced ul unit k l /\ m (d_at A k l) = p) -> m' (d_at X i j) = p.
Proof.
  intros T O p al ul unit A B X m AB P. destruct (C31_trsm_ops T O al ul unit A B X m P) as (m' & E & V & _).
  exists m'. split; auto.
  assert (Q : forall (c : bool) y a, y = p -> (if c then y else odiv O y a) = p) by (intros [] y a ->; [reflexivity|apply (ab_div O p AB)]).
  (* row k itself *)
  assert (R : forall k j, k < d_m B -> j < d_n B ->
    m (d_at B k j) = p \/ (exists l, l < d_m B /\ referenced ul unit k l /\ m (d_at A k l) = p) -> m' (d_at X k j) = p).
  { intros k j Hk Hj H. rewrite (V k j Hk Hj). destruct H as [H|(l & Hl & [R|[R1 R2]] & H)].
    - apply Q. destruct ul; apply (sub_chain_nan O p AB); left; exact H.
    - apply Q. destruct ul; apply (sub_chain_nan O p AB); right.
      + exists l. split; [exact R|]. left. exact H.
      + exists (l - (k + 1)). split; [lia|]. left. replace (k + 1 + (l - (k + 1))) with l by lia. exact H.
    - subst l unit. rewrite H. apply (ab_div O p AB). }
  intros i k j Hi Hk Hj HD H. destruct (Nat.eq_dec i k) as [->|Hne]; [apply R; auto|].
  rewrite (V i j Hi Hj). apply Q. destruct ul; apply (sub_chain_nan O p AB); right.
  - exists k. split; [lia|]. right. apply R; auto.
  - exists (k - (i + 1)). split; [lia|]. right. replace (i + 1 + (k - (i + 1))) with k by lia. apply R; auto.
Qed.
(** X(i,j) depends on column j of B and on A in the rows up to i (lower) or from i on (upper) only. *)
Definition up_to (ul : uplo) (r i : nat) : Prop := match ul with Lower => r <= i | Upper => i <= r end.
Theorem C71_trsm_contained : forall T (O : Ops T) al ul unit A B X m1 m2 i j, trsm_pre al ul unit A B X -> i < d_m B -> j < d_n B ->
  (forall r l, r < d_m B -> l < d_m B -> up_to ul r i -> referenced ul unit r l -> m1 (d_at A r l) = m2 (d_at A r l)) ->
  (forall r, r < d_m B -> up_to ul r i -> m1 (d_at B r j) = m2 (d_at B r j)) ->
  exists m1' m2', trsm T O al ul unit A B X m1 = Ok m1' /\ trsm T O al ul unit A B X m2 = Ok m2' /\ m1' (d_at X i j) = m2' (d_at X i j).
Proof.
  intros T O al ul unit A B X m1 m2 i0 j P Hi0 Hj HA HB.
  destruct (C31_trsm_ops T O al ul unit A B X m1 P) as (m1' & E1 & V1 & _). destruct (C31_trsm_ops T O al ul unit A B X m2 P) as (m2' & E2 & V2 & _).
  exists m1', m2'. split; auto. split; auto.
  assert (G : forall n i, (match ul with Lower => i | Upper => d_m B - 1 - i end) < n -> i < d_m B -> up_to ul i i0 -> m1' (d_at X i j) = m2' (d_at X i j)).
  { induction n as [|n IH]; intros i Hn Hi Hu; [lia|]. rewrite (V1 i j Hi Hj), (V2 i j Hi Hj), (HB i Hi Hu).
    assert (D : forall y, (if unit then y else odiv O y (m1 (d_at A i i))) = (if unit then y else odiv O y (m2 (d_at A i i)))).
    { intros y. destruct unit; [reflexivity|]. rewrite (HA i i) by (auto; right; auto). reflexivity. }
    rewrite D. replace (match ul with Lower => _ | Upper => _ end) with
      (match ul with
       | Lower => sub_chain O i (fun k => m2 (d_at A i k)) (fun k => m2' (d_at X k j)) (m2 (d_at B i j))
       | Upper => sub_chain O (d_m B - (i + 1)) (fun c => m2 (d_at A i (i + 1 + c))) (fun c => m2' (d_at X (i + 1 + c) j)) (m2 (d_at B i j))
       end); [reflexivity|].
    destruct ul; apply sub_chain_ext; intros k Hk; symmetry; cbn [up_to] in *; solve [apply HA; auto; try lia; left; cbn; lia | apply IH; lia]. }
  apply (G (S (match ul with Lower => i0 | Upper => d_m B - 1 - i0 end))); auto. destruct ul; cbn; lia.
Qed.

(* ------------------------------------------------------------------ Cholesky *)
Section Chol.
Context {T : Type} (O : Ops T) (p : T) (AB : absorbing O p) (TS : nat) (HT : 0 < TS) (ld : T -> T) (Hld : ld p = p).
Variables (M N : nat) (HNM : N <= M) (a l : nat -> nat -> T).
Hypothesis HL : forall i j, lower M N i j -> chol_elem O TS ld a l i j.

Lemma num_nan : forall i j, lower M N i j -> a i j = p \/ (exists c, c < j /\ (l i c = p \/ l j c = p)) -> chol_num O TS ld a l i j = p.
Proof.
  intros i j (Hij & Hi & Hj) H. unfold chol_num. set (k := TS * (j / TS)).
  assert (Hk : k <= j) by (unfold k; apply Nat.mul_div_le; lia).
  apply (fnma_chain_nan O p AB). destruct H as [H|(c & Hc & H)].
  - left. apply (fma_chain_nan O p AB). left. rewrite H. exact Hld.
  - destruct (le_lt_dec k c) as [L|L].
    + right. exists (c - k). split; [lia|]. replace (k + (c - k)) with c by lia. tauto.
    + left. apply (fma_chain_nan O p AB). right. exists c. split; auto. destruct H as [-> |H]; [left; apply (ab_mul O p AB)|right; exact H].
Qed.
Lemma elem_nan : forall i j, lower M N i j -> chol_num O TS ld a l i j = p \/ chol_num O TS ld a l j j = p -> l i j = p.
Proof.
  intros i j Hij H. assert (Hjj : lower M N j j) by (unfold lower in *; lia).
  assert (D : forall i, lower M N i j -> i = j -> chol_num O TS ld a l j j = p -> l i j = p).
  { intros i' H' -> Hn. rewrite (HL j j H'). rewrite Hn. apply (ab_div O p AB). }
  rewrite (HL i j Hij). destruct H as [-> |H]; [apply (ab_div O p AB)|].
  destruct (i <? TS * (j / TS) + 3 * TS).
  - rewrite H, (ab_sqrt O p AB). apply (ab_div O p AB).
  - rewrite (D j Hjj eq_refl H). apply (ab_div O p AB).
Qed.
(** Row i from column j on. *)
Lemma row_nan : forall i j, lower M N i j -> a i j = p -> forall j', j <= j' -> j' <= i -> j' < N -> l i j' = p.
Proof.
  intros i j Hij Ha. assert (B : l i j = p) by (apply elem_nan; auto; left; apply num_nan; auto).
  intros j' H1 H2 H3. destruct (Nat.eq_dec j j') as [<-|]; auto.
  assert (Hij' : lower M N i j') by (unfold lower in *; lia).
  apply elem_nan; auto. left. apply num_nan; auto. right. exists j. split; [lia|]. auto.
Qed.
(** Everything in the columns from i on. *)
Lemma rest_nan : forall i j, lower M N i j -> a i j = p -> forall i' j', lower M N i' j' -> i <= j' -> l i' j' = p.
Proof.
  intros i j Hij Ha i' j' Hij' Hc.
  assert (C : forall r, lower M N r i -> l r i = p).
  { intros r Hr. apply elem_nan; auto. right. apply num_nan; [unfold lower in *; lia|]. destruct (Nat.eq_dec i j) as [->|]; auto.
    right. exists j. unfold lower in *. split; [lia|]. left. apply (row_nan i j); auto; lia. }
  destruct (Nat.eq_dec i j') as [<-|]; [apply C; auto|].
  apply elem_nan; auto. left. apply num_nan; auto. right. exists i. unfold lower in *. split; [lia|]. left. apply C. unfold lower. lia.
Qed.
End Chol.

(** A NaN in element (i, j) of the lower triangle of A spoils row i of L from column j on and all columns of L from column i on; nothing fails.  (Double and float: o1 * NaN = NaN.) *)
Theorem C71_potrf : forall SS cc T (O : Ops T) p al A L m i j, 0 < SS -> 0 < cc -> absorbing O p -> potrf_pre SS cc al A L ->
  lower (v_m A) (v_n A) i j -> m (v_addr SS A i j) = p ->
  forall m', potrf_dense SS cc (cc * SS) T O al A L m = Ok m' \/ potrf_panel SS cc (cc * SS) T O al A L m = Ok m' ->
  forall i' j', lower (v_m A) (v_n A) i' j' -> (i' = i /\ j <= j') \/ i <= j' -> m' (v_addr SS L i' j') = p.
Proof.
  intros SS cc T O p al A L m i j HSS Hcc AB P Hij Ha m' E i' j' Hij' H. assert (HT : 0 < cc * SS) by nia.
  assert (HNM : v_n A <= v_m A) by (destruct (pp_sz _ _ _ _ _ P); lia).
  assert (G : exists ld, ld p = p /\ forall i j, lower (v_m A) (v_n A) i j -> chol_elem O (cc * SS) ld (fun i j => m (v_addr SS A i j)) (fun i j => m' (v_addr SS L i j)) i j).
  { destruct E as [E|E].
    - destruct (C28_potrf_dense_ops SS cc T O al A L m HSS Hcc P) as (m1 & E1 & V & _). pose proof (eq_trans (eq_sym E1) E) as Q. injection Q as ->.
      exists (fun x => omul O (o1 O) x). split; [apply (ab_mul O p AB)|exact V].
    - destruct (C28_potrf_panel_ops SS cc T O al A L m HSS Hcc P) as (m1 & E1 & V & _). pose proof (eq_trans (eq_sym E1) E) as Q. injection Q as ->.
      exists (fun x => x). split; [reflexivity|exact V]. }
  destruct G as (ld & Hld & V). destruct H as [[-> H]|H].
  - apply (row_nan O p AB (cc * SS) HT ld Hld _ _ HNM _ _ V i j Hij Ha); unfold lower in *; lia.
  - apply (rest_nan O p AB (cc * SS) HT ld Hld _ _ HNM _ _ V i j Hij Ha); auto.
Qed.

(** Two matrices that differ in element (i0, j0) only have the same factor everywhere else: in row i0 to the left of column j0, and in the other rows to the left of column i0. *)
Section CholSame.
Context {T : Type} (O : Ops T) (TS : nat) (HT : 0 < TS) (ld : T -> T).
Variables (M N : nat) (a a' l l' : nat -> nat -> T) (i0 j0 : nat).
Hypothesis HNM : N <= M.
Hypothesis HL : forall i j, lower M N i j -> chol_elem O TS ld a l i j.
Hypothesis HL' : forall i j, lower M N i j -> chol_elem O TS ld a' l' i j.
Hypothesis Ha : forall i j, lower M N i j -> (i <> i0 \/ j <> j0) -> a i j = a' i j.
Lemma chol_same : forall n i j, j < n -> lower M N i j -> j < i0 -> (i = i0 -> j < j0) -> l i j = l' i j.
Proof.
  induction n as [|n IH]; intros i j Hn Hij H1 H2; [lia|].
  assert (NUM : forall i, lower M N i j -> (i = i0 -> j < j0) -> chol_num O TS ld a l i j = chol_num O TS ld a' l' i j).
  { intros r Hr H3. unfold chol_num. set (k := TS * (j / TS)). assert (Hk : k <= j) by (unfold k; apply Nat.mul_div_le; lia).
    assert (R1 : forall c, c < j -> l r c = l' r c) by (intros c Hc; apply IH; unfold lower in *; lia).
    assert (R2 : forall c, c < j -> l j c = l' j c) by (intros c Hc; apply IH; unfold lower in *; lia).
    rewrite (Ha r j Hr ltac:(lia)).
    rewrite (fma_chain_ext O k _ _ (fun c => omul O (om1 O) (l' r c)) (fun c => l' j c)) by (intros c Hc; rewrite ?R1, ?R2; auto; lia).
    apply fnma_chain_ext'; intros c Hc; [apply R2|apply R1]; lia. }
  assert (Hjj : lower M N j j) by (unfold lower in *; lia).
  assert (D : l j j = l' j j).
  { rewrite (HL j j Hjj), (HL' j j Hjj). rewrite NUM by (auto; lia).
    replace (j <? TS * (j / TS) + 3 * TS) with true; [reflexivity|]. symmetry. apply Nat.ltb_lt. pose proof (Nat.mul_succ_div_gt j TS ltac:(lia)). nia. }
  rewrite (HL i j Hij), (HL' i j Hij). rewrite NUM by auto. rewrite (NUM j Hjj) by lia. rewrite D. reflexivity.
Qed.
End CholSame.
Theorem C71_potrf_contained : forall SS cc T (O : Ops T) al A L m1 m2 i0 j0, 0 < SS -> 0 < cc -> potrf_pre SS cc al A L ->
  (forall i j, lower (v_m A) (v_n A) i j -> i <> i0 \/ j <> j0 -> m1 (v_addr SS A i j) = m2 (v_addr SS A i j)) ->
  exists d1 d2 q1 q2, potrf_dense SS cc (cc * SS) T O al A L m1 = Ok d1 /\ potrf_dense SS cc (cc * SS) T O al A L m2 = Ok d2 /\
    potrf_panel SS cc (cc * SS) T O al A L m1 = Ok q1 /\ potrf_panel SS cc (cc * SS) T O al A L m2 = Ok q2 /\
    forall i j, lower (v_m A) (v_n A) i j -> j < i0 -> (i = i0 -> j < j0) ->
      d1 (v_addr SS L i j) = d2 (v_addr SS L i j) /\ q1 (v_addr SS L i j) = q2 (v_addr SS L i j).
Proof.
  intros SS cc T O al A L m1 m2 i0 j0 HSS Hcc P H. assert (HT : 0 < cc * SS) by nia.
  assert (HNM : v_n A <= v_m A) by (destruct (pp_sz _ _ _ _ _ P); lia).
  destruct (C28_potrf_dense_ops SS cc T O al A L m1 HSS Hcc P) as (d1 & D1 & V1 & _). destruct (C28_potrf_dense_ops SS cc T O al A L m2 HSS Hcc P) as (d2 & D2 & V2 & _).
  destruct (C28_potrf_panel_ops SS cc T O al A L m1 HSS Hcc P) as (q1 & Q1 & W1 & _). destruct (C28_potrf_panel_ops SS cc T O al A L m2 HSS Hcc P) as (q2 & Q2 & W2 & _).
  exists d1, d2, q1, q2. repeat (split; [assumption|]). intros i j Hij Hj Hr. split.
  - apply (chol_same O (cc * SS) HT _ _ _ _ _ _ _ i0 j0 HNM V1 V2 H (S j)); auto.
  - apply (chol_same O (cc * SS) HT _ _ _ _ _ _ _ i0 j0 HNM W1 W2 H (S j)); auto.
Qed.

(* ------------------------------------------------------------------ trmm on the left *)
(** Sizes that are multiples of the tile size.  The elements of A below its diagonal do not matter, but a NaN in row k of B reaches every row of C that is above it
    or in the same SIMD block, ... *)
Theorem C71_trmm_left : forall SS cc T (O : Ops T) p al alpha A B C m, 0 < SS -> 0 < cc -> absorbing O p -> trmmL_pre SS cc al A B C ->
  g_rows B mod (cc * SS) = 0 -> g_cols B mod (cc * SS) = 0 ->
  exists m', trmmL SS cc T O al alpha A Upper false B C m = Ok m' /\
    forall i j k, i < g_rows B -> j < g_cols B -> k < g_rows B ->
      (SS * (i / SS) <= k /\ m (g_addr SS B k j) = p) \/ (i <= k /\ m (g_addr SS A i k) = p) \/ alpha = p -> m' (g_addr SS C i j) = p.
Proof.
  intros SS cc T O p al alpha A B C m HSS Hcc AB P HM HN. destruct (C25_trmm_left_ops SS cc T O al alpha A B C m HSS Hcc P HM HN) as (m' & E & V & _).
  exists m'. split; auto. intros i j k Hi Hj Hk H. rewrite V by (split; auto). cbv zeta. pose proof (Nat.mul_div_le i SS ltac:(lia)) as Hs.
  apply (fma_chain_nan O p AB). right. destruct H as [[H1 H2]|[[H1 H2]| ->]].
  - exists (k - SS * (i / SS)). split; [lia|]. right. replace (SS * (i / SS) + (k - SS * (i / SS))) with k by lia. exact H2.
  - exists (k - SS * (i / SS)). split; [lia|]. left. replace (SS * (i / SS) + (k - SS * (i / SS))) with k by lia. unfold upper_of.
    rewrite (proj2 (Nat.leb_le i k) H1), H2. apply (ab_mul O p AB).
  - exists 0. split; [lia|]. left. apply (ab_mul O p AB).
Qed.
(** ... so the rule that element (i, j) of a product with an upper triangular matrix does not depend on the rows of B above row i is refuted: row 0 of B spoils rows
    1 to SS - 1 of C. *)
Theorem C71_trmm_left_above_refuted : forall SS cc T (O : Ops T) p al alpha A B C m i j, 0 < SS -> 0 < cc -> absorbing O p -> trmmL_pre SS cc al A B C ->
  g_rows B mod (cc * SS) = 0 -> g_cols B mod (cc * SS) = 0 -> i < SS -> i < g_rows B -> j < g_cols B -> m (g_addr SS B 0 j) = p ->
  exists m', trmmL SS cc T O al alpha A Upper false B C m = Ok m' /\ m' (g_addr SS C i j) = p.
Proof.
  intros SS cc T O p al alpha A B C m i j HSS Hcc AB P HM HN Hi HiM Hj H.
  destruct (C71_trmm_left SS cc T O p al alpha A B C m HSS Hcc AB P HM HN) as (m' & E & V). exists m'. split; auto.
  apply (V i j 0); auto; try lia. left. rewrite Nat.div_small by auto. split; [lia|exact H].
Qed.

(* ------------------------------------------------------------------ examples, in double precision *)
Definition n_m (nan_at : list nat) (x : nat) : b64 := if existsb (Nat.eqb x) nan_at then B754_nan else o1 b64ops.
Definition is_nan_at (m : mem b64) (a : nat) : bool := match m a with B754_nan => true | _ => false end.
(** gemm with alpha = beta = 0, a NaN in C(2,1): D(2,1) is NaN, D(3,1) is not. *)
Example C71_example_gemm : gemm_pre 4 Properties_Gemm.e_al aA aB aD aD /\ absorbing b64ops B754_nan /\
  match gemm 4 b64 b64ops Properties_Gemm.e_al (o0 b64ops) aA aB (o0 b64ops) aD aD (n_m [g_addr 4 aD 2 1]) with
  | Ok m' => (is_nan_at m' (g_addr 4 aD 2 1), is_nan_at m' (g_addr 4 aD 3 1)) = (true, false) | _ => False end.
Proof. split; [exact C17_example|]. split; [apply nan_absorbing|]. vm_compute. reflexivity. Qed.
Example C71_example_others : ger_pre 4 1 g_al gx gy (MArg (whole gB) false) (MArg (whole gB) false) /\ syrk_pre 4 1 sal (whole sA) (whole sD) (whole sD) /\
  trmmR_pre 4 1 Properties_Trmm.e_al (MArg (whole Properties_Trmm.eB) false) (MArg (whole eA5) false) (MArg (whole eC) false) /\ trsm_pre t_al Lower false tA tB tB.
Proof. split; [exact C23_example|]. split; [exact C24_example|]. split; [exact C26_example|exact C31_example]. Qed.
(** Cholesky of a 6-by-4 matrix with a NaN in A(2,1): L has NaN exactly in L(2,1), L(2,2) and everywhere in the columns 2 and 3 (and -- of the numbers that are left -- none in
    columns 0 and 1 of the other rows; the matrix is diagonally dominant). *)
Definition c_m (x : nat) : b64 :=
  let i := x mod 8 in let j := x / 8 in
  if (i =? 2) && (j =? 1) then B754_nan else if i =? j then oadd b64ops (oadd b64ops (o1 b64ops) (o1 b64ops)) (oadd b64ops (o1 b64ops) (o1 b64ops)) else o1 b64ops.
Example C71_example_potrf : potrf_pre 4 1 x_al (whole xA) (whole xL) /\ c_m (v_addr 4 (whole xA) 2 1) = B754_nan /\
  match potrf_dense 4 1 4 b64 b64ops x_al (whole xA) (whole xL) c_m with
  | Ok m' => map (fun i => map (fun j => is_nan_at m' (v_addr 4 (whole xL) i j)) (seq 0 (Nat.min (i + 1) 4))) (seq 0 6)
  | _ => [] end = [[false]; [false; false]; [false; true; true]; [false; false; true; true]; [false; false; true; true]; [false; false; true; true]].
Proof. split; [exact C28_example|]. split; [reflexivity|]. vm_compute. reflexivity. Qed.
(** trmm on the left, 4-by-4, a NaN in row 0 of B: the whole column of C becomes NaN although A is upper triangular. *)
Definition tA4 : container := Cont Dense false columnMajor 4 4 0.
Definition tB4 : container := Cont Dense false columnMajor 4 4 16.
Definition tC4 : container := Cont Dense false columnMajor 4 4 32.
Example C71_example_trmm : let a c := MArg (whole c) false in
  trmmL_pre 4 1 (fun x => x <? 48) (a tA4) (a tB4) (a tC4) /\
  match trmmL 4 1 b64 b64ops (fun x => x <? 48) (o1 b64ops) (a tA4) Upper false (a tB4) (a tC4) (n_m [g_addr 4 (a tB4) 0 2]) with
  | Ok m' => map (fun i => map (fun j => is_nan_at m' (g_addr 4 (a tC4) i j)) (seq 0 4)) (seq 0 4)
  | _ => [] end = [[false; false; true; false]; [false; false; true; false]; [false; false; true; false]; [false; false; true; false]].
Proof.
  intros a. split; [|vm_compute; reflexivity].
  assert (A : forall i k, c_addr 4 tA4 i k = i + 4 * k) by (intros; cbn; lia).
  assert (B : forall i k, c_addr 4 tB4 i k = 16 + i + 4 * k) by (intros; cbn; lia).
  assert (C : forall i k, c_addr 4 tC4 i k = 32 + i + 4 * k) by (intros; cbn; lia).
  constructor; try (cbv; repeat split; auto; lia); try reflexivity; try discriminate; try (left; reflexivity).
  - intros i k Hi Hk _. apply Nat.ltb_lt. change (nextMultiple (g_rows (a tB4)) (1 * 4)) with 4 in Hi.
    change (g_rows (a tB4)) with 4 in Hk. change (c_addr 4 tA4 i k < 48). rewrite A. lia.
  - intros i k Hi Hk. apply Nat.ltb_lt. change (c_addr 4 tB4 i k < 48). cbn in Hi, Hk. rewrite B. lia.
  - intros i k Hi Hk. apply Nat.ltb_lt. change (c_addr 4 tC4 i k < 48). cbn in Hi, Hk. rewrite C. lia.
  - intros i j i' j' Hi Hj Hi' Hj'. change (c_addr 4 tC4 i j <> c_addr 4 tA4 i' j'). cbn in Hi, Hj, Hi', Hj'. rewrite A, C. lia.
  - left. intros i j i' j' Hi Hj Hi' Hj'. change (c_addr 4 tC4 i j <> c_addr 4 tB4 i' j'). cbn in Hi, Hj, Hi', Hj'. rewrite B, C. lia.
Qed.
