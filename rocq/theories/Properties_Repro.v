(** Properties_Repro.v -- C73: results do not depend on the SIMD width, the layout and the alignment, to the last bit. *)
From Coq Require Import Arith Lia List Bool PeanoNat ZArith Reals.
From Flocq Require Import Core BinarySingleNaN.
From Verif Require Import Base Base_Proofs Spec Algebra_Proofs Instances Layout_Model Layout_Proofs Simd_Model Reg_Model Arg_Proofs Gemm_Model Ger_Model Properties_Ger
  Syrk_Model Properties_Syrk Trmm_Model Properties_Trmm Potrf_Model Properties_Potrf Float_Proofs Properties_NaN Properties_Compose.
Import ListNotations.
Local Open Scope nat_scope.

(** In every theorem: two calls with the same elements, possibly on machines with different SIMD widths (SS, SS' elements per register, cc, cc' registers per tile), different
    allocations, containers, windows and alignments; whatever the scalar operations are. *)
Theorem C73_ger : forall T (O : Ops T) alpha SS cc al x y A B m SS' cc' al' x' y' A' B' m', 0 < SS -> 0 < cc -> 0 < SS' -> 0 < cc' ->
  ger_pre SS cc al x y A B -> ger_pre SS' cc' al' x' y' A' B' -> x_size x = x_size x' -> x_size y = x_size y' ->
  (forall i, i < x_size x -> m (vaddr SS (x_ptr x) i) = m' (vaddr SS' (x_ptr x') i)) -> (forall j, j < x_size y -> m (vaddr SS (x_ptr y) j) = m' (vaddr SS' (x_ptr y') j)) ->
  (forall i j, i < x_size x -> j < x_size y -> m (g_addr SS A i j) = m' (g_addr SS' A' i j)) ->
  exists r r', ger_cm SS cc T O al alpha x y A B m = Ok r /\ ger_cm SS' cc' T O al' alpha x' y' A' B' m' = Ok r' /\
    forall i j, i < x_size x -> j < x_size y -> r (g_addr SS B i j) = r' (g_addr SS' B' i j).
Proof.
  intros T O alpha SS cc al x y A B m SS' cc' al' x' y' A' B' m' h1 h2 h1' h2' P P' Zx Zy Hx Hy HA.
  destruct (C23_ger_column_major SS cc T O al alpha x y A B m h1 h2 P) as (r & E & V & _). destruct (C23_ger_column_major SS' cc' T O al' alpha x' y' A' B' m' h1' h2' P') as (r' & E' & V' & _).
  exists r, r'. split; auto. split; auto. intros i j Hi Hj. rewrite V by (split; auto). rewrite V' by (split; lia). rewrite Hx, Hy, HA by auto. reflexivity.
Qed.
Theorem C73_syrk : forall T (O : Ops T) alpha beta SS cc al A C D m SS' cc' al' A' C' D' m', 0 < SS -> 0 < cc -> 0 < SS' -> 0 < cc' ->
  syrk_pre SS cc al A C D -> syrk_pre SS' cc' al' A' C' D' -> v_m A = v_m A' -> v_n A = v_n A' ->
  (forall i k, i < v_m A -> k < v_n A -> m (v_addr SS A i k) = m' (v_addr SS' A' i k)) ->
  (forall i j, lower (v_m A) (v_m A) i j -> m (v_addr SS C i j) = m' (v_addr SS' C' i j)) ->
  exists r r', syrkLower SS cc T O al alpha A beta C D m = Ok r /\ syrkLower SS' cc' T O al' alpha A' beta C' D' m' = Ok r' /\
    forall i j, lower (v_m A) (v_m A) i j -> r (v_addr SS D i j) = r' (v_addr SS' D' i j).
Proof.
  intros T O alpha beta SS cc al A C D m SS' cc' al' A' C' D' m' h1 h2 h1' h2' P P' Z1 Z2 HA HC.
  destruct (C24_syrk_ops SS cc T O al alpha A beta C D m h1 h2 P) as (r & E & V & _). destruct (C24_syrk_ops SS' cc' T O al' alpha A' beta C' D' m' h1' h2' P') as (r' & E' & V' & _).
  exists r, r'. split; auto. split; auto. intros i j Hij. rewrite V by auto. rewrite V' by (unfold lower in *; lia). rewrite HC by auto. rewrite <- Z2.
  unfold lower in Hij. apply fma_chain_ext; intros k Hk; rewrite HA by lia; reflexivity.
Qed.
Theorem C73_trmm_right : forall T (O : Ops T) alpha SS cc al B A C m SS' cc' al' B' A' C' m', 0 < SS -> 0 < cc -> 0 < SS' -> 0 < cc' ->
  trmmR_pre SS cc al B A C -> trmmR_pre SS' cc' al' B' A' C' -> g_rows B = g_rows B' -> g_cols B = g_cols B' ->
  (forall i k, i < g_rows B -> k < g_cols B -> m (g_addr SS B i k) = m' (g_addr SS' B' i k)) ->
  (forall k j, j <= k -> k < g_cols B -> m (g_addr SS A k j) = m' (g_addr SS' A' k j)) ->
  exists r r', trmmR SS cc T O al alpha B A Lower false C m = Ok r /\ trmmR SS' cc' T O al' alpha B' A' Lower false C' m' = Ok r' /\
    forall i j, i < g_rows B -> j < g_cols B -> r (g_addr SS C i j) = r' (g_addr SS' C' i j).
Proof.
  intros T O alpha SS cc al B A C m SS' cc' al' B' A' C' m' h1 h2 h1' h2' P P' Z1 Z2 HB HA.
  destruct (C26_trmm_right_ops SS cc T O al alpha B A C m h1 h2 P) as (r & E & V & _). destruct (C26_trmm_right_ops SS' cc' T O al' alpha B' A' C' m' h1' h2' P') as (r' & E' & V' & _).
  exists r, r'. split; auto. split; auto. intros i j Hi Hj. rewrite V by (split; auto). rewrite V' by (split; lia). rewrite <- Z2.
  apply fma_chain_ext; intros k Hk; [rewrite HB by lia|rewrite HA by lia]; reflexivity.
Qed.

(** Cholesky: the tile size (columns per block) must be the same; the layouts (dense, panel), and the number of registers per tile, may differ. *)
Section CholRun.
Context {T : Type} (O : Ops T) (TS : nat) (HT : 0 < TS) (ld ld' : T -> T).
Variables (M N : nat) (a a' l l' : nat -> nat -> T).
Hypothesis HNM : N <= M.
Hypothesis HL : forall i j, lower M N i j -> chol_elem O TS ld a l i j.
Hypothesis HL' : forall i j, lower M N i j -> chol_elem O TS ld' a' l' i j.
Hypothesis Ha : forall i j, lower M N i j -> ld (a i j) = ld' (a' i j).
Lemma chol_run_same : forall n i j, j < n -> lower M N i j -> l i j = l' i j.
Proof.
  induction n as [|n IH]; intros i j Hn Hij; [lia|].
  assert (NUM : forall i, lower M N i j -> chol_num O TS ld a l i j = chol_num O TS ld' a' l' i j).
  { intros r Hr. unfold chol_num. set (k := TS * (j / TS)). assert (Hk : k <= j) by (unfold k; apply Nat.mul_div_le; lia).
    assert (R1 : forall c, c < j -> l r c = l' r c) by (intros c Hc; apply IH; unfold lower in *; lia).
    assert (R2 : forall c, c < j -> l j c = l' j c) by (intros c Hc; apply IH; unfold lower in *; lia).
    rewrite (Ha r j Hr).
    rewrite (fma_chain_ext O k _ _ (fun c => omul O (om1 O) (l' r c)) (fun c => l' j c)) by (intros c Hc; rewrite ?R1, ?R2; auto; lia).
    apply fnma_chain_ext'; intros c Hc; [apply R2|apply R1]; lia. }
  assert (Hjj : lower M N j j) by (unfold lower in *; lia).
  assert (D : l j j = l' j j).
  { rewrite (HL j j Hjj), (HL' j j Hjj). rewrite NUM by auto.
    replace (j <? TS * (j / TS) + 3 * TS) with true; [reflexivity|]. symmetry. apply Nat.ltb_lt. pose proof (Nat.mul_succ_div_gt j TS ltac:(lia)). nia. }
  rewrite (HL i j Hij), (HL' i j Hij). rewrite NUM by auto. rewrite (NUM j Hjj). rewrite D. reflexivity.
Qed.
End CholRun.
Theorem C73_potrf : forall T (O : Ops T) SS cc al A L m SS' cc' al' A' L' m', 0 < SS -> 0 < cc -> 0 < SS' -> 0 < cc' -> cc * SS = cc' * SS' ->
  potrf_pre SS cc al A L -> potrf_pre SS' cc' al' A' L' -> v_m A = v_m A' -> v_n A = v_n A' ->
  (forall i j, lower (v_m A) (v_n A) i j -> m (v_addr SS A i j) = m' (v_addr SS' A' i j)) ->
  exists d d' p p', potrf_dense SS cc (cc * SS) T O al A L m = Ok d /\ potrf_dense SS' cc' (cc' * SS') T O al' A' L' m' = Ok d' /\
    potrf_panel SS cc (cc * SS) T O al A L m = Ok p /\ potrf_panel SS' cc' (cc' * SS') T O al' A' L' m' = Ok p' /\
    (forall i j, lower (v_m A) (v_n A) i j -> d (v_addr SS L i j) = d' (v_addr SS' L' i j) /\ p (v_addr SS L i j) = p' (v_addr SS' L' i j)) /\
    ((forall i j, lower (v_m A) (v_n A) i j -> omul O (o1 O) (m (v_addr SS A i j)) = m (v_addr SS A i j)) ->
     forall i j, lower (v_m A) (v_n A) i j -> d (v_addr SS L i j) = p' (v_addr SS' L' i j)).
Proof.
  intros T O SS cc al A L m SS' cc' al' A' L' m' h1 h2 h1' h2' HTS P P' Z1 Z2 HA. assert (HT : 0 < cc * SS) by nia.
  assert (HNM : v_n A <= v_m A) by (destruct (pp_sz _ _ _ _ _ P); lia).
  destruct (C28_potrf_dense_ops SS cc T O al A L m h1 h2 P) as (d & D & V & _). destruct (C28_potrf_dense_ops SS' cc' T O al' A' L' m' h1' h2' P') as (d' & D' & V' & _).
  destruct (C28_potrf_panel_ops SS cc T O al A L m h1 h2 P) as (p & Q & W & _). destruct (C28_potrf_panel_ops SS' cc' T O al' A' L' m' h1' h2' P') as (p' & Q' & W' & _).
  rewrite <- Z1, <- Z2, <- HTS in V', W'.
  exists d, d', p, p'. split; auto. split; auto. split; auto. split; auto. split.
  - intros i j Hij. split.
    + apply (chol_run_same O (cc * SS) HT _ _ _ _ _ _ _ _ HNM V V') with (n := S j); auto. intros r c Hrc. rewrite HA; auto.
    + apply (chol_run_same O (cc * SS) HT _ _ _ _ _ _ _ _ HNM W W') with (n := S j); auto.
  - intros H1 i j Hij. apply (chol_run_same O (cc * SS) HT _ _ _ _ _ _ _ _ HNM V W') with (n := S j); auto. intros r c Hrc. rewrite H1, HA; auto.
Qed.

(** trmm on the left is the exception: with a NaN (or infinity) in B the number of NaNs in the result depends on the SIMD width.  4-by-4 double, NaN in B(0,0): with four
    elements per register C(2,0) is NaN, with two it is not. *)
Definition s_a (c : container) : marg := MArg (whole c) false.
Theorem C73_trmm_left_refuted :
  trmmL_pre 4 1 (fun x => x <? 48) (s_a tA4) (s_a tB4) (s_a tC4) /\ trmmL_pre 2 2 (fun x => x <? 48) (s_a tA4) (s_a tB4) (s_a tC4) /\
  (forall i j, g_addr 4 (s_a tB4) i j = g_addr 2 (s_a tB4) i j) /\
  match trmmL 4 1 b64 b64ops (fun x => x <? 48) (o1 b64ops) (s_a tA4) Upper false (s_a tB4) (s_a tC4) (n_m [g_addr 4 (s_a tB4) 0 0]),
        trmmL 2 2 b64 b64ops (fun x => x <? 48) (o1 b64ops) (s_a tA4) Upper false (s_a tB4) (s_a tC4) (n_m [g_addr 2 (s_a tB4) 0 0]) with
  | Ok m1, Ok m2 => is_nan_at m1 (g_addr 4 (s_a tC4) 2 0) = true /\ is_nan_at m2 (g_addr 2 (s_a tC4) 2 0) = false
  | _, _ => False end.
Proof.
  split; [exact (proj1 C71_example_trmm)|]. split; [|split; [intros i j; reflexivity|vm_compute; auto]].
  assert (A : forall i k, c_addr 2 tA4 i k = i + 4 * k) by (intros; cbn; lia).
  assert (B : forall i k, c_addr 2 tB4 i k = 16 + i + 4 * k) by (intros; cbn; lia).
  assert (C : forall i k, c_addr 2 tC4 i k = 32 + i + 4 * k) by (intros; cbn; lia).
  constructor; try (cbv; repeat split; auto; lia); try reflexivity; try discriminate; try (left; reflexivity).
  - intros i k Hi Hk _. apply Nat.ltb_lt. change (nextMultiple (g_rows (s_a tB4)) (2 * 2)) with 4 in Hi.
    change (g_rows (s_a tB4)) with 4 in Hk. change (c_addr 2 tA4 i k < 48). rewrite A. lia.
  - intros i k Hi Hk. apply Nat.ltb_lt. change (c_addr 2 tB4 i k < 48). cbn in Hi, Hk. rewrite B. lia.
  - intros i k Hi Hk. apply Nat.ltb_lt. change (c_addr 2 tC4 i k < 48). cbn in Hi, Hk. rewrite C. lia.
  - intros i j i' j' Hi Hj Hi' Hj'. change (c_addr 2 tC4 i j <> c_addr 2 tA4 i' j'). cbn in Hi, Hj, Hi', Hj'. rewrite A, C. lia.
  - left. intros i j i' j' Hi Hj Hi' Hj'. change (c_addr 2 tC4 i j <> c_addr 2 tB4 i' j'). cbn in Hi, Hj, Hi', Hj'. rewrite B, C. lia.
Qed.

(* ------------------------------------------------------------------ examples *)
(** Two machines: four elements per register and one register per tile; two and two.  The same operands lie in differently spaced memory (rows padded to 8), the
    right-hand call is on other addresses. *)
Definition wide (x : nat) : bool := x <? 400.
Lemma lower_check : forall (al : alloc) m n (ad : nat -> nat -> nat), all2 m n (fun i j => implb (j <=? i) (al (ad i j))) = true -> forall i j, lower m n i j -> al (ad i j) = true.
Proof.
  intros al m n ad H i j (H1 & H2 & H3). pose proof (all2_ok _ _ _ H i j H2 H3) as Q. cbn beta in Q. replace (j <=? i) with true in Q by (symmetry; apply Nat.leb_le; lia). exact Q.
Qed.
Definition rA := whole (Cont Dense false columnMajor 6 3 0).
Definition rD := whole (Cont Dense false columnMajor 6 6 40).
Definition rA' := View (Cont Dense false columnMajor 8 3 100) 0 0 6 3 false false.
Definition rD' := View (Cont Dense false columnMajor 9 7 140) 2 1 6 6 false false.
Example C73_example_syrk : syrk_pre 4 1 wide rA rD rD /\ syrk_pre 2 2 wide rA' rD' rD' /\ v_m rA = v_m rA' /\ v_n rA = v_n rA'.
Proof.
  assert (S : forall i j, lower 6 6 i j -> i < 6 /\ j < 6) by (unfold lower; intros; lia).
  split; [|split; [|split; reflexivity]].
  - constructor; try (apply allocated_check; vm_compute; reflexivity); try (apply lower_check; vm_compute; reflexivity); try (repeat split; try reflexivity; cbn; lia).
    intros i j i' j' H1 H2. apply S in H1, H2. apply (same_check 6 6 (v_addr 4 rD) 6 6 (v_addr 4 rD) ltac:(vm_compute; reflexivity)); unfold block; auto.
  - constructor; try (apply allocated_check; vm_compute; reflexivity); try (apply lower_check; vm_compute; reflexivity); try (repeat split; try reflexivity; cbn; lia).
    intros i j i' j' H1 H2. apply S in H1, H2. apply (same_check 6 6 (v_addr 2 rD') 6 6 (v_addr 2 rD') ltac:(vm_compute; reflexivity)); unfold block; auto.
Qed.
Lemma distinct_check : forall m n ad, all2 m n (fun i j => all2 m n (fun i' j' => implb (ad i j =? ad i' j') ((i =? i') && (j =? j')))) = true -> distinct m n ad.
Proof. intros m n ad H i j i' j' Hi Hj Hi' Hj' E. apply (same_check m n ad m n ad H); unfold block; auto. Qed.
Definition cA := whole (Cont Dense true columnMajor 6 4 0).
Definition cL := whole (Cont Panel true columnMajor 6 4 40).
Definition cA' := whole (Cont Panel true columnMajor 6 4 100).
Definition cL' := View (Cont Dense false columnMajor 12 8 140) 2 2 6 4 true false.
Example C73_example_potrf : potrf_pre 4 1 wide cA cL /\ potrf_pre 2 2 wide cA' cL' /\ v_m cA = v_m cA' /\ v_n cA = v_n cA' /\ 1 * 4 = 2 * 2.
Proof.
  split; [|split; [|split; [|split]]]; try reflexivity.
  - constructor; try (apply allocated_check; vm_compute; reflexivity); try (apply distinct_check; vm_compute; reflexivity); try (repeat split; try reflexivity; cbn; lia).
    intros i j i' j' H1 H2 (H3 & H4 & H5). apply (same_check 8 4 (v_addr 4 cL) 6 4 (v_addr 4 cA) ltac:(vm_compute; reflexivity)); unfold block; split; auto.
  - constructor; try (apply allocated_check; vm_compute; reflexivity); try (apply distinct_check; vm_compute; reflexivity); try (repeat split; try reflexivity; cbn; lia).
    intros i j i' j' H1 H2 (H3 & H4 & H5). apply (same_check 8 4 (v_addr 2 cL') 6 4 (v_addr 2 cA') ltac:(vm_compute; reflexivity)); unfold block; split; auto.
Qed.
(** ger and trmm on the right. *)
Example C73_example_ger :
  ger_pre 4 1 g_al gx gy (MArg (whole gB) false) (MArg (whole gB) false) /\
  ger_pre 2 2 wide (VArg 6 (VStat 1 true 200)) gy (MArg (whole (Cont Dense false columnMajor 6 3 100)) false) (MArg (whole (Cont Panel false columnMajor 6 3 150)) false).
Proof.
  split; [exact C23_example|]. constructor; try (apply allocated_check; vm_compute; reflexivity); try (cbv; repeat split; auto; lia); try reflexivity; try discriminate.
  - intros i Hi. apply Nat.ltb_lt. change (nextMultiple 6 4) with 8 in Hi. cbn in Hi |- *. change (nextMultiple 6 4) with 8 in Hi. lia.
  - intros j Hj. apply Nat.ltb_lt. cbn in Hj |- *. lia.
  - intros i j k Hi Hj Hk. apply (separate_check 6 3 (g_addr 2 (MArg (whole (Cont Panel false columnMajor 6 3 150)) false)) 6 1 (fun i _ => vaddr 2 (VStat 1 true 200) i) ltac:(vm_compute; reflexivity) i j k 0); cbn in *; lia.
  - intros i j k Hi Hj Hk. apply (separate_check 6 3 (g_addr 2 (MArg (whole (Cont Panel false columnMajor 6 3 150)) false)) 3 1 (fun i _ => vaddr 2 (x_ptr gy) i) ltac:(vm_compute; reflexivity) i j k 0); cbn in *; lia.
  - apply same_check. vm_compute. reflexivity.
Qed.
Example C73_example_trmm :
  trmmR_pre 4 1 Properties_Trmm.e_al (MArg (whole Properties_Trmm.eB) false) (MArg (whole eA5) false) (MArg (whole eC) false) /\
  trmmR_pre 2 2 wide (MArg (whole (Cont Panel false columnMajor 6 5 100)) false) (MArg (whole (Cont Dense false rowMajor 5 5 0)) false) (MArg (whole (Cont Dense false columnMajor 6 5 200)) false).
Proof.
  split; [exact C26_example|]. constructor; try (apply allocated_check; vm_compute; reflexivity); try (apply separate_check; vm_compute; reflexivity); try (cbv; repeat split; auto; lia); try reflexivity; try discriminate.
  - intros k j H1 H2. apply (allocated_check wide 5 5 (g_addr 2 (MArg (whole (Cont Dense false rowMajor 5 5 0)) false))); [vm_compute; reflexivity| |]; cbn in *; lia.
  - left. apply separate_check. vm_compute. reflexivity.
Qed.
