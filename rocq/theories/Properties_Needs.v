(** Properties_Needs.v -- C78: the memory the algorithms require is exactly the memory they access. *)
From Coq Require Import Arith Lia List Bool PeanoNat ZArith.
From Verif Require Import Base Base_Proofs Spec Instances Layout_Model Layout_Proofs Simd_Model Simd_Proofs Reg_Model Reg_Proofs Vec_Proofs Tile_Model Tile_Proofs
  Gemm_Model Arg_Proofs Gemm_Proofs Ger_Model Ger_Proofs Syrk_Model Syrk_Proofs Trmm_Model Trmm_Proofs Potrf_Model Potrf_Proofs Needs_Proofs
  Properties_Gemm Properties_Ger Properties_Syrk Properties_Trmm.
Import ListNotations.

(** The tile that covers a row of the padding: the tile of the first row of its group of [SS] rows reaches it. *)
Lemma pad_row : forall SS M i, 0 < SS -> i < nextMultiple M SS -> SS * (i / SS) < M.
Proof.
  intros SS M i HSS Hi. destruct (nextMultiple_spec M SS HSS) as (X1 & X2 & X3). destruct (le_lt_dec M (SS * (i / SS))) as [L|]; auto.
  exfalso. apply mod0_ex in X2; auto. destruct X2 as [z Ez]. rewrite Ez in *. assert (z <= i / SS) by nia. pose proof (Nat.div_mod i SS). nia.
Qed.
Lemma pad_call : forall SS M N tr i j, 0 < SS -> forall STEP, 0 < STEP -> i < nextMultiple M SS -> j < N ->
  exists c, In c (tile SS STEP tr M N) /\ call_ok SS STEP M N c /\ k_i c <= i < k_i c + k_rm c * SS /\ SS * ((i - k_i c) / SS) < k_m c /\
    k_j c <= j < k_j c + k_nn c /\ k_i c mod SS = 0.
Proof.
  intros SS M N tr i j HSS STEP Hst Hi Hj. pose proof (pad_row SS M i HSS Hi) as HP.
  destruct (tile_ok_disj_cover SS HSS STEP Hst tr M N) as (TA & _ & TC). destruct (TC (SS * (i / SS)) j HP Hj) as (c & Hc & I1).
  specialize (TA c Hc). exists c. split; auto. split; auto. unfold in_call in I1. destruct I1 as [I1 I2]. destruct TA as (T1 & T2 & (q & T3) & _ & T5 & T6 & T7 & T8 & T9 & (q'' & T10) & T11).
  pose proof (Nat.div_mod i SS ltac:(lia)) as DM. pose proof (Nat.mod_upper_bound i SS ltac:(lia)) as MB.
  assert (Q : (i - k_i c) / SS = i / SS - q).
  { symmetry. apply (Nat.div_unique _ _ _ (i mod SS)); [auto|]. rewrite T3, Nat.mul_sub_distr_l. lia. }
  assert (P : q <= i / SS) by nia.
  split; [|split; [|split]].
  - split; [nia|]. assert (i / SS < q''); [|nia]. nia.
  - rewrite Q, Nat.mul_sub_distr_l, <- T3. lia.
  - lia.
  - rewrite T3, Nat.mul_comm. apply Nat.mod_mul. lia.
Qed.
Lemma cover_call : forall SS M N tr i j STEP, 0 < SS -> 0 < STEP -> i < M -> j < N ->
  exists c, In c (tile SS STEP tr M N) /\ call_ok SS STEP M N c /\ in_call c i j /\ k_i c mod SS = 0.
Proof.
  intros SS M N tr i j STEP HSS Hst Hi Hj. destruct (tile_ok_disj_cover SS HSS STEP Hst tr M N) as (TA & _ & TC). destruct (TC i j Hi Hj) as (c & Hc & I).
  exists c. split; auto. pose proof (TA c Hc) as K. split; auto. split; auto. destruct K as (_ & _ & (q & ->) & _). rewrite Nat.mul_comm. apply Nat.mod_mul. lia.
Qed.

(* ------------------------------------------------------------------ gemm *)
Section GemmNeeds.
Variables (SS : nat) (HSS : 0 < SS) (T : Type) (O : Ops T).
Notation addr := (addr SS).
Notation poff := (poff SS).
Lemma gemm_call_each : forall al K alpha A B beta C D (m m' : mem T) c M N,
  mptr_wf SS A -> mp_so A = columnMajor -> lane_ok SS A -> mptr_wf SS B -> mptr_wf SS C -> mp_so C = columnMajor -> mptr_wf SS D -> mp_so D = columnMajor ->
  call_ok SS TILE_STEP M N c -> k_i c mod SS = 0 ->
  gemm_call SS T O al K alpha A B beta C D c m = Ok m' ->
  (forall i k, i < k_rm c * SS -> k < K -> al (addr A (k_i c + i) k) = true) /\
  (forall k j, j < k_nn c -> k < K -> al (addr B k (k_j c + j)) = true) /\
  (forall i j, i < k_rm c * SS -> SS * (i / SS) < k_m c -> j < k_nn c -> al (addr C (k_i c + i) (k_j c + j)) = true) /\
  (forall i j, i < k_m c -> j < k_nn c -> al (addr D (k_i c + i) (k_j c + j)) = true).
Proof.
  intros al K alpha A B beta C D m m' c M N Hwa Hsa HL Hwb Hwc Hsc Hwd Hsd (T1 & T2 & (q & T3) & (q' & T4) & T5 & T6 & T7 & T8 & T9 & T10 & T11) Hi0 E.
  set (i0 := k_i c) in *. set (j0 := k_j c) in *.
  assert (EA : forall x k, addr (poff A i0 0) x k = addr A (i0 + x) k).
  { intros x k. rewrite addr_poff; auto. intros _ _. rewrite Hsa. auto. }
  assert (EB : forall k y, addr (poff (punalign SS B) 0 j0) k y = addr B k (j0 + y)).
  { intros k y. rewrite addr_poff; auto.
    - apply addr_punalign; auto.
    - apply punalign_wf; auto.
    - intros _ X. discriminate X. }
  assert (EC : forall x y, addr (poff C i0 j0) x y = addr C (i0 + x) (j0 + y)).
  { intros x y. rewrite addr_poff; auto. intros _ _. rewrite Hsc. auto. }
  assert (ED : forall x y, addr (poff D i0 j0) x y = addr D (i0 + x) (j0 + y)).
  { intros x y. rewrite addr_poff; auto. intros _ _. rewrite Hsd. auto. }
  assert (WA : mptr_wf SS (poff A i0 0)) by (apply poff_wf_cm; auto).
  assert (WB : mptr_wf SS (poff (punalign SS B) 0 j0)).
  { apply poff_wf; auto. apply punalign_wf; auto. intros X; discriminate X. }
  assert (WC : mptr_wf SS (poff C i0 j0)) by (apply poff_wf_cm; auto).
  assert (WD : mptr_wf SS (poff D i0 j0)) by (apply poff_wf_cm; auto).
  assert (LA : lane_ok SS (poff A i0 0)) by (apply lane_poff; auto).
  unfold gemm_call in E. fold i0 j0 in E. destruct (k_full c).
  - destruct (proj1 T9 eq_refl) as [F1 F2]. apply kgemm_each in E; auto. destruct E as (E1 & E2 & E3 & E4).
    split; [|split; [|split]]; intros; [rewrite <- EA; apply E1|rewrite <- EB; apply E2|rewrite <- EC; apply E3|rewrite <- ED; apply E4]; lia.
  - apply kgemm_mn_each in E; auto. destruct E as (E1 & E2 & E3 & E4).
    split; [|split; [|split]]; intros; [rewrite <- EA; apply E1|rewrite <- EB; apply E2|rewrite <- EC; apply E3|rewrite <- ED; apply E4]; lia.
Qed.
End GemmNeeds.

(** What [gemm_pre] requires of the arguments, apart from the allocated memory. *)
Record gemm_args (SS : nat) (A B C D : marg) : Prop := {
  ga_A : arg_ok SS A; ga_B : arg_ok SS B; ga_C : arg_ok SS C; ga_D : arg_ok SS D;
  ga_soA : g_so A = columnMajor; ga_soC : g_so C = columnMajor; ga_soD : g_so D = columnMajor;
  ga_panA : is_panel A -> at_panel SS A; ga_panD : is_panel D -> v_af (g_view D) = true;
  ga_szB : g_rows B = g_cols A;
  ga_szC : g_rows C = g_rows A /\ g_cols C = g_cols B; ga_szD : g_rows D = g_rows A /\ g_cols D = g_cols B;
  ga_sepA : separate (g_rows A) (g_cols B) (g_addr SS D) (g_rows A) (g_cols A) (g_addr SS A);
  ga_sepB : separate (g_rows A) (g_cols B) (g_addr SS D) (g_rows B) (g_cols B) (g_addr SS B);
  ga_sepC : forall i j i' j', block (g_rows A) (g_cols B) i j -> block (g_rows A) (g_cols B) i' j' ->
              g_addr SS D i j = g_addr SS C i' j' -> i = i' /\ j = j'
}.
(** The memory of a call: the elements of B and D, and the elements of A and C with the padding of their columns. *)
Definition gemm_memory (SS : nat) (al : alloc) (A B C D : marg) : Prop :=
  allocated al (nextMultiple (g_rows A) SS) (g_cols A) (g_addr SS A) /\ allocated al (g_rows B) (g_cols B) (g_addr SS B) /\
  allocated al (nextMultiple (g_rows A) SS) (g_cols B) (g_addr SS C) /\ allocated al (g_rows A) (g_cols B) (g_addr SS D).

Lemma tile_none : forall SS STEP tr M N, 0 < SS -> 0 < STEP -> M = 0 \/ N = 0 -> tile SS STEP tr M N = [].
Proof.
  intros SS STEP tr M N HSS Hst H. destruct (tile_ok_disj_cover SS HSS STEP Hst tr M N) as (TA & _). destruct (tile SS STEP tr M N) as [|c l]; auto.
  exfalso. specialize (TA c (or_introl eq_refl)). destruct TA as (_ & _ & _ & _ & T5 & T6 & T7 & T8 & _). lia.
Qed.

Theorem C78_gemm : forall SS T (O : Ops T) al alpha A B beta C D m, 0 < SS -> gemm_args SS A B C D ->
  (g_rows A = 0 \/ g_cols B = 0 -> gemm SS T O al alpha A B beta C D m = Ok m) /\
  (gemm_memory SS al A B C D -> exists m', gemm SS T O al alpha A B beta C D m = Ok m') /\
  (0 < g_rows A -> 0 < g_cols B -> ~ gemm_memory SS al A B C D -> gemm SS T O al alpha A B beta C D m = UB).
Proof.
  intros SS T O al alpha A B beta C D m HSS [hA hB hC hD sA sC sD pA pD zB [zC1 zC2] [zD1 zD2] xA xB xC]. split; [|split].
  - intros Z. unfold gemm. rewrite zB, zC1, zC2, zD1, zD2, !Nat.eqb_refl. cbn [negb andb]. unfold gemm_ptr. rewrite g_ptr_so, sD. cbn [order_eqb negb].
    rewrite tile_none by (auto; unfold TILE_STEP; lia). reflexivity.
  - intros (a1 & a2 & a3 & a4). destruct (C17_gemm_ops SS T O al alpha A B beta C D m HSS) as (m' & E & _); [constructor; auto|eauto].
  - intros HM HN Hn.
    assert (Q : ou (gemm SS T O al alpha A B beta C D m)).
    { unfold gemm. rewrite zB, zC1, zC2, zD1, zD2, !Nat.eqb_refl. cbn [negb andb]. unfold gemm_ptr. rewrite g_ptr_so, sD. cbn [order_eqb negb].
      apply ou_foldM. intros c s _. assert (St : mp_kind (g_ptr SS D) = Panel -> mp_af (g_ptr SS D) = true).
      { intros X. apply (g_ptr_store SS D pD X). }
      unfold gemm_call. destruct (k_full c); [apply ou_kgemm|apply ou_kgemm_mn]; cbn [poff mp_so mp_kind mp_af]; rewrite ?g_ptr_so; auto. }
    destruct (ou_cases _ _ Q) as [(m' & E)|E]; [exfalso; apply Hn|exact E].
    unfold gemm in E. rewrite zB, zC1, zC2, zD1, zD2, !Nat.eqb_refl in E. cbn [negb andb] in E. unfold gemm_ptr in E. rewrite g_ptr_so, sD in E. cbn [order_eqb negb] in E.
    assert (CE : forall c, In c (tile SS TILE_STEP (cachePreferredTraversal (g_ptr SS D)) (g_rows A) (g_cols B)) -> call_ok SS TILE_STEP (g_rows A) (g_cols B) c -> k_i c mod SS = 0 ->
      (forall i k, i < k_rm c * SS -> k < g_cols A -> al (g_addr SS A (k_i c + i) k) = true) /\
      (forall k j, j < k_nn c -> k < g_cols A -> al (g_addr SS B k (k_j c + j)) = true) /\
      (forall i j, i < k_rm c * SS -> SS * (i / SS) < k_m c -> j < k_nn c -> al (g_addr SS C (k_i c + i) (k_j c + j)) = true) /\
      (forall i j, i < k_m c -> j < k_nn c -> al (g_addr SS D (k_i c + i) (k_j c + j)) = true)).
    { intros c Hc Hok Hi. destruct (foldM_each _ _ _ _ _ _ E c Hc) as (s1 & s2 & X).
      apply (gemm_call_each SS HSS T O) with (M := g_rows A) (N := g_cols B) in X; auto using g_ptr_wf, g_ptr_lane; try (rewrite g_ptr_so; assumption).
      destruct X as (E1 & E2 & E3 & E4). split; [|split; [|split]]; intros; rewrite <- g_ptr_addr by auto; auto. }
    split; [|split; [|split]]; intros i j Hi Hj.
    + destruct (pad_call SS (g_rows A) (g_cols B) (cachePreferredTraversal (g_ptr SS D)) i 0 HSS TILE_STEP ltac:(unfold TILE_STEP; lia) Hi HN) as (c & Hc & Hok & R1 & _ & _ & R2).
      destruct (CE c Hc Hok R2) as (E1 & _). replace i with (k_i c + (i - k_i c)) by lia. apply E1; lia.
    + destruct (cover_call SS (g_rows A) (g_cols B) (cachePreferredTraversal (g_ptr SS D)) 0 j TILE_STEP HSS ltac:(unfold TILE_STEP; lia) HM Hj) as (c & Hc & Hok & [R1 R3] & R2).
      destruct (CE c Hc Hok R2) as (_ & E2 & _). replace j with (k_j c + (j - k_j c)) by lia. apply E2; lia.
    + destruct (pad_call SS (g_rows A) (g_cols B) (cachePreferredTraversal (g_ptr SS D)) i j HSS TILE_STEP ltac:(unfold TILE_STEP; lia) Hi Hj) as (c & Hc & Hok & R1 & R3 & R4 & R2).
      destruct (CE c Hc Hok R2) as (_ & _ & E3 & _). replace i with (k_i c + (i - k_i c)) by lia. replace j with (k_j c + (j - k_j c)) by lia. apply E3; lia.
    + destruct (cover_call SS (g_rows A) (g_cols B) (cachePreferredTraversal (g_ptr SS D)) i j TILE_STEP HSS ltac:(unfold TILE_STEP; lia) Hi Hj) as (c & Hc & Hok & [R1 R3] & R2).
      destruct (CE c Hc Hok R2) as (_ & _ & _ & E4). replace i with (k_i c + (i - k_i c)) by lia. replace j with (k_j c + (j - k_j c)) by lia. apply E4; lia.
Qed.

(* ------------------------------------------------------------------ ger *)
(** The padding to the next multiple of the SIMD size, for tiles of [cc] SIMD vectors. *)
Lemma pad_call_cc : forall SS cc M N i j tr, 0 < SS -> 0 < cc -> i < nextMultiple M SS -> j < N ->
  exists c, In c (tile (cc * SS) (cc * SS) tr M N) /\ call_ok (cc * SS) (cc * SS) M N c /\ k_i c <= i < k_i c + k_rm c * cc * SS /\ SS * ((i - k_i c) / SS) < k_m c /\
    k_j c <= j < k_j c + k_nn c /\ k_i c mod SS = 0.
Proof.
  intros SS cc M N i j tr HSS Hcc Hi Hj. pose proof (pad_row SS M i HSS Hi) as HP. assert (HT : 0 < cc * SS) by nia.
  destruct (tile_ok_disj_cover (cc * SS) HT (cc * SS) HT tr M N) as (TA & _ & TC). destruct (TC (SS * (i / SS)) j HP Hj) as (c & Hc & I1 & I2).
  specialize (TA c Hc). exists c. split; auto. split; auto. destruct TA as (T1 & T2 & (q & T3) & _ & T5 & T6 & T7 & T8 & T9 & (q'' & T10) & T11).
  pose proof (Nat.div_mod i SS ltac:(lia)) as DM. pose proof (Nat.mod_upper_bound i SS ltac:(lia)) as MB.
  assert (K : k_i c = SS * (cc * q)) by nia.
  assert (P : cc * q <= i / SS) by nia.
  assert (Q : (i - k_i c) / SS = i / SS - cc * q).
  { symmetry. apply (Nat.div_unique _ _ _ (i mod SS)); [auto|]. rewrite K, Nat.mul_sub_distr_l. lia. }
  split; [|split; [|split]]; auto.
  - split; [nia|]. assert (i / SS < cc * q''); [|nia]. nia.
  - rewrite Q, Nat.mul_sub_distr_l, <- K. lia.
  - rewrite K, Nat.mul_comm. apply Nat.mod_mul. lia.
Qed.
Lemma mod_of_cc : forall SS cc i, 0 < SS -> 0 < cc -> i mod (cc * SS) = 0 -> i mod SS = 0.
Proof. intros SS cc i H1 H2 H. apply Nat.mod_divide in H; [|nia]. destruct H as [z ->]. rewrite Nat.mul_assoc. apply Nat.mod_mul. lia. Qed.

Section GerNeeds.
Variables (SS : nat) (HSS : 0 < SS) (cc : nat) (Hcc : 0 < cc) (T : Type) (O : Ops T).
Notation addr := (addr SS).
Notation poff := (poff SS).
Lemma ger_call_each : forall al alpha x y A B (m m' : mem T) c M N,
  vptr_ok SS x -> vec_ok SS y -> mptr_wf SS A -> mp_so A = columnMajor -> lane_ok SS A -> mptr_wf SS B -> mp_so B = columnMajor ->
  call_ok (cc * SS) (cc * SS) M N c -> k_i c mod SS = 0 ->
  ger_call SS cc T O al alpha x y A B c m = Ok m' ->
  (forall i, i < k_rm c * cc * SS -> al (vaddr SS x (k_i c + i)) = true) /\
  (forall j, j < k_nn c -> al (vaddr SS y (k_j c + j)) = true) /\
  (forall i j, i < k_rm c * cc * SS -> (if mp_af A && mp_pf A then SS * (i / SS) < k_m c else i < k_m c) -> j < k_nn c -> al (addr A (k_i c + i) (k_j c + j)) = true) /\
  (forall i j, i < k_m c -> j < k_nn c -> al (addr B (k_i c + i) (k_j c + j)) = true).
Proof.
  intros al alpha x y A B m m' c M N Hx Hy Hwa Hsa HL Hwb Hsb (T1 & T2 & (q & T3) & (q' & T4) & T5 & T6 & T7 & T8 & T9 & T10 & T11) Hi0 E.
  assert (Hj0 : k_j c mod SS = 0) by (rewrite T4; apply (mod_of_cc SS cc); auto; rewrite Nat.mul_comm; apply Nat.mod_mul; nia).
  set (i0 := k_i c) in *. set (j0 := k_j c) in *.
  assert (EA : forall x y, addr (poff A i0 j0) x y = addr A (i0 + x) (j0 + y)).
  { intros u v. rewrite addr_poff; auto. intros _ _. rewrite Hsa. auto. }
  assert (EB : forall x y, addr (poff B i0 j0) x y = addr B (i0 + x) (j0 + y)).
  { intros u v. rewrite addr_poff; auto. intros _ _. rewrite Hsb. auto. }
  assert (WA : mptr_wf SS (poff A i0 j0)) by (apply poff_wf_cm; auto).
  assert (WB : mptr_wf SS (poff B i0 j0)) by (apply poff_wf_cm; auto).
  assert (LA : lane_ok SS (poff A i0 j0)) by (apply lane_poff; auto).
  assert (VX : vptr_ok SS (voff SS x i0)) by (eapply (vptr_ok_voff SS HSS cc Hcc); auto).
  unfold ger_call in E. fold i0 j0 in E. destruct (k_full c).
  - destruct (proj1 T9 eq_refl) as [F1 F2]. apply bind_ok_inv in E. destruct E as (r1 & E1 & E). apply bind_ok_inv in E. destruct E as (r2 & E2 & E3).
    apply (reg_ger_alpha_each SS HSS T O) in E2; auto. destruct E2 as [E2 E4].
    split; [|split; [|split]].
    + intros i Hi. rewrite <- (vaddr_voff SS HSS cc Hcc) by (auto; apply vptr_vec_ok; auto). apply E2. lia.
    + intros j Hj. rewrite <- (vaddr_voff SS HSS cc Hcc) by auto. apply E4. lia.
    + intros i j Hi Hm Hj. rewrite <- EA. eapply (reg_loadb_each SS HSS T O); eauto; lia.
    + intros i j Hi Hj. rewrite <- EB. eapply (reg_store_each SS HSS T); eauto; nia.
  - apply bind_ok_inv in E. destruct E as (r1 & E1 & E). apply bind_ok_inv in E. destruct E as (r2 & E2 & E3).
    apply (reg_ger_alpha_mn_each SS HSS T O) in E2; auto. destruct E2 as [E2 E4].
    split; [|split; [|split]].
    + intros i Hi. rewrite <- (vaddr_voff SS HSS cc Hcc) by (auto; apply vptr_vec_ok; auto). apply E2. lia.
    + intros j Hj. rewrite <- (vaddr_voff SS HSS cc Hcc) by auto. apply E4; lia.
    + intros i j Hi Hm Hj. rewrite <- EA. eapply (reg_loadb_mn_each SS HSS T O); eauto; lia.
    + intros i j Hi Hj. rewrite <- EB. eapply (reg_store_mn_each SS HSS T); eauto; nia.
Qed.
End GerNeeds.

(** What [ger_pre] requires apart from the allocated memory. *)
Record ger_args (SS : nat) (x y : varg) (A B : marg) : Prop := {
  ra_x : vptr_ok SS (x_ptr x); ra_y : vec_ok SS (x_ptr y);
  ra_A : arg_ok SS A; ra_B : arg_ok SS B; ra_soA : g_so A = columnMajor; ra_soB : g_so B = columnMajor;
  ra_panA : is_panel A -> at_panel SS A; ra_panB : is_panel B -> v_af (g_view B) = true;
  ra_szA : g_rows A = x_size x /\ g_cols A = x_size y; ra_szB : g_rows B = x_size x /\ g_cols B = x_size y;
  ra_sepx : forall i j k, i < x_size x -> j < x_size y -> k < x_size x -> g_addr SS B i j <> vaddr SS (x_ptr x) k;
  ra_sepy : forall i j k, i < x_size x -> j < x_size y -> k < x_size y -> g_addr SS B i j <> vaddr SS (x_ptr y) k;
  ra_sepA : forall i j i' j', block (x_size x) (x_size y) i j -> block (x_size x) (x_size y) i' j' ->
              g_addr SS B i j = g_addr SS A i' j' -> i = i' /\ j = j'
}.
(** The memory of a call: x up to the next multiple of the tile size; y and B; A, with its padding if it is a whole matrix ([v_pf]: not a window) of aligned type. *)
Definition ger_memory (SS cc : nat) (al : alloc) (x y : varg) (A B : marg) : Prop :=
  (forall i, i < nextMultiple (x_size x) (cc * SS) -> al (vaddr SS (x_ptr x) i) = true) /\
  (forall j, j < x_size y -> al (vaddr SS (x_ptr y) j) = true) /\
  allocated al (if v_af (g_view A) && v_pf (g_view A) then nextMultiple (x_size x) SS else x_size x) (x_size y) (g_addr SS A) /\
  allocated al (x_size x) (x_size y) (g_addr SS B).

Lemma g_ptr_pf : forall SS a, mp_pf (g_ptr SS a) = v_pf (g_view a).
Proof. intros SS [v t]. unfold g_ptr. cbn. destruct t; reflexivity. Qed.
Lemma vptr_along : forall SS x, vptr_ok SS x -> along_major x.
Proof. intros SS [[] p| |] H; cbn in *; auto; destruct H as (_ & H & _); rewrite H; reflexivity. Qed.

Theorem C78_ger : forall SS cc T (O : Ops T) al alpha x y A B m, 0 < SS -> 0 < cc -> ger_args SS x y A B ->
  (x_size x = 0 \/ x_size y = 0 -> ger_cm SS cc T O al alpha x y A B m = Ok m) /\
  (ger_memory SS cc al x y A B -> exists m', ger_cm SS cc T O al alpha x y A B m = Ok m') /\
  (0 < x_size x -> 0 < x_size y -> ~ ger_memory SS cc al x y A B -> ger_cm SS cc T O al alpha x y A B m = UB).
Proof.
  intros SS cc T O al alpha x y A B m HSS Hcc [hx hy hA hB sA sB pA pB [zA1 zA2] [zB1 zB2] xx xy xA].
  assert (HT : 0 < cc * SS) by nia.
  assert (G : ger_cm SS cc T O al alpha x y A B m = foldM (ger_call SS cc T O al alpha (x_ptr x) (x_ptr y) (g_ptr SS A) (g_ptr SS B)) (tile (cc * SS) (cc * SS) columnMajor (x_size x) (x_size y)) m).
  { unfold ger_cm. rewrite zA1, zA2, zB1, zB2, !Nat.eqb_refl. cbn [negb]. unfold ger_ptr. rewrite !g_ptr_so, sA, sB. reflexivity. }
  split; [|split].
  - intros Z. rewrite G, tile_none by auto. reflexivity.
  - intros (ax & ay & aA & aB). unfold ger_cm. rewrite zA1, zA2, zB1, zB2, !Nat.eqb_refl. cbn [negb].
    destruct (ger_ptr_ok SS HSS cc Hcc T O al (x_size x) (x_size y) alpha (x_ptr x) (x_ptr y) (g_ptr SS A) (g_ptr SS B) m)
      as (m' & E & _);
      auto using g_ptr_wf, g_ptr_lane, g_ptr_store; try (rewrite g_ptr_so; assumption).
    + intros i j Hi Hj. rewrite g_ptr_af, g_ptr_pf in Hi. rewrite g_ptr_addr by auto. apply aA; auto.
    + intros i j Hi Hj. rewrite g_ptr_addr by auto. apply aB; auto.
    + intros i j i' j' Hi Hj Hi' Hj' X. rewrite !g_ptr_addr in X by auto. apply (g_distinct SS HSS B hB); lia.
    + intros i j k Hi Hj Hk. rewrite g_ptr_addr by auto. apply xx; auto.
    + intros i j k Hi Hj Hk. rewrite g_ptr_addr by auto. apply xy; auto.
    + intros i j i' j' Hi Hi' X. rewrite !g_ptr_addr in X by auto. apply xA; auto.
    + eauto.
  - intros HM HN Hn. rewrite G.
    assert (Q : ou (foldM (ger_call SS cc T O al alpha (x_ptr x) (x_ptr y) (g_ptr SS A) (g_ptr SS B)) (tile (cc * SS) (cc * SS) columnMajor (x_size x) (x_size y)) m)).
    { apply ou_foldM. intros c s _. assert (St : mp_kind (g_ptr SS B) = Panel -> mp_af (g_ptr SS B) = true).
      { intros X. apply (g_ptr_store SS B pB X). }
      unfold ger_call. destruct (k_full c); (apply ou_bind; [first [apply ou_loadb|apply ou_loadb_mn]|intros r1; apply ou_bind; [first [apply ou_ger_alpha|apply ou_ger_alpha_mn]|intros r2; first [apply ou_store|apply ou_store_mn]]]);
        cbn [poff mp_so mp_kind mp_af]; rewrite ?g_ptr_so; auto; apply along_voff, (vptr_along SS); auto. }
    destruct (ou_cases _ _ Q) as [(m' & E)|E]; [exfalso; apply Hn|exact E].
    assert (CE : forall c, In c (tile (cc * SS) (cc * SS) columnMajor (x_size x) (x_size y)) -> call_ok (cc * SS) (cc * SS) (x_size x) (x_size y) c -> k_i c mod SS = 0 ->
      (forall i, i < k_rm c * cc * SS -> al (vaddr SS (x_ptr x) (k_i c + i)) = true) /\
      (forall j, j < k_nn c -> al (vaddr SS (x_ptr y) (k_j c + j)) = true) /\
      (forall i j, i < k_rm c * cc * SS -> (if v_af (g_view A) && v_pf (g_view A) then SS * (i / SS) < k_m c else i < k_m c) -> j < k_nn c -> al (g_addr SS A (k_i c + i) (k_j c + j)) = true) /\
      (forall i j, i < k_m c -> j < k_nn c -> al (g_addr SS B (k_i c + i) (k_j c + j)) = true)).
    { intros c Hc Hok Hi. destruct (foldM_each _ _ _ _ _ _ E c Hc) as (s1 & s2 & X).
      apply (ger_call_each SS HSS cc Hcc T O) with (M := x_size x) (N := x_size y) in X; auto using g_ptr_wf, g_ptr_lane; try (rewrite g_ptr_so; assumption).
      rewrite g_ptr_af, g_ptr_pf in X. destruct X as (E1 & E2 & E3 & E4). split; [|split; [|split]]; auto; intros; rewrite <- g_ptr_addr by auto; auto. }
    split; [|split; [|split]].
    + intros i Hi. destruct (pad_call (cc * SS) (x_size x) (x_size y) columnMajor i 0 HT (cc * SS) HT Hi HN) as (c & Hc & Hok & R1 & _ & _ & R2).
      destruct (CE c Hc Hok (mod_of_cc SS cc _ HSS Hcc R2)) as (E1 & _). replace i with (k_i c + (i - k_i c)) by lia. apply E1. nia.
    + intros j Hj. destruct (cover_call (cc * SS) (x_size x) (x_size y) columnMajor 0 j (cc * SS) HT HT HM Hj) as (c & Hc & Hok & [R1 R3] & R2).
      destruct (CE c Hc Hok (mod_of_cc SS cc _ HSS Hcc R2)) as (_ & E2 & _). replace j with (k_j c + (j - k_j c)) by lia. apply E2. lia.
    + intros i j Hi Hj. destruct (v_af (g_view A) && v_pf (g_view A)).
      * destruct (pad_call_cc SS cc (x_size x) (x_size y) i j columnMajor HSS Hcc Hi Hj) as (c & Hc & Hok & R1 & R3 & R4 & R2).
        destruct (CE c Hc Hok R2) as (_ & _ & E3 & _). replace i with (k_i c + (i - k_i c)) by lia. replace j with (k_j c + (j - k_j c)) by lia. apply E3; lia.
      * destruct (cover_call (cc * SS) (x_size x) (x_size y) columnMajor i j (cc * SS) HT HT Hi Hj) as (c & Hc & Hok & [R1 R3] & R2).
        destruct (CE c Hc Hok (mod_of_cc SS cc _ HSS Hcc R2)) as (_ & _ & E3 & _). replace i with (k_i c + (i - k_i c)) by lia. replace j with (k_j c + (j - k_j c)) by lia.
        destruct Hok as (_ & _ & _ & _ & T5 & _). apply E3; nia.
    + intros i j Hi Hj. destruct (cover_call (cc * SS) (x_size x) (x_size y) columnMajor i j (cc * SS) HT HT Hi Hj) as (c & Hc & Hok & [R1 R3] & R2).
      destruct (CE c Hc Hok (mod_of_cc SS cc _ HSS Hcc R2)) as (_ & _ & _ & E4). replace i with (k_i c + (i - k_i c)) by lia. replace j with (k_j c + (j - k_j c)) by lia. apply E4; lia.
Qed.

(* ------------------------------------------------------------------ syrk *)
Record syrk_args (SS : nat) (A C D : view) : Prop := {
  sa_A : dense_cm SS A; sa_C : dense_cm SS C; sa_D : dense_cm SS D;
  sa_inD : v_i D + v_m D <= c_rows (v_cont D) /\ v_j D + v_n D <= c_cols (v_cont D);
  sa_szC : v_m C = v_m A /\ v_n C = v_m A; sa_szD : v_m D = v_m A /\ v_n D = v_m A;
  sa_sepA : forall i j i' k, lower (v_m A) (v_m A) i j -> i' < v_m A -> k < v_n A -> v_addr SS D i j <> v_addr SS A i' k;
  sa_sepC : forall i j i' j', lower (v_m A) (v_m A) i j -> lower (v_m A) (v_m A) i' j' ->
              v_addr SS D i j = v_addr SS C i' j' -> i = i' /\ j = j'
}.
(** The memory of a call, for blocks of [TS] rows and columns: A up to the next multiple of TS; the lower triangle of D; in every block column of C the rows from its
    diagonal block on, up to the last row (with its padding, if C is a whole matrix), in an incomplete last block column up to the next multiple of TS. *)
Definition syrk_memory (SS TS : nat) (al : alloc) (A C D : view) : Prop :=
  allocated al (nextMultiple (v_m A) TS) (v_n A) (v_addr SS A) /\
  (forall i j, j < v_m A -> TS * (j / TS) <= i ->
     i < (if TS * (j / TS) + TS <=? v_m A then (if v_pf C then nextMultiple (v_m A) SS else v_m A) else nextMultiple (v_m A) TS) -> al (v_addr SS C i j) = true) /\
  (forall i j, lower (v_m A) (v_m A) i j -> al (v_addr SS D i j) = true).

Section SyrkNeeds.
Variables (SS : nat) (HSS : 0 < SS) (cc : nat) (Hcc : 0 < cc) (T : Type) (O : Ops T).
Notation addr := (addr SS).
Notation TS := (cc * SS).
Lemma syrk_call_each : forall al K alpha A beta C D (m m' : mem T) c M,
  dense_cm SS A -> dense_cm SS C -> dense_cm SS D -> syrk_ok SS cc M c ->
  syrk_call SS cc T O al K alpha A beta C D c m = Ok m' ->
  (forall i k, i < k_rm c * TS -> k < K -> al (v_addr SS A (k_i c + i) k) = true) /\
  (forall i j, i < k_rm c * TS -> j < k_nn c ->
     (k_nn c < TS \/ (if v_pf C then SS * (i / SS) < k_m c else i < k_m c)) -> al (v_addr SS C (k_i c + i) (k_j c + j)) = true) /\
  (forall i j, i < k_m c -> j < k_nn c -> k_j c + j <= k_i c + i -> al (v_addr SS D (k_i c + i) (k_j c + j)) = true).
Proof.
  intros al K alpha A beta C D m m' c M HA HC HD [(T1 & T2 & (q & T3) & (q' & T4) & T5 & T6 & T7 & T8 & T9 & T10 & T11) TL] E. unfold Ger_Model.TS in *.
  assert (Hi0 : k_i c mod SS = 0) by (rewrite T3; apply (mod_of_cc SS cc); auto; rewrite Nat.mul_comm; apply Nat.mod_mul; nia).
  assert (Hj0 : k_j c mod SS = 0) by (rewrite T4; apply (mod_of_cc SS cc); auto; rewrite Nat.mul_comm; apply Nat.mod_mul; nia).
  set (i0 := k_i c) in *. set (j0 := k_j c) in *.
  pose proof (dptr_wf SS HSS cc Hcc C i0 j0 HC Hi0) as WC. pose proof (dptr_wf SS HSS cc Hcc A i0 0 HA Hi0) as WA.
  pose proof (ptrans_wf SS HSS _ (dptr_wf SS HSS cc Hcc A j0 0 HA Hj0)) as WB. pose proof (dptr_wf SS HSS cc Hcc D i0 j0 HD Hi0) as WD.
  assert (EC : forall u v, addr (v_ptr SS true C i0 j0) u v = v_addr SS C (i0 + u) (j0 + v)) by (intros; apply dptr_addr; auto).
  assert (ED : forall u v, addr (v_ptr SS true D i0 j0) u v = v_addr SS D (i0 + u) (j0 + v)) by (intros; apply dptr_addr; auto).
  assert (EA : forall u v, addr (v_ptr SS true A i0 0) u v = v_addr SS A (i0 + u) v) by (intros; apply dptr_addr; auto).
  assert (LA : lane_ok SS (v_ptr SS true A i0 0)) by (apply dptr_lane; auto).
  assert (LC : lane_ok SS (v_ptr SS true C i0 j0)) by (apply dptr_lane; auto).
  assert (Eij : k_rm c * (cc * SS) = k_rm c * cc * SS) by lia.
  unfold syrk_call in E. fold i0 j0 in E. destruct (k_full c).
  - destruct (proj1 T9 eq_refl) as [F1 F2]. apply bind_ok_inv in E. destruct E as (r1 & E1 & E). apply bind_ok_inv in E. destruct E as (r2 & E2 & E3).
    apply (reg_gemm_each SS HSS T O) in E2; auto. destruct E2 as [E2 E4].
    split; [|split].
    + intros i k Hi Hk. rewrite <- EA. apply E2; lia.
    + intros i j Hi Hj _. rewrite <- EC. eapply (reg_loadb_each SS HSS T O); eauto; lia.
    + intros i j Hi Hj Hl. rewrite <- ED. destruct (Nat.eqb_spec i0 j0).
      * eapply (reg_storeLower_each SS HSS T); eauto; lia.
      * eapply (reg_store_each SS HSS T); eauto; lia.
  - cbv zeta in E. apply bind_ok_inv in E. destruct E as (r1 & E1 & E). apply bind_ok_inv in E. destruct E as (r2 & E2 & E3).
    apply (reg_gemm_mn_each SS HSS T O) in E2; auto. destruct E2 as [E2 E4].
    split; [|split].
    + intros i k Hi Hk. rewrite <- EA. apply E2; lia.
    + intros i j Hi Hj Hd. rewrite <- EC. eapply (reg_loadb_mn_each SS HSS T O) in E1; eauto; try lia.
      change (mp_af (v_ptr SS true C i0 j0) && mp_pf (v_ptr SS true C i0 j0)) with (v_pf C).
      pose proof (Nat.div_mod i SS ltac:(lia)). unfold Ger_Model.TS. destruct (Nat.ltb_spec (k_nn c) (cc * SS)); destruct (v_pf C); lia.
    + intros i j Hi Hj Hl. rewrite <- ED. destruct (Nat.eqb_spec i0 j0).
      * eapply (reg_storeLower_mn_each SS HSS T); eauto; lia.
      * eapply (reg_store_mn_each SS HSS T); eauto; lia.
Qed.
End SyrkNeeds.

Theorem C78_syrk : forall SS cc T (O : Ops T) al alpha A beta C D m, 0 < SS -> 0 < cc -> syrk_args SS A C D ->
  (syrk_memory SS (cc * SS) al A C D -> exists m', syrkLower SS cc T O al alpha A beta C D m = Ok m') /\
  (~ syrk_memory SS (cc * SS) al A C D -> syrkLower SS cc T O al alpha A beta C D m = UB).
Proof.
  intros SS cc T O al alpha A beta C D m HSS Hcc [hA hC hD [i1 i2] [zC1 zC2] [zD1 zD2] xA xC]. assert (HT : 0 < cc * SS) by nia. split.
  - intros (aA & aC & aD). destruct (syrk_ok_thm SS HSS cc Hcc T O al alpha A beta C D m) as (m' & E & U); auto.
    + intros i j Hj Hi. apply aC; auto; apply Hi.
    + intros i j i' j' (H1 & H2 & H3) (H4 & H5 & H6) X. unfold v_addr, c_addr in X. apply Nat.add_cancel_l in X.
      apply (c_index_inj SS HSS) in X; lia.
    + eauto.
  - intros Hn.
    assert (G : syrkLower SS cc T O al alpha A beta C D m = foldM (syrk_call SS cc T O al (v_n A) alpha A beta C D) (syrk_calls SS cc (v_m A)) m).
    { unfold syrkLower. rewrite zC1, zC2, zD1, zD2, !Nat.eqb_refl. reflexivity. }
    rewrite G.
    assert (Q : ou (foldM (syrk_call SS cc T O al (v_n A) alpha A beta C D) (syrk_calls SS cc (v_m A)) m)).
    { apply ou_foldM. intros c s _. unfold syrk_call.
      assert (K : forall v i j, dense_cm SS v -> mp_so (v_ptr SS true v i j) = columnMajor /\ (mp_kind (v_ptr SS true v i j) = Panel -> mp_af (v_ptr SS true v i j) = true)).
      { intros v i j H. split; [apply (dptr_so SS); auto|reflexivity]. }
      destruct (k_full c); cbv zeta; (apply ou_bind; [first [apply ou_loadb|apply ou_loadb_mn]; apply K; auto|intros r1]; apply ou_bind; [first [apply ou_gemm|apply ou_gemm_mn]; apply K; auto|intros r2]);
        destruct (k_i c =? k_j c); first [apply ou_store|apply ou_store_mn|apply ou_storeLower|apply ou_storeLower_mn]; apply K; auto. }
    destruct (ou_cases _ _ Q) as [(m' & E)|E]; [exfalso; apply Hn|exact E]. clear Q Hn.
    destruct (syrk_calls_ok SS HSS cc Hcc (v_m A)) as (TA & _ & _).
    assert (CE : forall c, In c (syrk_calls SS cc (v_m A)) ->
      (forall i k, i < k_rm c * (cc * SS) -> k < v_n A -> al (v_addr SS A (k_i c + i) k) = true) /\
      (forall i j, i < k_rm c * (cc * SS) -> j < k_nn c ->
         (k_nn c < cc * SS \/ (if v_pf C then SS * (i / SS) < k_m c else i < k_m c)) -> al (v_addr SS C (k_i c + i) (k_j c + j)) = true) /\
      (forall i j, i < k_m c -> j < k_nn c -> k_j c + j <= k_i c + i -> al (v_addr SS D (k_i c + i) (k_j c + j)) = true)).
    { intros c Hc. destruct (foldM_each _ _ _ _ _ _ E c Hc) as (s1 & s2 & X). eapply (syrk_call_each SS HSS cc Hcc T O); eauto. }
    (* the block of a row in the padding *)
    assert (PB : forall i j, (cc * SS) * (j / (cc * SS)) <= i < nextMultiple (v_m A) (cc * SS) -> j < v_m A ->
      exists c, In c (syrk_calls SS cc (v_m A)) /\ k_i c <= i < k_i c + k_rm c * (cc * SS) /\ k_j c <= j < k_j c + k_nn c).
    { intros i j [Hi1 Hi2] Hj. pose proof (pad_row (cc * SS) (v_m A) i HT Hi2) as P.
      destruct (syrk_calls_cover SS HSS cc Hcc (v_m A) ((cc * SS) * (i / (cc * SS))) j) as (c & Hc & I1 & I2); auto.
      { split; auto. apply Nat.mul_le_mono_l. apply Nat.div_le_mono with (c := cc * SS) in Hi1; [|lia]. rewrite Nat.mul_comm, Nat.div_mul in Hi1 by lia. exact Hi1. }
      exists c. split; auto. split; auto. destruct (TA c Hc) as [(T1 & T2 & (q & T3) & _ & T5 & T6 & T7 & T8 & T9 & (q2 & T10) & T11) _]. unfold Ger_Model.TS in *.
      pose proof (Nat.div_mod i (cc * SS) ltac:(lia)) as DM. pose proof (Nat.mod_upper_bound i (cc * SS) ltac:(lia)) as MB. split; [lia|].
      rewrite T10. assert (i / (cc * SS) < q2) by nia. nia. }
    split; [|split].
    + intros i k Hi Hk. assert (HM : 0 < v_m A). { destruct (Nat.eq_dec (v_m A) 0) as [Z|]; [|lia]. pose proof (pad_row (cc * SS) (v_m A) i HT Hi). lia. }
      destruct (PB i 0) as (c & Hc & R1 & R2); auto.
      { rewrite Nat.div_0_l by lia. lia. }
      replace i with (k_i c + (i - k_i c)) by lia. apply (proj1 (CE c Hc)); lia.
    + intros i j Hj Hi1 Hi2.
      assert (JJ : forall c, In c (syrk_calls SS cc (v_m A)) -> k_j c <= j < k_j c + k_nn c -> k_j c = cc * SS * (j / (cc * SS))).
      { intros c Hc I. destruct (TA c Hc) as [(T1 & T2 & _ & (q & T4) & T5 & T6 & _) _]. unfold Ger_Model.TS in *. rewrite T4. f_equal.
        apply (Nat.div_unique j (cc * SS) q (j - k_j c)); lia. }
      destruct (Nat.leb_spec (cc * SS * (j / (cc * SS)) + cc * SS) (v_m A)) as [HF|HF].
      * assert (W : forall c, In c (syrk_calls SS cc (v_m A)) -> k_j c <= j < k_j c + k_nn c -> ~ k_nn c < cc * SS).
        { intros c Hc I L. pose proof (JJ c Hc I). destruct (syrk_calls_wide SS HSS cc Hcc (v_m A) c Hc) as [|[_ W]]; unfold Ger_Model.TS in *; lia. }
        destruct (v_pf C).
        -- pose proof (pad_row SS (v_m A) i HSS Hi2) as P.
           assert (L1 : cc * SS * (j / (cc * SS)) <= SS * (i / SS)).
           { rewrite (Nat.mul_comm cc SS), <- Nat.mul_assoc in Hi1 |- *. apply Nat.mul_le_mono_l. apply Nat.div_le_mono with (c := SS) in Hi1; [|lia].
             rewrite Nat.mul_comm, Nat.div_mul in Hi1 by lia. exact Hi1. }
           destruct (syrk_calls_cover SS HSS cc Hcc (v_m A) (SS * (i / SS)) j) as (c & Hc & I1 & I2); [unfold Ger_Model.TS; lia|auto|].
           destruct (TA c Hc) as [(T1 & T2 & (q & T3) & _ & T5 & T6 & T7 & T8 & T9 & (q2 & T10) & T11) _]. unfold Ger_Model.TS in *.
           pose proof (Nat.div_mod i SS ltac:(lia)) as DM. pose proof (Nat.mod_upper_bound i SS ltac:(lia)) as MB.
           assert (K : k_i c = SS * (cc * q)) by nia. assert (P2 : cc * q <= i / SS) by nia.
           assert (Q : (i - k_i c) / SS = i / SS - cc * q).
           { symmetry. apply (Nat.div_unique _ _ _ (i mod SS)); [auto|]. rewrite K, Nat.mul_sub_distr_l. lia. }
           replace i with (k_i c + (i - k_i c)) by lia. replace j with (k_j c + (j - k_j c)) by lia. apply (proj1 (proj2 (CE c Hc))); [|lia|].
           ++ assert (i / SS < cc * q2) by nia. nia.
           ++ right. rewrite Q, Nat.mul_sub_distr_l, <- K. lia.
        -- destruct (syrk_calls_cover SS HSS cc Hcc (v_m A) i j) as (c & Hc & I1 & I2); [unfold Ger_Model.TS; lia|auto|].
           destruct (TA c Hc) as [(T1 & T2 & _ & _ & T5 & _) _]. unfold Ger_Model.TS in *.
           replace i with (k_i c + (i - k_i c)) by lia. replace j with (k_j c + (j - k_j c)) by lia. apply (proj1 (proj2 (CE c Hc))); [nia|lia|]. right. lia.
      * destruct (PB i j) as (c & Hc & R1 & R2); auto.
        replace i with (k_i c + (i - k_i c)) by lia. replace j with (k_j c + (j - k_j c)) by lia. apply (proj1 (proj2 (CE c Hc))); [lia|lia|]. left.
        pose proof (JJ c Hc R2). destruct (TA c Hc) as [(_ & _ & _ & _ & _ & _ & _ & T8 & _) _]. lia.
    + intros i j (H1 & H2 & H3). destruct (syrk_calls_ok SS HSS cc Hcc (v_m A)) as (_ & _ & TC). destruct (TC i j ltac:(lia)) as (c & Hc & I1 & I2).
      replace i with (k_i c + (i - k_i c)) by lia. replace j with (k_j c + (j - k_j c)) by lia. apply (proj2 (proj2 (CE c Hc))); lia.
Qed.

(* ------------------------------------------------------------------ trmm, triangle on the right *)
(** Every iteration of a loop that completes has completed, from a state in which the invariant holds. *)
Lemma loop_each_inv : forall St (I : nat -> St -> Prop) n lo (f : nat -> St -> res St) s s', loop n lo f s = Ok s' -> I lo s ->
  (forall k s s', lo <= k < lo + n -> I k s -> f k s = Ok s' -> I (S k) s') ->
  forall k, lo <= k < lo + n -> exists s1 s2, I k s1 /\ f k s1 = Ok s2.
Proof.
  induction n as [|n IH]; intros lo f s s' E H0 H k Hk; [lia|]. cbn [loop] in E. apply bind_ok_inv in E. destruct E as (s1 & E1 & E2).
  destruct (Nat.eq_dec k lo) as [->|]; eauto. apply (IH (S lo) f s1 s' E2); try lia.
  - apply (H lo s s1); auto; lia.
  - intros k' x x' Hk'. apply H. lia.
Qed.

Section TrmmNeeds.
Variables (SS : nat) (HSS : 0 < SS) (cc : nat) (Hcc : 0 < cc) (T : Type) (O : Ops T).
Notation addr := (addr SS).
Notation poff := (poff SS).
Notation TS := (cc * SS).
Lemma trmm_right_loop_each : forall al N RM ck alpha b a m r r',
  mptr_wf SS b -> mp_so b = columnMajor -> lane_ok SS b -> mptr_wf SS a -> vmovable a ->
  trmm_right_loop SS T O al N RM ck alpha b a m r = Ok r' -> forall nn, (forall k, k < nn -> ck k = true) -> nn <= N ->
  (forall i k, i < RM * SS -> k < nn -> al (addr b i k) = true) /\ (forall k j, j <= k -> k < nn -> al (addr a k j) = true).
Proof.
  intros al N RM ck alpha b a m r r' Wb Sb Lb Wa Va E nn Hck Hn. unfold trmm_right_loop in E. apply bind_ok_inv in E. destruct E as (st & E & _).
  assert (Q : forall k, k < nn -> (forall i, i < RM * SS -> al (addr b i k) = true) /\ (forall j, j <= k -> al (addr a k j) = true)).
  { intros k Hk. unfold for_ in E. rewrite Nat.sub_0_r in E.
    destruct (loop_each_inv (regs T * mptr * mptr) (fun k st => k <= nn -> let '(_, p, q) := st in col_at SS b k p /\ row_from SS a k q) _ _ _ _ _ E) with (k := k) as ([[r1 p] q] & s2 & I & X).
    - intros _. split; [apply (col_at_0 SS); auto|apply (row_from_0 SS HSS); auto].
    - intros k' [[r1 p] q] s' Hk' I X Hle. destruct (I ltac:(lia)) as [I1 I2]. rewrite Hck in X by lia. cbv zeta in X.
      apply bind_ok_inv in X. destruct X as (bx & X1 & X). apply bind_ok_inv in X. destruct X as (r2 & X2 & X). injection X as <-.
      split; [apply (col_at_move SS HSS)|apply (row_from_move SS HSS)]; auto.
    - lia.
    - destruct (I ltac:(lia)) as [(I1 & I2 & I3 & I4) (I5 & I6 & I7 & I8)]. rewrite Hck in X by lia. cbv zeta in X.
      apply bind_ok_inv in X. destruct X as (bx & X1 & X). apply bind_ok_inv in X. destruct X as (r2 & X2 & X). split.
      + intros i Hi. destruct (rows_of SS HSS RM i Hi) as (R1 & R2 & R3). destruct (for_each _ _ _ _ _ _ X1 (i / SS) ltac:(lia)) as (s3 & s4 & X3).
        apply bind_ok_inv in X3. destruct X3 as (x & X3 & _). pose proof (mp_load_each SS HSS T O al p (i / SS * SS) 0 m x I1 I2 ltac:(apply Nat.mod_mul; lia) X3 (i mod SS) R2) as Y.
        rewrite I4 in Y. replace (i / SS * SS + i mod SS) with i in Y by lia. rewrite Nat.add_0_r in Y. exact Y.
      + intros j Hj. destruct (for_each _ _ _ _ _ _ X2 j ltac:(lia)) as (s3 & s4 & X3). apply bind_ok_inv in X3. destruct X3 as (x & X3 & _). apply rd_each in X3.
        rewrite I8, Nat.add_0_r in X3. exact X3. }
  split; intros; apply Q; auto.
Qed.

Lemma trmmR_call_each : forall al M N alpha B A C (m m' : mem T) c,
  mptr_wf SS B -> mp_so B = columnMajor -> lane_ok SS B -> mptr_wf SS A -> vmovable A -> mptr_wf SS C -> mp_so C = columnMajor ->
  In c (tile TS TS columnMajor M N) -> trmmR_call SS cc T O al N alpha B A false C c m = Ok m' ->
  (forall i k, i < k_rm c * TS -> k_j c <= k < N -> al (addr B (k_i c + i) k) = true) /\
  (forall k j, k_j c <= j < k_j c + k_nn c -> j <= k -> k < N -> al (addr A k j) = true) /\
  (forall i j, i < k_m c -> j < k_nn c -> al (addr C (k_i c + i) (k_j c + j)) = true).
Proof.
  intros al M N alpha B A C m m' c Wb Sb Lb Wa Va Wc Sc Hc E. assert (HT : 0 < TS) by nia.
  destruct (tile_edges _ _ _ _ _ _ Hc) as [_ ED]. destruct (tile_ok_disj_cover TS HT TS HT columnMajor M N) as (TA & _ & _).
  destruct (TA c Hc) as (T1 & T2 & (q & T3) & (q' & T4) & T5 & T6 & T7 & T8 & T9 & T10 & T11).
  assert (MM : forall z, (TS * z) mod SS = 0) by (intros z; apply (mod_of_cc SS cc); auto; rewrite Nat.mul_comm; apply Nat.mod_mul; lia).
  assert (Hi0 : k_i c mod SS = 0) by (rewrite T3; apply MM). assert (Hj0 : k_j c mod SS = 0) by (rewrite T4; apply MM).
  assert (Hj1 : (k_j c + TS) mod SS = 0) by (rewrite T4, <- Nat.mul_succ_r; apply MM).
  set (i0 := k_i c) in *. set (j0 := k_j c) in *.
  destruct (off_props SS HSS B i0 j0 Wb Hi0 Hj0) as [W1 E1]. destruct (off_props SS HSS A j0 j0 Wa Hj0 Hj0) as [W2 E2].
  destruct (off_props SS HSS B i0 (j0 + TS) Wb Hi0 Hj1) as [W3 E3]. destruct (off_props SS HSS A (j0 + TS) j0 Wa Hj1 Hj0) as [W4 E4].
  destruct (off_props SS HSS C i0 j0 Wc Hi0 Hj0) as [W5 E5].
  assert (L1 : lane_ok SS (poff B i0 j0)) by (apply lane_poff; auto). assert (L3 : lane_ok SS (poff B i0 (j0 + TS))) by (apply lane_poff; auto).
  assert (Er : k_rm c * TS = k_rm c * cc * SS) by lia.
  unfold trmmR_call in E. fold i0 j0 in E. unfold Ger_Model.TS in E. destruct (k_full c).
  - destruct (proj1 T9 eq_refl) as [F1 F2]. apply bind_ok_inv in E. destruct E as (r1 & G1 & E). apply bind_ok_inv in E. destruct E as (r2 & G2 & G3).
    apply cm_only_inv in G1. destruct G1 as [_ G1]. apply noexcept_each in G1. cbv iota in G1.
    destruct (trmm_right_loop_each _ _ _ _ _ _ _ _ _ _ W1 Sb L1 W2 Va G1 (k_n c)) as [H1 H2]; [reflexivity|lia|].
    apply (reg_gemm_each SS HSS T O) in G2; auto. destruct G2 as [H3 H4].
    split; [|split].
    + intros i k Hi Hk. destruct (Nat.lt_ge_cases k (j0 + TS)).
      * replace k with (j0 + (k - j0)) by lia. rewrite <- E1. apply H1; lia.
      * replace k with (j0 + TS + (k - j0 - TS)) by lia. rewrite <- E3. apply H3; lia.
    + intros k j Hj Hl Hk. replace j with (j0 + (j - j0)) by lia. destruct (Nat.lt_ge_cases k (j0 + TS)).
      * replace k with (j0 + (k - j0)) by lia. rewrite <- E2. apply H2; lia.
      * replace k with (j0 + TS + (k - j0 - TS)) by lia. rewrite <- E4. apply H4; lia.
    + intros i j Hi Hj. rewrite <- E5. eapply (reg_store_each SS HSS T); eauto; lia.
  - apply bind_ok_inv in E. destruct E as (r1 & G1 & E). apply bind_ok_inv in E. destruct E as (r2 & G2 & G3).
    apply cm_only_inv in G1. destruct G1 as [_ G1]. apply noexcept_each in G1.
    destruct (trmm_right_loop_each _ _ _ _ _ _ _ _ _ _ W1 Sb L1 W2 Va G1 (k_nn c)) as [H1 H2]; [intros; apply Nat.ltb_lt; auto|lia|].
    split; [|split].
    + intros i k Hi Hk. destruct (Nat.lt_ge_cases k (j0 + k_nn c)).
      * replace k with (j0 + (k - j0)) by lia. rewrite <- E1. apply H1; lia.
      * destruct (Nat.ltb_spec (k_nn c) TS); [lia|]. apply (reg_gemm_mn_each SS HSS T O) in G2; auto. destruct G2 as [H3 H4].
        replace k with (j0 + TS + (k - j0 - TS)) by lia. rewrite <- E3. apply H3; lia.
    + intros k j Hj Hl Hk. replace j with (j0 + (j - j0)) by lia. destruct (Nat.lt_ge_cases k (j0 + k_nn c)).
      * replace k with (j0 + (k - j0)) by lia. rewrite <- E2. apply H2; lia.
      * destruct (Nat.ltb_spec (k_nn c) TS); [lia|]. apply (reg_gemm_mn_each SS HSS T O) in G2; auto. destruct G2 as [H3 H4].
        replace k with (j0 + TS + (k - j0 - TS)) by lia. rewrite <- E4. apply H4; lia.
    + intros i j Hi Hj. rewrite <- E5. eapply (reg_store_mn_each SS HSS T); eauto; lia.
Qed.
End TrmmNeeds.

Record trmmR_args (SS : nat) (B A C : marg) : Prop := {
  ta_A : arg_ok SS A; ta_B : arg_ok SS B; ta_C : arg_ok SS C;
  ta_soB : g_so B = columnMajor; ta_soC : g_so C = columnMajor; ta_walk : row_walkable A;
  ta_panB : is_panel B -> at_panel SS B; ta_panC : is_panel C -> v_af (g_view C) = true;
  ta_szA : g_rows A = g_cols B /\ g_cols A = g_cols B; ta_szC : g_rows C = g_rows B /\ g_cols C = g_cols B;
  ta_sepB : separate (g_rows B) (g_cols B) (g_addr SS C) (g_rows B) (g_cols B) (g_addr SS B) \/ in_place SS B C;
  ta_sepA : separate (g_rows B) (g_cols B) (g_addr SS C) (g_cols B) (g_cols B) (g_addr SS A)
}.
(** The memory of a call: B with its columns up to the next multiple of the tile size, the lower triangle of A, and C. *)
Definition trmmR_memory (SS TS : nat) (al : alloc) (B A C : marg) : Prop :=
  allocated al (nextMultiple (g_rows B) TS) (g_cols B) (g_addr SS B) /\
  (forall k j, j <= k -> k < g_cols B -> al (g_addr SS A k j) = true) /\
  allocated al (g_rows B) (g_cols B) (g_addr SS C).

Theorem C78_trmm_right : forall SS cc T (O : Ops T) al alpha B A C m, 0 < SS -> 0 < cc -> trmmR_args SS B A C ->
  (g_rows B = 0 \/ g_cols B = 0 -> trmmR SS cc T O al alpha B A Lower false C m = Ok m) /\
  (trmmR_memory SS (cc * SS) al B A C -> exists m', trmmR SS cc T O al alpha B A Lower false C m = Ok m') /\
  (0 < g_rows B -> 0 < g_cols B -> ~ trmmR_memory SS (cc * SS) al B A C -> trmmR SS cc T O al alpha B A Lower false C m = UB).
Proof.
  intros SS cc T O al alpha B A C m HSS Hcc [hA hB hC sB sC wA pB pC [zA1 zA2] [zC1 zC2] xB xA]. assert (HT : 0 < cc * SS) by nia.
  assert (G : trmmR SS cc T O al alpha B A Lower false C m = foldM (trmmR_call SS cc T O al (g_cols B) alpha (g_ptr SS B) (g_ptr SS A) false (g_ptr SS C)) (tile (cc * SS) (cc * SS) columnMajor (g_rows B) (g_cols B)) m).
  { unfold trmmR. rewrite zA1, zA2, zC1, zC2, !Nat.eqb_refl. cbn [negb andb]. unfold trmmR_ptr. rewrite !g_ptr_so, sB, sC. reflexivity. }
  split; [|split].
  - intros Z. rewrite G, tile_none by auto. reflexivity.
  - intros (a1 & a2 & a3). destruct (C26_trmm_right_ops SS cc T O al alpha B A C m HSS Hcc) as (m' & E & _); [constructor; auto|eauto].
  - intros HM HN Hn. rewrite G.
    assert (Q : ou (foldM (trmmR_call SS cc T O al (g_cols B) alpha (g_ptr SS B) (g_ptr SS A) false (g_ptr SS C)) (tile (cc * SS) (cc * SS) columnMajor (g_rows B) (g_cols B)) m)).
    { apply ou_foldM. intros c s _. assert (St : mp_kind (g_ptr SS C) = Panel -> mp_af (g_ptr SS C) = true) by (intros X; apply (g_ptr_store SS C pC X)).
      unfold trmmR_call. destruct (k_full c).
      - apply ou_bind; [apply ou_trmm_right; cbn [poff mp_so]; rewrite g_ptr_so; auto|intros r1]. apply ou_bind; [apply ou_gemm; cbn [poff mp_so]; rewrite g_ptr_so; auto|intros r2].
        apply ou_store; cbn [poff mp_so mp_kind mp_af]; rewrite ?g_ptr_so; auto.
      - apply ou_bind; [apply ou_trmm_right_mn; cbn [poff mp_so]; rewrite g_ptr_so; auto|intros r1]. apply ou_bind.
        + destruct (_ <? _); [exact I|]. apply ou_gemm_mn; cbn [poff mp_so]; rewrite g_ptr_so; auto.
        + intros r2. apply ou_store_mn; cbn [poff mp_so mp_kind mp_af]; rewrite ?g_ptr_so; auto. }
    destruct (ou_cases _ _ Q) as [(m' & E)|E]; [exfalso; apply Hn|exact E].
    assert (VA : vmovable (g_ptr SS A)).
    { unfold vmovable. rewrite g_ptr_kind, g_ptr_so. exact wA. }
    assert (CE : forall c, In c (tile (cc * SS) (cc * SS) columnMajor (g_rows B) (g_cols B)) ->
      (forall i k, i < k_rm c * (cc * SS) -> k_j c <= k < g_cols B -> al (g_addr SS B (k_i c + i) k) = true) /\
      (forall k j, k_j c <= j < k_j c + k_nn c -> j <= k -> k < g_cols B -> al (g_addr SS A k j) = true) /\
      (forall i j, i < k_m c -> j < k_nn c -> al (g_addr SS C (k_i c + i) (k_j c + j)) = true)).
    { intros c Hc. destruct (foldM_each _ _ _ _ _ _ E c Hc) as (s1 & s2 & X).
      apply (trmmR_call_each SS HSS cc Hcc T O) with (M := g_rows B) in X; auto using g_ptr_wf, g_ptr_lane; try (rewrite g_ptr_so; assumption).
      destruct X as (E1 & E2 & E3). split; [|split]; intros; rewrite <- g_ptr_addr by auto; auto. }
    split; [|split].
    + intros i k Hi Hk. destruct (pad_call (cc * SS) (g_rows B) (g_cols B) columnMajor i 0 HT (cc * SS) HT Hi HN) as (c & Hc & Hok & R1 & _ & R4 & R2).
      replace i with (k_i c + (i - k_i c)) by lia. apply (proj1 (CE c Hc)); lia.
    + intros k j Hj Hk. destruct (cover_call (cc * SS) (g_rows B) (g_cols B) columnMajor 0 j (cc * SS) HT HT HM ltac:(lia)) as (c & Hc & Hok & [R1 R3] & R2).
      apply (proj1 (proj2 (CE c Hc))); lia.
    + intros i j Hi Hj. destruct (cover_call (cc * SS) (g_rows B) (g_cols B) columnMajor i j (cc * SS) HT HT Hi Hj) as (c & Hc & Hok & [R1 R3] & R2).
      replace i with (k_i c + (i - k_i c)) by lia. replace j with (k_j c + (j - k_j c)) by lia. apply (proj2 (proj2 (CE c Hc))); lia.
Qed.

(* ------------------------------------------------------------------ potrf *)
(** The elements of A that are read: from the diagonal block of every block column on, complete blocks, also below and to the right of the matrix. *)
Definition potrf_source (SS TS : nat) (al : alloc) (A : view) : Prop :=
  forall i j, j < nextMultiple (v_n A) TS -> TS * (j / TS) <= i < nextMultiple (v_m A) TS -> al (v_addr SS A i j) = true.

Section PotrfNeeds.
Variables (SS : nat) (HSS : 0 < SS) (cc : nat) (Hcc : 0 < cc) (T : Type) (O : Ops T).
Notation TS := (cc * SS).
Lemma ou_reg_potrf : forall N RM r, ou (reg_potrf SS T O N RM r).
Proof. intros. unfold reg_potrf. repeat ou_step. Qed.
Lemma ou_reg_trsm : forall al N RM A m r, ou (reg_trsm SS T O al N RM A m r).
Proof. intros. unfold reg_trsm. ou_go; apply ou_rd. Qed.
Lemma ou_gers : forall al KN RM k a brow m r, mp_so a = columnMajor -> ou (potrf_gers SS KN T O al RM k a brow m r).
Proof. intros. unfold potrf_gers. ou_go. apply ou_ger_alpha, col_along. auto. Qed.
Lemma ou_potrf_dense_call : forall al KN A L k i rm m, aligned_cm SS A -> aligned_cm SS L -> ou (potrf_dense_call SS cc KN T O al A L k i rm m).
Proof.
  intros al KN A L k i rm m HA HL. unfold potrf_dense_call. cbv zeta.
  apply ou_bind; [apply ou_loadb, aptr_so; auto|intros r1]. apply ou_bind; [apply ou_gers, aptr_so; auto|intros r2].
  destruct (i =? k); (apply ou_bind; [first [apply ou_reg_potrf|apply ou_reg_trsm]|intros r3]); destruct (_ <=? _);
    first [apply ou_store|apply ou_store_mn|apply ou_storeLower|apply ou_storeLower_mn]; first [apply aptr_so; auto|reflexivity].
Qed.
Lemma ou_potrf_panel_call : forall al KN A L k i rm m, aligned_cm SS A -> aligned_cm SS L -> ou (potrf_panel_call SS cc KN T O al A L k i rm m).
Proof.
  intros al KN A L k i rm m HA HL. unfold potrf_panel_call. cbv zeta.
  apply ou_bind; [apply ou_cm; [apply aptr_so; auto|apply ou_reg_map; intros; apply ou_mp_load]|intros r1]. apply ou_bind; [apply ou_gers, aptr_so; auto|intros r2].
  apply ou_bind; [destruct (i =? k); first [apply ou_reg_potrf|apply ou_reg_trsm]|intros r3]. destruct (_ <=? _);
    first [apply ou_store|apply ou_store_mn]; first [apply aptr_so; auto|reflexivity].
Qed.
Lemma ou_potrf_loops : forall call KN M N m, (forall k i rm m, ou (call k i rm m)) -> ou (potrf_loops SS cc KN T call M N m).
Proof.
  intros call KN M N m H. unfold potrf_loops, potrf_column. apply ou_foldM. intros k s _. cbv zeta.
  repeat (apply ou_bind; [apply ou_foldM; auto|intros ?]). apply ou_foldM; auto.
Qed.
Lemma potrf_loops_each : forall call M N (m m' : mem T) (R : nat -> nat -> Prop),
  potrf_loops SS cc TS T call M N m = Ok m' ->
  (forall k i rm s s', k mod TS = 0 -> i mod TS = 0 -> call k i rm s = Ok s' -> forall u v, u < rm * TS -> v < TS -> R (i + u) (k + v)) ->
  forall i j, j < nextMultiple N TS -> TS * (j / TS) <= i < nextMultiple M TS -> R i j.
Proof.
  intros call M N m m' R E HR i j Hj Hi. assert (HT : 0 < TS) by nia.
  set (k := TS * (j / TS)) in *. assert (Hk : k < N) by (apply pad_row; auto).
  assert (Mk : k mod TS = 0) by (unfold k; rewrite Nat.mul_comm; apply Nat.mod_mul; lia).
  pose proof (Nat.div_mod j TS ltac:(lia)) as DJ. pose proof (Nat.mod_upper_bound j TS ltac:(lia)) as BJ. fold k in DJ.
  (* the block column *)
  destruct (steps_spec (fun x => x mod TS = 0) (fun k => k <? N) TS (N + 1) 0 N) as (S2 & S0 & S3 & S1); try lia.
  { apply Nat.mod_0_l. lia. }
  { intros x Hx _. rewrite Nat.add_mod, Hx, Nat.mod_same by lia. cbn. apply Nat.mod_0_l. lia. }
  { intros x _ Hx. apply Nat.ltb_lt. exact Hx. }
  assert (Ik : In k (fst (steps (N + 1) (fun k => k <? N) TS 0))).
  { destruct (steps_cover (fun k => k <? N) TS (N + 1) 0 k HT) as (x & Hx & Hx2).
    - split; [lia|]. cbv beta in S2. rewrite Nat.ltb_ge in S2. lia.
    - assert (Mx : x mod TS = 0) by (apply S1 in Hx; apply Hx). replace k with x; auto.
      apply Nat.mod_divide in Mx, Mk; try lia. destruct Mx as [a ->], Mk as [b Eb]. rewrite Eb in *. assert (a = b) by nia. lia. }
  destruct (foldM_each _ _ _ _ _ _ E k Ik) as (s1 & s2 & EC). unfold potrf_column in EC. unfold Ger_Model.TS in EC. cbv zeta in EC.
  set (r3 := steps (M + 1) (fun i => i + 2 * TS <? M) (3 * TS) k) in *.
  set (r2 := steps (M + 1) (fun i => i + 1 * TS <? M) (2 * TS) (snd r3)) in *.
  set (r1 := steps (M + 1) (fun i => i + 0 * TS <? M) (1 * TS) (snd r2)) in *.
  apply bind_ok_inv in EC. destruct EC as (t1 & C3 & EC). apply bind_ok_inv in EC. destruct EC as (t2 & C2 & C1).
  assert (AM : forall x n, x mod TS = 0 -> (x + n * TS) mod TS = 0) by (intros x n Hx; rewrite Nat.mod_add by lia; auto).
  destruct (steps_spec (fun x => x mod TS = 0) (fun i => i + 2 * TS <? M) (3 * TS) (M + 1) k M) as (A2 & A0 & A3 & A1); try lia; auto.
  { intros x _ Hx. apply Nat.ltb_lt in Hx. lia. }
  fold r3 in A0, A1, A2, A3.
  destruct (steps_spec (fun x => x mod TS = 0) (fun i => i + 1 * TS <? M) (2 * TS) (M + 1) (snd r3) M) as (B2 & B0 & B3 & B1); try lia; auto.
  { intros x _ Hx. apply Nat.ltb_lt in Hx. lia. }
  fold r2 in B0, B1, B2, B3.
  destruct (steps_spec (fun x => x mod TS = 0) (fun i => i + 0 * TS <? M) (1 * TS) (M + 1) (snd r2) M) as (D2 & D0 & D3 & D1); try lia; auto.
  { intros x _ Hx. apply Nat.ltb_lt in Hx. lia. }
  fold r1 in D0, D1, D2, D3.
  (* the block *)
  set (x := TS * (i / TS)). assert (Hx : x < M) by (apply pad_row; auto; lia).
  pose proof (Nat.div_mod i TS ltac:(lia)) as DI. pose proof (Nat.mod_upper_bound i TS ltac:(lia)) as BI. fold x in DI.
  assert (Hkx : k <= x). { unfold k, x. apply Nat.mul_le_mono_l. destruct Hi as [Hi _]. unfold k in Hi. apply Nat.div_le_mono with (c := TS) in Hi; [|lia]. rewrite Nat.mul_comm, Nat.div_mul in Hi by lia. exact Hi. }
  assert (Hx1 : x < snd r1). { cbv beta in D2. rewrite Nat.ltb_ge in D2. lia. }
  assert (FIN : forall z rm s s', z mod TS = 0 -> z <= x < z + rm * TS -> call k z rm s = Ok s' -> R i j).
  { intros z rm s s' Mz Hz EZ. apply Nat.mod_divide in Mz; try lia. destruct Mz as [w Ew].
    replace i with (z + (i - z)) by lia. replace j with (k + (j - k)) by lia. apply (HR k z rm s s'); auto; try lia.
    - rewrite Ew. apply Nat.mod_mul. lia.
    - assert (i / TS < w + rm). { assert (TS * (i / TS) < TS * (w + rm)) by (fold x; lia). nia. } nia. }
  destruct (Nat.lt_ge_cases x (snd r3)) as [L|L].
  { destruct (steps_cover (fun i => i + 2 * TS <? M) (3 * TS) (M + 1) k x) as (z & Hz & Hz2); [lia|fold r3; lia|]. fold r3 in Hz.
    destruct (foldM_each _ _ _ _ _ _ C3 z Hz) as (u1 & u2 & EZ). apply (FIN z 3 u1 u2); auto. apply A1 in Hz. apply Hz. }
  destruct (Nat.lt_ge_cases x (snd r2)) as [L2|L2].
  { destruct (steps_cover (fun i => i + 1 * TS <? M) (2 * TS) (M + 1) (snd r3) x) as (z & Hz & Hz2); [lia|fold r2; lia|]. fold r2 in Hz.
    destruct (foldM_each _ _ _ _ _ _ C2 z Hz) as (u1 & u2 & EZ). apply (FIN z 2 u1 u2); auto. apply B1 in Hz. apply Hz. }
  destruct (steps_cover (fun i => i + 0 * TS <? M) (1 * TS) (M + 1) (snd r2) x) as (z & Hz & Hz2); [lia|fold r1; lia|]. fold r1 in Hz.
  destruct (foldM_each _ _ _ _ _ _ C1 z Hz) as (u1 & u2 & EZ). apply (FIN z 1 u1 u2); auto. apply D1 in Hz. apply Hz.
Qed.
End PotrfNeeds.

(** If any of these elements is not in allocated memory, the behaviour is undefined. *)
Theorem C78_potrf_dense : forall SS cc T (O : Ops T) al A L m, 0 < SS -> 0 < cc -> aligned_cm SS A -> aligned_cm SS L ->
  v_n A <= v_m A -> v_m L = v_m A -> v_n L = v_n A ->
  ~ potrf_source SS (cc * SS) al A -> potrf_dense SS cc (cc * SS) T O al A L m = UB.
Proof.
  intros SS cc T O al A L m HSS Hcc HA HL z1 z2 z3 Hn. assert (HT : 0 < cc * SS) by nia.
  unfold potrf_dense, potrf_check. rewrite (proj2 (Nat.ltb_ge _ _) z1), z2, z3, !Nat.eqb_refl. cbn [negb].
  destruct (ou_cases _ _ (ou_potrf_loops SS cc T (potrf_dense_call SS cc (cc * SS) T O al A L) (cc * SS) (v_m A) (v_n A) m ltac:(intros; apply ou_potrf_dense_call; auto))) as [(m' & E)|E]; auto.
  exfalso. apply Hn. intros i j Hj Hi.
  apply (potrf_loops_each SS HSS cc Hcc T _ _ _ _ _ (fun i j => al (v_addr SS A i j) = true) E); auto.
  intros k z rm s s' Mk Mz EC u v Hu Hv. apply bind_ok_inv in EC. destruct EC as (r1 & E1 & _).
  rewrite <- (aptr_addr SS HSS) by (auto; apply (mod_of_cc SS cc); auto). eapply (reg_loadb_each SS HSS T O); eauto; [|lia].
  apply (aptr_wf SS HSS cc Hcc); auto. apply (mod_of_cc SS cc); auto.
Qed.
Theorem C78_potrf_panel : forall SS cc T (O : Ops T) al A L m, 0 < SS -> 0 < cc -> aligned_cm SS A -> aligned_cm SS L ->
  v_n A <= v_m A -> v_m L = v_m A -> v_n L = v_n A ->
  ~ potrf_source SS (cc * SS) al A -> potrf_panel SS cc (cc * SS) T O al A L m = UB.
Proof.
  intros SS cc T O al A L m HSS Hcc HA HL z1 z2 z3 Hn. assert (HT : 0 < cc * SS) by nia.
  unfold potrf_panel, potrf_check. rewrite (proj2 (Nat.ltb_ge _ _) z1), z2, z3, !Nat.eqb_refl. cbn [negb].
  destruct (ou_cases _ _ (ou_potrf_loops SS cc T (potrf_panel_call SS cc (cc * SS) T O al A L) (cc * SS) (v_m A) (v_n A) m ltac:(intros; apply ou_potrf_panel_call; auto))) as [(m' & E)|E]; auto.
  exfalso. apply Hn. intros i j Hj Hi.
  apply (potrf_loops_each SS HSS cc Hcc T _ _ _ _ _ (fun i j => al (v_addr SS A i j) = true) E); auto.
  intros k z rm s s' Mk Mz EC u v Hu Hv. apply bind_ok_inv in EC. destruct EC as (r1 & E1 & _).
  rewrite <- (aptr_addr SS HSS) by (auto; apply (mod_of_cc SS cc); auto). eapply (reg_load_each SS HSS T O); eauto; [|lia].
  apply (aptr_wf SS HSS cc Hcc); auto. apply (mod_of_cc SS cc); auto.
Qed.

(** For a whole dense column-major matrix whose number of columns is no multiple of the tile size, the block to the right of the last column lies behind the buffer. *)
Theorem C78_potrf_behind_buffer : forall SS cc T (O : Ops T) al c L m, 0 < SS -> 0 < cc -> cont_wf SS c -> c_kind c = Dense -> c_so c = columnMajor -> aligned_cm SS L ->
  c_cols c <= c_rows c -> v_m L = c_rows c -> v_n L = c_cols c -> c_cols c mod (cc * SS) <> 0 ->
  al (c_base c + c_capacity SS c + cc * SS * (c_cols c / (cc * SS))) = false ->
  potrf_dense SS cc (cc * SS) T O al (whole c) L m = UB.
Proof.
  intros SS cc T O al c L m HSS Hcc W Kd So HL z1 z2 z3 Hmod Hal. assert (HT : 0 < cc * SS) by nia.
  assert (HA : aligned_cm SS (whole c)) by (split; [exact W|split; [exact So|apply Nat.mod_0_l; lia]]).
  apply C78_potrf_dense; auto. intros S. pose proof (S (cc * SS * (c_cols c / (cc * SS))) (c_cols c)) as Q. cbn [whole v_n v_m] in Q.
  pose proof (Nat.div_mod (c_cols c) (cc * SS) ltac:(lia)) as DM.
  assert (Q1 : al (v_addr SS (whole c) (cc * SS * (c_cols c / (cc * SS))) (c_cols c)) = true).
  { apply Q.
    - destruct (nextMultiple_spec (c_cols c) (cc * SS) HT) as (X1 & X2 & _). destruct (Nat.eq_dec (nextMultiple (c_cols c) (cc * SS)) (c_cols c)) as [E|]; [rewrite E in X2; contradiction|lia].
    - destruct (nextMultiple_spec (c_rows c) (cc * SS) HT) as (X1 & _ & _). lia. }
  assert (EQ : v_addr SS (whole c) (cc * SS * (c_cols c / (cc * SS))) (c_cols c) = c_base c + c_capacity SS c + cc * SS * (c_cols c / (cc * SS))).
  { unfold v_addr, c_addr, c_index, c_capacity. cbn [whole v_cont v_i v_j]. rewrite Kd, So. lia. }
  rewrite EQ, Hal in Q1. discriminate Q1.
Qed.

(* ------------------------------------------------------------------ examples *)
Lemma gemm_pre_iff : forall SS al A B C D, gemm_pre SS al A B C D <-> gemm_args SS A B C D /\ gemm_memory SS al A B C D.
Proof.
  intros. split.
  - intros [h1 h2 h3 h4 h5 h6 h7 h8 h9 h10 h11 h12 h13 h14 h15 h16 h17 h18 h19]. split; [constructor; auto|repeat split; auto].
  - intros [[h1 h2 h3 h4 h5 h6 h7 h8 h9 h10 h11 h12 h13 h14 h15] (a1 & a2 & a3 & a4)]. constructor; auto.
Qed.
(** The arguments of the example of C21: C is a window of 5 rows at row 3 of a matrix with 8 rows, so that the padding of its last row is outside. *)
Example C78_gemm_example :
  gemm_args 4 (MArg (whole cA) false) (MArg (whole cB) false) (MArg (submatrix false cC 3 0 5 1) false) (MArg (whole cD) false) /\
  ~ gemm_memory 4 al4 (MArg (whole cA) false) (MArg (whole cB) false) (MArg (submatrix false cC 3 0 5 1) false) (MArg (whole cD) false).
Proof.
  split.
  - constructor; try (repeat split; cbn; auto; lia); try reflexivity.
    + intros i j i' j' Hi Hj Hi' Hj'. cbn in *. unfold g_addr, v_addr, c_addr, c_index, c_spacing. cbn. lia.
    + intros i j i' j' Hi Hj Hi' Hj'. cbn in *. unfold g_addr, v_addr, c_addr, c_index, c_spacing. cbn. lia.
    + intros i j i' j' [Hi Hj] [Hi' Hj'] X. cbn in *. unfold g_addr, v_addr, c_addr, c_index, c_spacing in X. cbn in X. lia.
  - intros (_ & _ & H & _). specialize (H 5 0). cbn in H. assert (X : false = true) by (apply H; lia). discriminate X.
Qed.
(** The examples of the other properties have the arguments and the memory. *)
Example C78_other_examples :
  (ger_args 4 gx gy (MArg (whole gB) false) (MArg (whole gB) false) /\ ger_memory 4 1 g_al gx gy (MArg (whole gB) false) (MArg (whole gB) false)) /\
  (syrk_args 4 (whole sA) (whole sD) (whole sD) /\ syrk_memory 4 4 sal (whole sA) (whole sD) (whole sD)) /\
  (trmmR_args 4 (MArg (whole eB) false) (MArg (whole eA5) false) (MArg (whole eC) false) /\ trmmR_memory 4 4 e_al (MArg (whole eB) false) (MArg (whole eA5) false) (MArg (whole eC) false)).
Proof.
  split; [|split].
  - destruct C23_example as [hx hy hA hB sA sB pA pB zA zB ax ay aA aB xx xy xA]. split; [constructor; auto|]. split; [exact ax|]. split; [exact ay|]. split; [exact aA|exact aB].
  - destruct C24_example as [h1 h2 h3 h4 h5 h6 aA aC aD xA xC]. split; [constructor; auto|]. split; [exact aA|]. split; [|exact aD].
    intros i j Hj _ Hi. apply aC; auto. change (1 * 4) with 4. destruct (_ <=? _); auto.
  - destruct C26_example as [hA hB hC sA sC wB pA pC zA zC aA aB aC xA xB]. split; [constructor; auto|]. split; [exact aA|]. split; [exact aB|exact aC].
Qed.
(** A 5-by-5 matrix: its buffer of 40 elements ends before column 5, which the second block column reads. *)
Definition w5 : container := Cont Dense false columnMajor 5 5 40.
Definition w_al (x : nat) : bool := x <? 80.
Example C78_potrf_example : forall m : mem Z, potrf_dense 4 1 4 Z zops w_al (whole w5) (whole (Cont Dense false columnMajor 5 5 0)) m = UB.
Proof.
  intros m. apply (C78_potrf_behind_buffer 4 1); try (cbn; lia); try reflexivity; try (repeat split; reflexivity).
Qed.
