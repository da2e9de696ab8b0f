(** Properties_NeedsLeft.v -- C78 and C71 for the left-hand trmm, all sizes. *)
From Coq Require Import Arith Lia List Bool PeanoNat ZArith.
From Verif Require Import Base Base_Proofs Spec Instances Layout_Model Layout_Proofs Simd_Model Simd_Proofs Reg_Model Reg_Proofs Vec_Proofs Tile_Model Tile_Proofs
  Gemm_Model Arg_Proofs Gemm_Proofs Ger_Model Ger_Proofs Trmm_Model Trmm_Proofs Needs_Proofs Algebra_Proofs
  Properties_Trmm Properties_Needs Properties_Bands Properties_NaN.
Import ListNotations.

Section LeftNeeds.
Variables (SS : nat) (HSS : 0 < SS) (cc : nat) (Hcc : 0 < cc) (T : Type) (O : Ops T).
Notation addr := (addr SS).
Notation poff := (poff SS).
Notation TS := (cc * SS).
Lemma reg_trmm_left_each : forall al N RM alpha a b m r r',
  mptr_wf SS a -> mp_so a = columnMajor -> lane_ok SS a -> mptr_wf SS b -> vmovable b ->
  reg_trmm_left SS T O al N RM alpha a Upper false b m r = Ok r' ->
  (forall i k, i <= k -> k < RM * SS -> al (addr a i k) = true) /\ (forall k j, k < RM * SS -> j < N -> al (addr b k j) = true).
Proof.
  intros al N RM alpha a b m r r' Wa Sa La Wb Vb E. unfold reg_trmm_left in E. apply cm_only_inv in E. destruct E as [_ E]. apply noexcept_each in E.
  cbv iota in E. apply bind_ok_inv in E. destruct E as (st & E & _).
  assert (Q : forall k, k < RM * SS -> (forall i, i <= k -> al (addr a i k) = true) /\ (forall j, j < N -> al (addr b k j) = true)).
  { intros k Hk. unfold for_ at 1 in E. rewrite Nat.sub_0_r in E.
    destruct (loop_each_inv (regs T * mptr * mptr) (fun k st => let '(_, p, q) := st in col_at SS a k p /\ row_from SS b k q) _ _ _ _ _ E) with (k := k) as ([[r1 p] q] & s2 & I & X).
    - split; [apply (col_at_0 SS); auto|apply (row_from_0 SS HSS); auto].
    - intros k' [[r1 p] q] s' Hk' I X. destruct I as [I1 I2]. cbv zeta in X.
      apply bind_ok_inv in X. destruct X as (ax & X1 & X). apply bind_ok_inv in X. destruct X as (ax' & X2 & X). apply bind_ok_inv in X. destruct X as (r2 & X3 & X). injection X as <-.
      split; [apply (col_at_move SS HSS)|apply (row_from_move SS HSS)]; auto.
    - lia.
    - destruct I as [(I1 & I2 & I3 & I4) (I5 & I6 & I7 & I8)]. cbv zeta in X.
      apply bind_ok_inv in X. destruct X as (ax & X1 & X). apply bind_ok_inv in X. destruct X as (ax' & X2 & X). apply bind_ok_inv in X. destruct X as (r2 & X3 & X). split.
      + intros i Hi. pose proof (Nat.div_mod i SS ltac:(lia)) as D1. pose proof (Nat.mod_upper_bound i SS ltac:(lia)) as D2.
        pose proof (Nat.div_mod (k + 1) SS ltac:(lia)) as D3. pose proof (Nat.mod_upper_bound (k + 1) SS ltac:(lia)) as D4.
        set (ii := (k + 1) / SS) in *. set (rem := (k + 1) mod SS) in *.
        assert (Y : al (addr p (i / SS * SS + i mod SS) (0 + 0)) = true); [|rewrite I4 in Y; replace (i / SS * SS + i mod SS) with i in Y by lia; rewrite !Nat.add_0_r in Y; exact Y].
        destruct (Nat.lt_ge_cases (i / SS) ii) as [L|L].
        * destruct (for_each _ _ _ _ _ _ X1 (i / SS) ltac:(lia)) as (s3 & s4 & X4). apply bind_ok_inv in X4. destruct X4 as (x & X4 & _).
          rewrite Nat.add_0_r. exact (mp_load_each SS HSS T O al p (i / SS * SS) 0 m x I1 I2 ltac:(apply Nat.mod_mul; lia) X4 (i mod SS) D2).
        * assert (EI : i / SS = ii) by nia. destruct (Nat.ltb_spec 0 rem) as [Hr|Hr]; [|nia].
          apply bind_ok_inv in X2. destruct X2 as (x & X4 & _). rewrite EI, Nat.add_0_r.
          refine (mp_loadm_each SS HSS T O al p (ii * SS) 0 (idx_lt (Z.of_nat rem)) m x I1 I2 _ I3 X4 (i mod SS) D2 _); [apply Nat.mod_mul; lia|].
          unfold idx_lt. apply Z.ltb_lt. nia.
      + intros j Hj. destruct (for_each _ _ _ _ _ _ X3 j ltac:(lia)) as (s3 & s4 & X4). apply bind_ok_inv in X4. destruct X4 as (x & X4 & _). apply rd_each in X4.
        rewrite I8, Nat.add_0_r in X4. exact X4. }
  split; intros; apply Q; auto.
Qed.

Lemma trmmL_call_each : forall al M N alpha A B C (m m' : mem T) c,
  mptr_wf SS A -> mp_so A = columnMajor -> lane_ok SS A -> mptr_wf SS B -> vmovable B -> mptr_wf SS C -> mp_so C = columnMajor ->
  In c (tile TS TS rowMajor M N) -> trmmL_call SS cc T O al M alpha A B C c m = Ok m' ->
  (forall i k, k_i c <= i < k_i c + k_rm c * TS -> k_i c <= k < M -> i <= k \/ k_full c = false -> al (addr A i k) = true) /\
  (forall k j, k_i c <= k < M -> k_j c <= j < k_j c + k_nn c -> al (addr B k j) = true) /\
  (forall i j, in_call c i j -> al (addr C i j) = true).
Proof.
  intros al M N alpha A B C m m' c Wa Sa La Wb Vb Wc Sc Hc E. assert (HT : 0 < TS) by nia.
  destruct (tile_ok_disj_cover TS HT TS HT rowMajor M N) as (TA & _ & _).
  destruct (TA c Hc) as (T1 & T2 & (q & T3) & (q' & T4) & T5 & T6 & T7 & T8 & T9 & T10 & T11).
  assert (MM : forall z, (TS * z) mod SS = 0) by (intros z; apply (mod_of_cc SS cc); auto; rewrite Nat.mul_comm; apply Nat.mod_mul; lia).
  assert (Hi0 : k_i c mod SS = 0) by (rewrite T3; apply MM). assert (Hj0 : k_j c mod SS = 0) by (rewrite T4; apply MM).
  assert (H00 : 0 mod SS = 0) by (apply Nat.mod_0_l; lia).
  assert (HKM : (k_rm c * TS) mod SS = 0) by (rewrite Nat.mul_comm; apply MM).
  unfold trmmL_call in E. cbv zeta in E. unfold Ger_Model.TS in E. unfold in_call. set (i0 := k_i c) in *. set (j0 := k_j c) in *.
  destruct (off_props SS HSS A i0 i0 Wa Hi0 Hi0) as [WA EA]. set (a := poff A i0 i0) in *.
  destruct (off_props SS HSS B i0 0 Wb Hi0 H00) as [WB0 EB0]. set (b0 := poff B i0 0) in *.
  destruct (off_props SS HSS C i0 0 Wc Hi0 H00) as [WC0 EC0]. set (c0 := poff C i0 0) in *.
  destruct (off_props SS HSS c0 0 j0 WC0 H00 Hj0) as [WC EC]. set (pc := poff c0 0 j0) in *.
  destruct (off_props SS HSS b0 0 j0 WB0 H00 Hj0) as [WB EB]. set (b := poff b0 0 j0) in *.
  destruct (off_props SS HSS a 0 (k_rm c * TS) WA H00 HKM) as [WA2 EA2]. set (a2 := poff a 0 (k_rm c * TS)) in *.
  destruct (off_props SS HSS b0 (k_rm c * TS) j0 WB0 HKM Hj0) as [WB2 EB2]. set (b2 := poff b0 (k_rm c * TS) j0) in *.
  assert (LA : lane_ok SS a) by (apply lane_poff; auto). assert (LA2 : lane_ok SS a2) by (apply lane_poff; auto).
  assert (Er : k_rm c * TS = k_rm c * cc * SS) by lia.
  apply bind_ok_inv in E. destruct E as (r1 & _ & E). destruct (k_full c) eqn:F.
  - destruct (proj1 T9 eq_refl) as [F1 F2]. apply bind_ok_inv in E. destruct E as (r2 & G1 & E). apply bind_ok_inv in E. destruct E as (r3 & G2 & G3).
    apply reg_trmm_left_each in G1; auto. destruct G1 as [H1 H2].
    apply (reg_gemm_each SS HSS T O) in G2; auto. destruct G2 as [H3 H4].
    split; [|split].
    + intros i k Hi Hk [Hle|X]; [|discriminate X]. replace i with (i0 + (i - i0)) by lia. destruct (Nat.lt_ge_cases k (i0 + k_rm c * TS)).
      * replace k with (i0 + (k - i0)) by lia. rewrite <- EA. apply H1; lia.
      * replace k with (i0 + (k_rm c * TS + (k - i0 - k_rm c * TS))) by lia. rewrite <- EA. change (i - i0) with (0 + (i - i0)). rewrite <- EA2. apply H3; lia.
    + intros k j Hk Hj. replace j with (j0 + (j - j0)) by lia. destruct (Nat.lt_ge_cases k (i0 + k_rm c * TS)).
      * replace k with (i0 + (0 + (k - i0))) by lia. change (j0 + (j - j0)) with (0 + (j0 + (j - j0))). rewrite <- EB0, <- EB. apply H2; lia.
      * replace k with (i0 + (k_rm c * TS + (k - i0 - k_rm c * TS))) by lia. change (j0 + (j - j0)) with (0 + (j0 + (j - j0))). rewrite <- EB0, <- EB2. apply H4; lia.
    + intros i j [Hi Hj]. replace i with (i0 + (0 + (i - i0))) by lia. replace j with (0 + (j0 + (j - j0))) by lia. rewrite <- EC0, <- EC.
      eapply (reg_store_each SS HSS T); eauto; lia.
  - apply bind_ok_inv in E. destruct E as (r2 & G1 & G2). apply (reg_gemm_mn_each SS HSS T O) in G1; auto. destruct G1 as [H1 H2].
    split; [|split].
    + intros i k Hi Hk _. replace i with (i0 + (i - i0)) by lia. replace k with (i0 + (k - i0)) by lia. rewrite <- EA. apply H1; lia.
    + intros k j Hk Hj. replace k with (i0 + (0 + (k - i0))) by lia. replace j with (0 + (j0 + (j - j0))) by lia. rewrite <- EB0, <- EB. apply H2; lia.
    + intros i j [Hi Hj]. replace i with (i0 + (0 + (i - i0))) by lia. replace j with (0 + (j0 + (j - j0))) by lia. rewrite <- EC0, <- EC.
      eapply (reg_store_mn_each SS HSS T); eauto; lia.
Qed.
End LeftNeeds.

(** What [trmmL_pre] requires of the arguments, apart from the allocated memory. *)
Record trmmL_args (SS : nat) (A B C : marg) : Prop := {
  tl_A : arg_ok SS A; tl_B : arg_ok SS B; tl_C : arg_ok SS C;
  tl_soA : g_so A = columnMajor; tl_soC : g_so C = columnMajor; tl_walk : row_walkable B;
  tl_panA : is_panel A -> at_panel SS A; tl_panC : is_panel C -> v_af (g_view C) = true;
  tl_szA : g_rows A = g_rows B /\ g_cols A = g_rows B; tl_szC : g_rows C = g_rows B /\ g_cols C = g_cols B;
  tl_sepA : separate (g_rows B) (g_cols B) (g_addr SS C) (g_rows B) (g_rows B) (g_addr SS A);
  tl_sepB : separate (g_rows B) (g_cols B) (g_addr SS C) (g_rows B) (g_cols B) (g_addr SS B) \/ in_place SS B C
}.
(** The memory of a call: the upper triangle of A; if the number of columns is not a multiple of the tile size, or the band of the row does not fit into the matrix, also
    the elements below the diagonal from the first row of the band on, with the rows that complete the band; B and C. *)
Definition trmmL_memory (SS TS : nat) (al : alloc) (A B C : marg) : Prop :=
  let M := g_rows B in let N := g_cols B in
  (forall i k, i < nextMultiple M TS -> k < M ->
     i <= k \/ (band_start TS M i <= k /\ (N mod TS <> 0 \/ M < band_start TS M i + band_height TS M i)) -> al (g_addr SS A i k) = true) /\
  allocated al M N (g_addr SS B) /\ allocated al M N (g_addr SS C).

Theorem C78_trmm_left : forall SS cc T (O : Ops T) al alpha A B C m, 0 < SS -> 0 < cc -> trmmL_args SS A B C ->
  (g_rows B = 0 \/ g_cols B = 0 -> trmmL SS cc T O al alpha A Upper false B C m = Ok m) /\
  (trmmL_memory SS (cc * SS) al A B C -> exists m', trmmL SS cc T O al alpha A Upper false B C m = Ok m') /\
  (0 < g_rows B -> 0 < g_cols B -> ~ trmmL_memory SS (cc * SS) al A B C -> trmmL SS cc T O al alpha A Upper false B C m = UB).
Proof.
  intros SS cc T O al alpha A B C m HSS Hcc [hA hB hC sA sC wB pA pC [zA1 zA2] [zC1 zC2] xA xB]. assert (HT : 0 < cc * SS) by nia.
  set (M := g_rows B) in *. set (N := g_cols B) in *. set (t := cc * SS) in *.
  assert (G : trmmL SS cc T O al alpha A Upper false B C m = foldM (trmmL_call SS cc T O al M alpha (g_ptr SS A) (g_ptr SS B) (g_ptr SS C)) (tile t t rowMajor M N) m).
  { unfold trmmL. fold M N. rewrite zA1, zA2, zC1, zC2, !Nat.eqb_refl. cbn [negb andb]. unfold trmmL_ptr. rewrite !g_ptr_so, sA, sC. reflexivity. }
  assert (VB : vmovable (g_ptr SS B)) by (unfold vmovable; rewrite g_ptr_kind, g_ptr_so; exact wB).
  destruct (tile_ok_disj_cover t HT t HT rowMajor M N) as (TA & _ & TC).
  split; [|split].
  - intros Z. rewrite G, tile_none by auto. reflexivity.
  - intros (a1 & a2 & a3). fold M N in a1, a2, a3.
    destruct (trmmL_ptr_needs SS HSS cc Hcc T O al M N alpha (g_ptr SS A) (g_ptr SS B) (g_ptr SS C) m) as (m' & E & _);
      auto using g_ptr_wf, g_ptr_lane, g_ptr_store; try (rewrite g_ptr_so; assumption).
    + intros c i k Hc Hi Hk H. change (Ger_Model.TS SS cc) with t in *. rewrite g_ptr_addr by auto.
      destruct (TA c Hc) as (T1 & T2 & (q1 & T3) & (q2 & T4) & T5 & T6 & T7 & T8 & T9 & T10 & T11). destruct (tile_edges _ _ _ _ _ _ Hc) as [E1 E2].
      destruct (band_of_row t M N c i HT Hc Hi) as [B1 B2].
      assert (Hup : k_i c + k_rm c * t <= nextMultiple M t).
      { apply up_block; auto; [apply ex_mod0 with q1; lia|apply Nat.mod_mul; lia]. }
      apply a1; try lia. destruct H as [H|H]; [left; exact H|right]. rewrite <- B1, <- B2. split; [lia|].
      destruct (Nat.eq_dec (N mod t) 0) as [Z|]; auto. right. destruct (le_lt_dec (k_i c + k_rm c * t) M) as [L|]; auto. exfalso.
      assert (k_full c = true); [|congruence]. apply T9. split; [lia|]. rewrite T2. apply mod0_ex in Z; auto. destruct Z as [z Ez].
      destruct E2 as [E2|E2]; auto. rewrite T4, Ez in *. assert (q2 < z) by nia. nia.
    + intros i j Hi Hj. rewrite g_ptr_addr by auto. apply a2; auto.
    + intros i j Hi Hj. rewrite g_ptr_addr by auto. apply a3; auto.
    + intros i j i' j' Hi Hj Hi' Hj' X. rewrite !g_ptr_addr in X by auto. apply (g_distinct SS HSS C hC); lia.
    + intros i j i' j' Hi Hj Hi' Hj'. rewrite !g_ptr_addr by auto. apply xA; auto.
    + destruct xB as [xB|xB]; [left|right].
      * intros i j i' j' Hi Hj Hi' Hj'. rewrite !g_ptr_addr by auto. apply xB; auto.
      * intros i j Hi Hj. rewrite !g_ptr_addr by auto. apply xB; auto.
    + exists m'. rewrite <- E, G. unfold trmmL_ptr. rewrite !g_ptr_so, sA, sC. reflexivity.
  - intros HM HN Hn. rewrite G.
    assert (Q : ou (foldM (trmmL_call SS cc T O al M alpha (g_ptr SS A) (g_ptr SS B) (g_ptr SS C)) (tile t t rowMajor M N) m)).
    { apply ou_foldM. intros c s _. assert (St : mp_kind (g_ptr SS C) = Panel -> mp_af (g_ptr SS C) = true) by (intros X; apply (g_ptr_store SS C pC X)).
      unfold trmmL_call. cbv zeta. apply ou_bind; [apply ou_reset|intros r0]. destruct (k_full c).
      - apply ou_bind; [apply ou_trmm_left; cbn [poff mp_so]; rewrite g_ptr_so; auto|intros r1]. apply ou_bind; [apply ou_gemm; cbn [poff mp_so]; rewrite g_ptr_so; auto|intros r2].
        apply ou_store; cbn [poff mp_so mp_kind mp_af]; rewrite ?g_ptr_so; auto.
      - apply ou_bind; [apply ou_gemm_mn; cbn [poff mp_so]; rewrite g_ptr_so; auto|intros r1].
        apply ou_store_mn; cbn [poff mp_so mp_kind mp_af]; rewrite ?g_ptr_so; auto. }
    destruct (ou_cases _ _ Q) as [(m' & E)|E]; [exfalso; apply Hn|exact E].
    assert (CE : forall c, In c (tile t t rowMajor M N) ->
      (forall i k, k_i c <= i < k_i c + k_rm c * t -> k_i c <= k < M -> i <= k \/ k_full c = false -> al (g_addr SS A i k) = true) /\
      (forall k j, k_i c <= k < M -> k_j c <= j < k_j c + k_nn c -> al (g_addr SS B k j) = true) /\
      (forall i j, in_call c i j -> al (g_addr SS C i j) = true)).
    { intros c Hc. destruct (foldM_each _ _ _ _ _ _ E c Hc) as (s1 & s2 & X).
      apply (trmmL_call_each SS HSS cc Hcc T O) with (N := N) in X; auto using g_ptr_wf, g_ptr_lane; try (rewrite g_ptr_so; assumption).
      destruct X as (E1 & E2 & E3). split; [|split]; intros; rewrite <- g_ptr_addr by auto; auto. }
    assert (BC : forall i j, i < nextMultiple M t -> j < N -> exists c, In c (tile t t rowMajor M N) /\ k_i c <= i < k_i c + k_rm c * t /\
       (k_full c = true <-> band_start t M i + band_height t M i <= M /\ t * (j / t) + t <= N)).
    { intros i j Hi Hj. pose proof (pad_row t M i HT Hi) as HP. destruct (TC (t * (i / t)) j HP Hj) as (c & Hc & Hp). exists c. split; auto.
      destruct (band_of_call t M N c (t * (i / t)) j HT Hc Hp) as [B1 B2]. destruct Hp as [Hp _].
      destruct (TA c Hc) as (T1 & T2 & (q1 & T3) & (q2 & T4) & T5 & T6 & T7 & T8 & T9 & T10 & T11).
      pose proof (Nat.div_mod i t ltac:(lia)) as D1. pose proof (Nat.mod_upper_bound i t ltac:(lia)) as D2.
      assert (R : k_i c <= i < k_i c + k_rm c * t).
      { split; [lia|]. rewrite T3 in *. assert (i / t < q1 + k_rm c) by nia. nia. }
      split; auto. destruct (band_of_row t M N c i HT Hc R) as [B3 B4]. destruct (band_of_row t M N c (t * (i / t)) HT Hc ltac:(lia)) as [B5 B6].
      rewrite B2, <- B3, <- B4, <- B5, <- B6. tauto. }
    split; [|split]; cbv zeta; fold M N.
    + intros i k Hi Hk H.
      assert (Z : exists j, j < N /\ (i <= k \/ ~ (band_start t M i + band_height t M i <= M /\ t * (j / t) + t <= N))).
      { destruct H as [H|[_ [H|H]]]; [exists 0; auto| |exists 0; split; auto; right; lia]. exists (N - 1). split; [lia|]. right. intros [_ X].
        assert (Y : t * (N / t) <= N) by (apply Nat.mul_div_le; lia). pose proof (Nat.div_mod N t ltac:(lia)) as D1. pose proof (Nat.mod_upper_bound N t ltac:(lia)) as D2.
        assert ((N - 1) / t = N / t); [|nia]. symmetry. apply (Nat.div_unique _ _ _ (N mod t - 1)); lia. }
      destruct Z as (j & Hj & Z). destruct (BC i j Hi Hj) as (c & Hc & R & F). destruct (band_of_row t M N c i HT Hc R) as [B1 B2].
      apply (proj1 (CE c Hc)); auto.
      * split; [|exact Hk]. destruct H as [H|[H _]]; lia.
      * destruct Z as [Z|Z]; [left; exact Z|right]. destruct (k_full c); auto. exfalso. apply Z. apply F. reflexivity.
    + intros k j Hk Hj. destruct (TC 0 j HM Hj) as (c & Hc & [R1 R2]). apply (proj1 (proj2 (CE c Hc))); [lia|exact R2].
    + intros i j Hi Hj. destruct (TC i j Hi Hj) as (c & Hc & R). apply (proj2 (proj2 (CE c Hc))); auto.
Qed.

(** NaN and the left-hand trmm for all sizes: where the band of row i and the tile of column j fit, rows of B from the SIMD row of i on and the upper triangle of A matter;
    elsewhere the rows of A and B from the first row of the band on. *)
Theorem C71_trmm_left_any_size : forall SS cc T (O : Ops T) p al alpha A B C m, 0 < SS -> 0 < cc -> absorbing O p -> trmmL_pre SS cc al A B C ->
  let M := g_rows B in let N := g_cols B in let TS := cc * SS in
  exists m', trmmL SS cc T O al alpha A Upper false B C m = Ok m' /\
    forall i j k, i < M -> j < N -> k < M ->
      let fits := band_start TS M i + band_height TS M i <= M /\ TS * (j / TS) + TS <= N in
      (fits -> (SS * (i / SS) <= k /\ m (g_addr SS B k j) = p) \/ (i <= k /\ m (g_addr SS A i k) = p) \/ alpha = p -> m' (g_addr SS C i j) = p) /\
      (~ fits -> (band_start TS M i <= k /\ (m (g_addr SS B k j) = p \/ m (g_addr SS A i k) = p)) \/ alpha = p -> m' (g_addr SS C i j) = p).
Proof.
  intros SS cc T O p al alpha A B C m HSS Hcc AB P M N t. destruct (C25_trmm_left_any_size SS cc T O al alpha A B C m HSS Hcc P) as (m' & E & V & _).
  exists m'. split; auto. intros i j k Hi Hj Hk fits. fold M N in V. change (cc * SS) with t in V.
  assert (BS : band_start t M i <= i).
  { pose proof (TS_pos SS HSS cc Hcc) as HT. change (TS SS cc) with t in HT.
    destruct (tile_ok_disj_cover t HT t HT rowMajor M N) as (_ & _ & TC). destruct (TC i j Hi Hj) as (c & Hc & Hp).
    destruct (band_of_call t M N c i j HT Hc Hp) as [K1 _]. rewrite <- K1. apply Hp. }
  pose proof (Nat.mul_div_le i SS ltac:(lia)) as Hs. split; intros F H; rewrite V by (split; auto).
  - destruct F as [F1 F2]. apply Nat.leb_le in F1, F2. rewrite F1, F2. cbn [andb]. cbv zeta.
    apply (fma_chain_nan O p AB). right. destruct H as [[H1 H2]|[[H1 H2]| ->]].
    + exists (k - SS * (i / SS)). split; [lia|]. right. replace (SS * (i / SS) + (k - SS * (i / SS))) with k by lia. exact H2.
    + exists (k - SS * (i / SS)). split; [lia|]. left. replace (SS * (i / SS) + (k - SS * (i / SS))) with k by lia. unfold upper_of.
      rewrite (proj2 (Nat.leb_le i k) H1), H2. apply (ab_mul O p AB).
    + exists 0. split; [lia|]. left. apply (ab_mul O p AB).
  - replace ((band_start t M i + band_height t M i <=? M) && (t * (j / t) + t <=? N)) with false.
    2:{ symmetry. apply not_true_is_false. intros X. apply andb_prop in X. destruct X as [X1 X2]. apply Nat.leb_le in X1, X2. apply F. split; auto. }
    cbv zeta. apply (fma_chain_nan O p AB). right. destruct H as [[H1 H2]| ->].
    + exists (k - band_start t M i). split; [lia|]. replace (band_start t M i + (k - band_start t M i)) with k by lia.
      destruct H2 as [H2|H2]; [right; exact H2|left]. rewrite H2. apply (ab_mul O p AB).
    + exists 0. split; [lia|]. left. apply (ab_mul O p AB).
Qed.
(** A 4-by-4 triangular matrix whose element (1, 0) is not allocated: with 4 columns it is not needed, with 5 columns it is. *)
Definition nl_al : alloc := fun a => negb (a =? 1) && (a <? 64).
Definition nl (n b : nat) : marg := MArg (whole (Cont Dense false columnMajor 4 n b)) false.
Example C78_trmm_left_example :
  trmmL_args 4 (nl 4 0) (nl 4 16) (nl 4 36) /\ trmmL_memory 4 4 nl_al (nl 4 0) (nl 4 16) (nl 4 36) /\
  trmmL_args 4 (nl 4 0) (nl 5 16) (nl 5 36) /\ ~ trmmL_memory 4 4 nl_al (nl 4 0) (nl 5 16) (nl 5 36).
Proof.
  assert (AR : forall n, 4 <= n <= 5 -> trmmL_args 4 (nl 4 0) (nl n 16) (nl n 36)).
  { intros n Hn. constructor; try (repeat split; cbn; auto; lia); try reflexivity.
    - left. reflexivity.
    - intros i j i' j' Hi Hj Hi' Hj'. cbn in *. unfold g_addr, v_addr, c_addr, c_index, c_spacing. cbn. lia.
    - left. intros i j i' j' Hi Hj Hi' Hj'. cbn in *. unfold g_addr, v_addr, c_addr, c_index, c_spacing. cbn. lia. }
  split; [apply AR; lia|]. split; [|split; [apply AR; lia|]].
  - assert (K : forall i j b, i < 4 -> j < 4 -> g_addr 4 (nl 4 b) i j = b + i + 4 * j).
    { intros i j b Hi Hj. unfold g_addr, v_addr, c_addr, c_index, c_spacing. cbn. lia. }
    assert (L : forall a, a <> 1 -> a < 64 -> nl_al a = true).
    { intros a H1 H2. unfold nl_al. rewrite (proj2 (Nat.eqb_neq a 1)), (proj2 (Nat.ltb_lt a 64)) by auto. reflexivity. }
    split; [|split].
    + intros i k Hi Hk H. change (nextMultiple (g_rows (nl 4 16)) 4) with 4 in Hi. change (g_rows (nl 4 16)) with 4 in *. change (g_cols (nl 4 16)) with 4 in *.
      rewrite K by auto. assert (i <= k).
      { destruct H as [H|[_ [H|H]]]; auto; exfalso; [apply H; reflexivity|]. do 4 (destruct i as [|i]; [vm_compute in H; lia|]). lia. }
      apply L; lia.
    + intros i j Hi Hj. change (g_rows (nl 4 16)) with 4 in *. change (g_cols (nl 4 16)) with 4 in *. rewrite K by auto. apply L; lia.
    + intros i j Hi Hj. change (g_rows (nl 4 16)) with 4 in *. change (g_cols (nl 4 16)) with 4 in *. rewrite K by auto. apply L; lia.
  - intros (H & _). specialize (H 1 0). assert (X : false = true); [|discriminate X]. apply H.
    + vm_compute. lia.
    + cbn. lia.
    + right. split; [vm_compute; lia|]. left. cbn. lia.
Qed.
(** Both cases of [C71_trmm_left_any_size] occur among the 6 rows and 5 columns of C25's example and the 4 rows and columns above. *)
Example C71_any_size_example :
  trmmL_pre 4 1 e_al (MArg (whole eA) false) (MArg (whole eB) false) (MArg (whole eC) false) /\ ~ (band_start 4 6 0 + band_height 4 6 0 <= 6 /\ 4 * (0 / 4) + 4 <= 5) /\
  (band_start 4 4 3 + band_height 4 4 3 <= 4 /\ 4 * (3 / 4) + 4 <= 4).
Proof. split; [exact C25_example|]. split; [vm_compute; lia|vm_compute; lia]. Qed.
