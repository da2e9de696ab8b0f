(** Properties_Overlap2.v -- C81 for ger and syrk: a result that overlaps the vectors or the factor. *)
From Coq Require Import Arith Lia List Bool PeanoNat ZArith.
From Verif Require Import Base Base_Proofs Spec Algebra_Proofs Instances Layout_Model Layout_Proofs Simd_Model Simd_Proofs
  Reg_Model Reg_Proofs Vec_Proofs Tile_Model Tile_Proofs TileOrder_Proofs Gemm_Model Gemm_Proofs Arg_Proofs Ger_Model Ger_Proofs Properties_Ger Syrk_Model Syrk_Proofs Properties_Syrk
  Properties_Gemm Properties_Compose.
Import ListNotations.

(* ------------------------------------------------------------------ the order of the calls *)
Lemma column_rows : forall SS STEP full m j cols, 0 < SS ->
  ForallOrdPairs (fun c d => k_i c < k_i d) (tile_column SS STEP full m j cols).
Proof.
  intros SS STEP full m j cols HSS. unfold tile_column.
  set (r3 := steps _ _ (3 * SS) 0). set (r2 := steps _ _ (2 * SS) (snd r3)). set (r1 := steps _ _ (1 * SS) (snd r2)).
  assert (G : forall r f, (forall i, k_i (f i) = i) -> forall fuel cond step i0, 0 < step -> r = steps fuel cond step i0 ->
    ForallOrdPairs (fun c d => k_i c < k_i d) (map f (fst r)) /\ (forall c, In c (map f (fst r)) -> i0 <= k_i c /\ k_i c + step <= snd r) /\ i0 <= snd r).
  { intros r f Hf fuel cond step i0 Hs ->. split; [|split].
    - apply FOP_steps_map. intros x y H. rewrite !Hf. lia.
    - intros c H. apply in_map_iff in H. destruct H as (x & <- & Hx). rewrite Hf. split; [eapply steps_in_ge; eauto|eapply steps_in_le; eauto].
    - apply steps_ge. }
  destruct (G r3 (fun i => Call 3 STEP i j (3 * SS) cols full) ltac:(reflexivity) _ _ (3 * SS) 0 ltac:(lia) eq_refl) as (A3 & B3 & C3).
  destruct (G r2 (fun i => Call 2 STEP i j (2 * SS) cols full) ltac:(reflexivity) _ _ (2 * SS) (snd r3) ltac:(lia) eq_refl) as (A2 & B2 & C2).
  destruct (G r1 (fun i => Call 1 STEP i j (1 * SS) cols full) ltac:(reflexivity) _ _ (1 * SS) (snd r2) ltac:(lia) eq_refl) as (A1 & B1 & C1).
  assert (L0 : forall c, In c (if snd r1 <? m then [Call 1 STEP (snd r1) j (m - snd r1) cols false] else []) -> k_i c = snd r1).
  { intros c H. destruct (_ <? m) in H; [destruct H as [<-|[]]; reflexivity|destruct H]. }
  apply FOP_app; auto; [apply FOP_app; auto; [apply FOP_app; auto|]|].
  - destruct (snd r1 <? m); constructor; constructor.
  - intros x y Hx Hy. apply B1 in Hx. apply L0 in Hy. lia.
  - intros x y Hx Hy. apply B2 in Hx. apply in_app_or in Hy. destruct Hy as [Hy|Hy]; [apply B1 in Hy|apply L0 in Hy]; lia.
  - intros x y Hx Hy. apply B3 in Hx. apply in_app_or in Hy. destruct Hy as [Hy|Hy]; [apply B2 in Hy; lia|].
    apply in_app_or in Hy. destruct Hy as [Hy|Hy]; [apply B1 in Hy|apply L0 in Hy]; lia.
Qed.
(** Column blocks from left to right, in each of them row blocks from top to bottom. *)
Definition later (c d : call) : Prop := k_j c < k_j d \/ (k_j c = k_j d /\ k_i c < k_i d).
Lemma columns_later : forall (f : nat -> list call) n STEP, 0 < STEP -> (forall j c, In c (f j) -> k_j c = j) ->
  (forall j, ForallOrdPairs (fun c d => k_i c < k_i d) (f j)) -> forall l,
  let rj := steps (n + 1) (fun j => j + STEP <=? n) STEP 0 in
  (forall c, In c l -> k_j c = snd rj) -> ForallOrdPairs (fun c d => k_i c < k_i d) l ->
  ForallOrdPairs later (concat (map f (fst rj)) ++ l).
Proof.
  intros f n STEP HS Hf Hr l rj Hl Hlr.
  assert (G : forall l j, (forall c, In c l -> k_j c = j) -> ForallOrdPairs (fun c d => k_i c < k_i d) l -> ForallOrdPairs later l).
  { intros l' j H F. induction F as [|a l' Fa F IH]; constructor.
    - rewrite Forall_forall in *. intros x Hx. right. rewrite (H a), (H x) by (cbn; auto). auto.
    - apply IH. intros c Hc. apply H. cbn; auto. }
  apply FOP_app.
  - apply FOP_steps_concat.
    + intros x _. apply (G _ x); auto.
    + intros x y u v Hxy Hu Hv _ _. apply Hf in Hu. apply Hf in Hv. left. lia.
  - apply (G _ (snd rj)); auto.
  - intros x y Hx Hy. apply in_concat_map in Hx. destruct Hx as (z & Hz & Hx). apply Hf in Hx. apply steps_in_le in Hz. apply Hl in Hy. left. unfold rj in *. lia.
Qed.
Lemma tile_later : forall SS STEP m n, 0 < SS -> 0 < STEP -> ForallOrdPairs later (tile SS STEP columnMajor m n).
Proof.
  intros SS STEP m n HSS HST. unfold tile. apply columns_later; auto.
  - intros j c H. eapply column_col; eauto.
  - intros j. apply column_rows; auto.
  - intros c H. destruct (_ <? n); [eapply column_col; eauto|destruct H].
  - destruct (_ <? n); [apply column_rows; auto|constructor].
Qed.
Lemma syrk_ordered : forall SS cc M, 0 < SS -> 0 < cc -> ForallOrdPairs (fun c d => k_j c <= k_j d) (syrk_calls SS cc M).
Proof.
  intros SS cc M HSS Hcc. unfold syrk_calls. set (rj := steps (M + 1) _ _ 0).
  assert (K : forall full j cols c, In c (syrk_column SS cc full M j cols) -> k_j c = j).
  { intros full j cols c H. unfold syrk_column in H. repeat (apply in_app_or in H; destruct H as [H|H]);
      try (apply in_map_iff in H; destruct H as (i & <- & _); reflexivity).
    destruct (_ <? M) in H; [destruct H as [<-|[]]; reflexivity|destruct H]. }
  apply FOP_app.
  - apply FOP_steps_concat.
    + intros x _. apply (FOP_const _ _ x). intros c Hc. apply K in Hc. exact Hc.
    + intros x y u v Hxy Hu Hv _ _. apply K in Hu. apply K in Hv. lia.
  - destruct (snd rj <? M); [|constructor]. apply (FOP_const _ _ (snd rj)). intros c Hc. apply K in Hc. exact Hc.
  - intros x y Hx Hy. apply in_concat_map in Hx. destruct Hx as (z & Hz & Hx). apply K in Hx. apply steps_in_le in Hz. fold rj in Hz.
    destruct (snd rj <? M); [|destruct Hy]. apply K in Hy. lia.
Qed.

(* ------------------------------------------------------------------ ger *)
(** Operands of the column-major ger that satisfy everything ger_pre asks for except that B is apart from x and y. *)
Record ger_pre_overlap (SS cc : nat) (al : alloc) (x y : varg) (A B : marg) : Prop := {
  ro_x : vptr_ok SS (x_ptr x); ro_y : vec_ok SS (x_ptr y);
  ro_A : arg_ok SS A; ro_B : arg_ok SS B; ro_soA : g_so A = columnMajor; ro_soB : g_so B = columnMajor;
  ro_panA : is_panel A -> at_panel SS A; ro_panB : is_panel B -> v_af (g_view B) = true;
  ro_szA : g_rows A = x_size x /\ g_cols A = x_size y; ro_szB : g_rows B = x_size x /\ g_cols B = x_size y;
  ro_alx : forall i, i < nextMultiple (x_size x) (cc * SS) -> al (vaddr SS (x_ptr x) i) = true;
  ro_aly : forall j, j < x_size y -> al (vaddr SS (x_ptr y) j) = true;
  ro_alA : allocated al (nextMultiple (x_size x) SS) (x_size y) (g_addr SS A);
  ro_alB : allocated al (x_size x) (x_size y) (g_addr SS B);
  ro_sepA : forall i j i' j', block (x_size x) (x_size y) i j -> block (x_size x) (x_size y) i' j' ->
              g_addr SS B i j = g_addr SS A i' j' -> i = i' /\ j = j'
}.
(** How B may overlap x: in the last block of cc*SS columns, element i of x in row i. *)
Definition may_hold_x (SS cc : nat) (x y : varg) (B : marg) : Prop :=
  forall i j k, i < x_size x -> j < x_size y -> k < x_size x -> g_addr SS B i j = vaddr SS (x_ptr x) k ->
    i = k /\ j / (cc * SS) = (x_size y - 1) / (cc * SS).
(** How B may overlap y: in the last block of cc*SS rows, element j of y in column j. *)
Definition may_hold_y (SS cc : nat) (x y : varg) (B : marg) : Prop :=
  forall i j k, i < x_size x -> j < x_size y -> k < x_size y -> g_addr SS B i j = vaddr SS (x_ptr y) k ->
    j = k /\ i / (cc * SS) = (x_size x - 1) / (cc * SS).

(** ger then computes what it computes with the old contents of x, y and A. *)
Theorem C81_ger_overlap : forall SS cc T (O : Ops T) al alpha x y A B m, 0 < SS -> 0 < cc -> ger_pre_overlap SS cc al x y A B ->
  may_hold_x SS cc x y B -> may_hold_y SS cc x y B ->
  exists m', ger_cm SS cc T O al alpha x y A B m = Ok m' /\
    updated (block (x_size x) (x_size y)) (g_addr SS B)
      (fun i j => ofma O (omul O alpha (m (vaddr SS (x_ptr x) i))) (m (vaddr SS (x_ptr y) j)) (omul O (o1 O) (m (g_addr SS A i j)))) m m'.
Proof.
  intros SS cc T O al alpha x y A B m HSS Hcc [hx hy hA hB sA sB pA pB [zA1 zA2] [zB1 zB2] ax ay aA aB xA] OX OY.
  unfold may_hold_x, may_hold_y in *. change (cc * SS) with (Ger_Model.TS SS cc) in *.
  unfold ger_cm. rewrite zA1, zA2, zB1, zB2, !Nat.eqb_refl. cbn [negb]. unfold ger_ptr. rewrite !g_ptr_so, sA, sB. cbn [order_eqb andb negb].
  set (M := x_size x) in *. set (N := x_size y) in *. set (TS := Ger_Model.TS SS cc) in *.
  destruct (nextMultiple_spec M SS HSS) as (NM & _ & _).
  assert (HT : 0 < TS) by (apply TS_pos; auto).
  destruct (tile_ok_disj_cover TS HT TS HT columnMajor M N) as (TA & TB & TC).
  apply (tiled_in_order call T _ _ in_call (block M N) (g_addr SS B)).
  - intros c i j Hc Hij. apply TA in Hc. unfold call_ok, in_call, block in *. lia.
  - intros i j [Hi Hj]. apply TC; auto.
  - intros i j i' j' [] [] X. apply (g_distinct SS HSS B hB); unfold M, N in *; try lia; auto.
  - eapply FOP_impl; [|exact TB]. intros c d X i j Y Z. apply (X i j); auto.
  - intros pre c post m1 El Hag.
    assert (Hc : In c (tile TS TS columnMajor M N)) by (rewrite El; apply in_or_app; right; left; reflexivity).
    assert (OKd : forall d, In d pre -> call_ok TS TS M N d) by (intros d Hd; apply TA; rewrite El; apply in_or_app; auto).
    assert (LT : forall d, In d pre -> later d c) by (intros d Hd; destruct (FOP_split _ _ _ _ _ _ (tile_later TS TS M N HT HT) El) as [X _]; auto).
    assert (DJ : forall d i j, In d pre -> in_call d i j -> ~ in_call c i j).
    { intros d i j Hd H1 H2. destruct (FOP_split _ _ _ _ _ _ TB El) as [X _]. apply (X d Hd i j); auto. }
    pose proof (TA c Hc) as (T1 & T2 & (q & T3) & (q' & T4) & T5 & T6 & T7 & T8 & T9 & T10 & T11).
    (* elements of B written before c in the last column block from row k_i c on, or in the last row block from column k_j c on: none *)
    assert (QX : forall d i j, In d pre -> in_call d i j -> k_i c <= i -> j / TS = (N - 1) / TS -> False).
    { intros d i j Hd Hij Hi Hj. pose proof (OKd d Hd) as (D1 & D2 & (r & D3) & (r' & D4) & D5 & D6 & D7 & D8 & _). pose proof (LT d Hd) as L. pose proof Hij as Hij'. unfold in_call in Hij'.
      assert (j / TS = r') by (symmetry; apply (Nat.div_unique j TS r' (j - TS * r')); lia).
      assert (q' <= (N - 1) / TS) by (apply Nat.div_le_lower_bound; lia).
      assert (q' <= r') by lia. assert (TS * q' <= TS * r') by (apply Nat.mul_le_mono_l; auto).
      destruct L as [L|[L1 L2]]; [lia|]. apply (DJ d (k_i c) (k_j c) Hd); unfold in_call; lia. }
    assert (QY : forall d i j, In d pre -> in_call d i j -> k_j c <= j -> i / TS = (M - 1) / TS -> False).
    { intros d i j Hd Hij Hj Hi. pose proof (OKd d Hd) as (D1 & D2 & (r & D3) & (r' & D4) & D5 & D6 & D7 & D8 & _). pose proof (LT d Hd) as L. pose proof Hij as Hij'. unfold in_call in Hij'.
      assert (q <= (M - 1) / TS) by (apply Nat.div_le_lower_bound; lia).
      assert (TS * q <= i). { pose proof (Nat.mul_div_le i TS ltac:(lia)). pose proof (Nat.mul_le_mono_l q (i / TS) TS ltac:(lia)). lia. }
      assert (EQ : k_j d = k_j c). { destruct L as [L|[L _]]; auto. assert (r' + 1 <= q') by nia. assert (TS * (r' + 1) <= TS * q') by (apply Nat.mul_le_mono_l; auto). lia. }
      destruct L as [L|[_ L2]]; [lia|]. apply (DJ d (k_i c) (k_j c) Hd); unfold in_call; lia. }
    destruct (ger_call_ok SS HSS cc Hcc T O al M N alpha (x_ptr x) (x_ptr y) (g_ptr SS A) (g_ptr SS B) m) with (c := c) (m := m1) as (m' & E & U1 & U2);
      auto using g_ptr_wf, g_ptr_lane, g_ptr_store; try (rewrite g_ptr_so; assumption).
    + intros i j Hi Hj. rewrite g_ptr_addr by auto. apply aA; auto. destruct (_ && _); lia.
    + intros i j Hi Hj. rewrite g_ptr_addr by auto. apply aB; auto.
    + intros i j i' j' Hi Hj Hi' Hj' X. rewrite !g_ptr_addr in X by auto. apply (g_distinct SS HSS B hB); unfold M, N in *; try lia; auto.
    + intros k Hk. apply Hag. intros d i j Hd Hij X. pose proof (OKd d Hd) as (_ & _ & _ & _ & _ & _ & D7 & D8 & _). pose proof Hij as Hij'. unfold in_call in Hij'.
      symmetry in X. apply OX in X; [|lia..]. destruct X as [-> X]. apply (QX d (k_i c + k) j); auto. lia.
    + intros k Hk. apply Hag. intros d i j Hd Hij X. pose proof (OKd d Hd) as (_ & _ & _ & _ & _ & _ & D7 & D8 & _). pose proof Hij as Hij'. unfold in_call in Hij'.
      symmetry in X. apply OY in X; [|lia..]. destruct X as [-> X]. apply (QY d i (k_j c + k)); auto. lia.
    + intros u v Hu Hv. rewrite g_ptr_addr by auto. apply Hag. intros d i j Hd Hij X. pose proof (OKd d Hd) as (_ & _ & _ & _ & _ & _ & D7 & D8 & _). pose proof Hij as Hij'. unfold in_call in Hij'.
      symmetry in X. apply xA in X; [|split; lia..]. destruct X as [-> ->]. apply (DJ d (k_i c + u) (k_j c + v) Hd); auto. unfold in_call. lia.
    + exists m'. split; [exact E|]. split.
      * intros i j Hij. rewrite <- g_ptr_addr by auto. rewrite U1 by auto. unfold ger_elem. rewrite g_ptr_addr by auto. reflexivity.
      * intros a Ha. apply U2. intros i j Hij. rewrite g_ptr_addr by auto. auto.
Qed.

(* ------------------------------------------------------------------ syrk *)
(** Operands of syrkLower that satisfy everything syrk_pre asks for except that D is apart from A. *)
Record syrk_pre_overlap (SS cc : nat) (al : alloc) (A C D : view) : Prop := {
  so_A : dense_cm SS A; so_C : dense_cm SS C; so_D : dense_cm SS D;
  so_inD : v_i D + v_m D <= c_rows (v_cont D) /\ v_j D + v_n D <= c_cols (v_cont D);
  so_szC : v_m C = v_m A /\ v_n C = v_m A; so_szD : v_m D = v_m A /\ v_n D = v_m A;
  so_alA : allocated al (nextMultiple (v_m A) (cc * SS)) (v_n A) (v_addr SS A);
  so_alC : allocated al (nextMultiple (v_m A) (cc * SS)) (v_m A) (v_addr SS C);
  so_alD : forall i j, lower (v_m A) (v_m A) i j -> al (v_addr SS D i j) = true;
  so_sepC : forall i j i' j', lower (v_m A) (v_m A) i j -> lower (v_m A) (v_m A) i' j' ->
              v_addr SS D i j = v_addr SS C i' j' -> i = i' /\ j = j'
}.
(** How D may overlap A: in the last block of cc*SS columns of D, anywhere in A. *)
Definition may_hold_factor (SS cc : nat) (A D : view) : Prop :=
  forall i j i' k, lower (v_m A) (v_m A) i j -> i' < v_m A -> k < v_n A -> v_addr SS D i j = v_addr SS A i' k -> j / (cc * SS) = (v_m A - 1) / (cc * SS).

(** syrkLower then computes what it computes with the old contents of A and C. *)
Theorem C81_syrk_overlap : forall SS cc T (O : Ops T) al alpha A beta C D m, 0 < SS -> 0 < cc -> syrk_pre_overlap SS cc al A C D -> may_hold_factor SS cc A D ->
  exists m', syrkLower SS cc T O al alpha A beta C D m = Ok m' /\
    updated (lower (v_m A) (v_m A)) (v_addr SS D)
      (fun i j => fma_chain O (v_n A) (fun k => omul O alpha (m (v_addr SS A i k))) (fun k => m (v_addr SS A j k))
                    (omul O beta (m (v_addr SS C i j)))) m m'.
Proof.
  intros SS cc T O al alpha A beta C D m HSS Hcc [hA hC hD [i1 i2] [zC1 zC2] [zD1 zD2] aA aC aD xC] OA.
  unfold may_hold_factor in OA. change (cc * SS) with (Ger_Model.TS SS cc) in *.
  unfold syrkLower. rewrite zC1, zC2, zD1, zD2, !Nat.eqb_refl. cbn [andb negb].
  set (M := v_m A) in *. set (K := v_n A) in *. set (TS := Ger_Model.TS SS cc) in *.
  assert (HT : 0 < TS) by (apply TS_pos; auto).
  destruct (syrk_calls_ok SS HSS cc Hcc M) as (TA & TB & TC).
  apply (tiled_in_order call T _ _ (fun c i j => in_call c i j /\ j <= i) (lower M M) (v_addr SS D)).
  - intros c i j Hc [Hij Hl]. apply TA in Hc. unfold syrk_ok, call_ok, in_call, lower in *. lia.
  - intros i j (H1 & H2 & H3). destruct (TC i j) as (c & Hc & Hp); [lia|]. exists c. auto.
  - intros i j i' j' (H1 & H2 & H3) (H4 & H5 & H6) X. unfold v_addr, c_addr in X. apply Nat.add_cancel_l in X.
    apply (c_index_inj SS HSS) in X; lia.
  - eapply FOP_impl; [|exact TB]. intros c d X i j [Y _] [Z _]. apply (X i j); auto.
  - intros pre c post m1 El Hag.
    assert (Hc : In c (syrk_calls SS cc M)) by (rewrite El; apply in_or_app; right; left; reflexivity).
    assert (OKd : forall d, In d pre -> syrk_ok SS cc M d) by (intros d Hd; apply TA; rewrite El; apply in_or_app; auto).
    assert (LT : forall d, In d pre -> k_j d <= k_j c) by (intros d Hd; destruct (FOP_split _ _ _ _ _ _ (syrk_ordered SS cc M HSS Hcc) El) as [X _]; auto).
    assert (DJ : forall d i j, In d pre -> in_call d i j -> ~ in_call c i j).
    { intros d i j Hd H1 H2. destruct (FOP_split _ _ _ _ _ _ TB El) as [X _]. apply (X d Hd i j); auto. }
    destruct (syrk_call_ok SS HSS cc Hcc T O al alpha A beta C D m) with (c := c) (m := m1) as (m' & E & U1 & U2); auto.
    + intros i j Hj Hi. apply aC; auto. pose proof (syrk_last_bound SS HSS cc Hcc M (v_pf C) j) as SL. fold TS in SL. fold M in Hi. lia.
    + intros i j i' j' (H1 & H2 & H3) (H4 & H5 & H6) X. unfold v_addr, c_addr in X. apply Nat.add_cancel_l in X.
      apply (c_index_inj SS HSS) in X; lia.
    + intros i k Hi Hk. apply Hag. intros d i' j' Hd [Hij Hl] X.
      pose proof (OKd d Hd) as [(D1 & D2 & (r & D3) & (r' & D4) & D5 & D6 & D7 & D8 & _) D9]. pose proof Hij as Hij'. unfold in_call in Hij'.
      pose proof (TA c Hc) as [(T1 & T2 & (q & T3) & (q' & T4) & T5 & T6 & T7 & T8 & _) T9].
      symmetry in X. apply OA in X; auto; [|unfold lower, M in *; lia].
      assert (j' / TS = r') by (symmetry; apply (Nat.div_unique j' TS r' (j' - TS * r')); lia).
      pose proof (LT d Hd) as L.
      assert (B1 : forall z, TS * z < M -> z <= (M - 1) / TS) by (intros z Hz; apply Nat.div_le_lower_bound; lia).
      assert (q <= r') by (rewrite <- H, X; apply B1; lia). assert (r <= r') by (rewrite <- H, X; apply B1; lia).
      assert (TS * q <= TS * r') by (apply Nat.mul_le_mono_l; auto). assert (TS * r <= TS * r') by (apply Nat.mul_le_mono_l; auto).
      apply (DJ d (k_i c) (k_j c) Hd); unfold in_call; lia.
    + intros u v Huv Hl. apply Hag. intros d i j Hd [Hij Hn] X. symmetry in X.
      pose proof (OKd d Hd) as [(_ & _ & _ & _ & _ & _ & D7 & D8 & _) _]. pose proof (TA c Hc) as [(_ & _ & _ & _ & _ & _ & T7 & T8 & _) _].
      pose proof Hij as Hij'. pose proof Huv as Huv'. unfold in_call in Hij', Huv'.
      apply xC in X; [|unfold lower; lia..]. destruct X as [-> ->]. apply (DJ d u v Hd); auto.
    + exists m'. split; [exact E|]. split; auto.
Qed.
(** In particular A may be one block of columns wide and high: A := C*C^T in place. *)
Theorem C81_syrk_replaces_factor : forall SS cc T (O : Ops T) al alpha A beta C m, 0 < SS -> 0 < cc -> syrk_pre_overlap SS cc al A C A -> v_m A <= cc * SS ->
  exists m', syrkLower SS cc T O al alpha A beta C A m = Ok m' /\
    updated (lower (v_m A) (v_m A)) (v_addr SS A)
      (fun i j => fma_chain O (v_n A) (fun k => omul O alpha (m (v_addr SS A i k))) (fun k => m (v_addr SS A j k))
                    (omul O beta (m (v_addr SS C i j)))) m m'.
Proof.
  intros SS cc T O al alpha A beta C m HSS Hcc P HM. apply C81_syrk_overlap; auto.
  intros i j i' k (H1 & H2 & H3) _ _ _. rewrite !Nat.div_small by lia. reflexivity.
Qed.

(* ------------------------------------------------------------------ beyond that *)
(** 5-by-5 matrix A = B. Column c of it as x, row r of it as y. *)
Definition p_B : marg := MArg (whole (Cont Dense false columnMajor 5 5 0)) false.
Definition p_col (c : nat) : varg := VArg 5 (VStat 1 true (8 * c)).
Definition p_row (r : nat) : varg := VArg 5 (VStat 8 false r).
Definition p_val (x : nat) : Z := (1 + Z.of_nat x mod 7)%Z.
Definition p_view (n : nat) : view := whole (Cont Dense false columnMajor n n 0).
(** With the first column as x the columns after the first four are wrong; with the first row as y the rows after the first four;
    and syrk over its 5-by-5 factor. [four-column tiles of registers of four rows] *)
Theorem C81_ger_overlap_refuted :
  (let x := p_col 0 in let y := VArg 5 (VStat 1 false 64) in ger_pre_overlap 4 1 (fun _ => true) x y p_B p_B /\ may_hold_y 4 1 x y p_B /\
     match ger_cm 4 1 Z zops (fun _ => true) 1%Z x y p_B p_B p_val with
     | Ok m' => m' (g_addr 4 p_B 0 3) = (p_val 24 + p_val 0 * p_val 67)%Z /\ m' (g_addr 4 p_B 0 4) <> (p_val 32 + p_val 0 * p_val 68)%Z | _ => False end) /\
  (let x := VArg 5 (VStat 1 true 64) in let y := p_row 0 in ger_pre_overlap 4 1 (fun _ => true) x y p_B p_B /\ may_hold_x 4 1 x y p_B /\
     match ger_cm 4 1 Z zops (fun _ => true) 1%Z x y p_B p_B p_val with
     | Ok m' => m' (g_addr 4 p_B 3 0) = (p_val 3 + p_val 67 * p_val 0)%Z /\ m' (g_addr 4 p_B 4 0) <> (p_val 4 + p_val 68 * p_val 0)%Z | _ => False end).
Proof.
  cbv zeta. split; (split; [check_pre|split; [|vm_compute; split; [reflexivity|discriminate]]]); intros i j k Hi Hj Hk E; cbn in *; exfalso; lia.
Qed.
Theorem C81_syrk_overlap_refuted :
  let A := p_view 5 in let C := whole (Cont Dense false columnMajor 5 5 64) in syrk_pre_overlap 4 1 (fun _ => true) A C A /\
  match syrkLower 4 1 Z zops (fun _ => true) 1%Z A 0%Z C A p_val with
  | Ok m' => m' (v_addr 4 A 4 4) <> fma_chain zops 5 (fun k => p_val (v_addr 4 A 4 k)) (fun k => p_val (v_addr 4 A 4 k)) 0%Z | _ => False end.
Proof.
  cbv zeta. split; [|vm_compute; discriminate].
  constructor; try (cbv; repeat split; auto; lia); try (cbv; intros; auto; discriminate).
  intros i j i' j' (H1 & H2 & H3) (H4 & H5 & H6) E. cbn in *. lia.
Qed.

(* ------------------------------------------------------------------ concrete cases *)
(** The last column of B as x and the last row of B as y, both at once; a 4-by-4 factor replaced by its product; a factor that is the last two columns of D. *)
Example C81_ger_example : let x := p_col 4 in let y := p_row 4 in
  ger_pre_overlap 4 1 (fun _ => true) x y p_B p_B /\ may_hold_x 4 1 x y p_B /\ may_hold_y 4 1 x y p_B /\
  match ger_cm 4 1 Z zops (fun _ => true) 2%Z x y p_B p_B p_val with
  | Ok m' => m' (g_addr 4 p_B 4 4) = (p_val 36 + 2 * p_val 36 * p_val 36)%Z /\ m' (g_addr 4 p_B 2 1) = (p_val 10 + 2 * p_val 34 * p_val 12)%Z | _ => False end.
Proof.
  cbv zeta. split; [check_pre|]. split; [|split; [|vm_compute; auto]].
  - intros i j k Hi Hj Hk E. assert (i = k /\ j = 4) as [-> ->] by (cbn in *; lia). split; reflexivity.
  - intros i j k Hi Hj Hk E. assert (i = 4 /\ j = k) as [-> ->] by (cbn in *; lia). split; reflexivity.
Qed.
Example C81_syrk_example :
  (let A := p_view 4 in let C := whole (Cont Dense false columnMajor 4 4 64) in syrk_pre_overlap 4 1 (fun _ => true) A C A /\ v_m A <= 1 * 4) /\
  (let D := p_view 6 in let A := submatrix true (v_cont D) 0 4 6 2 in let C := whole (Cont Dense false columnMajor 6 6 64) in
     syrk_pre_overlap 4 1 (fun _ => true) A C D /\ may_hold_factor 4 1 A D /\ v_addr 4 D 5 4 = v_addr 4 A 5 0 /\
     match syrkLower 4 1 Z zops (fun _ => true) 1%Z A 0%Z C D p_val with
     | Ok m' => m' (v_addr 4 D 5 4) = (p_val 37 * p_val 36 + p_val 45 * p_val 44)%Z | _ => False end).
Proof.
  assert (SAME : forall n c, c + 8 * n < 64 -> n <= 6 -> forall i j i' j', lower n n i j -> lower n n i' j' ->
    v_addr 4 (p_view n) i j = v_addr 4 (whole (Cont Dense false columnMajor n n 64)) i' j' -> i = i' /\ j = j').
  { intros n c Hc Hn i j i' j' (H1 & H2 & H3) (H4 & H5 & H6) E. exfalso. revert E. destruct n as [|[|[|[|[|[|[|n]]]]]]]; cbn; lia. }
  cbv zeta. split; split.
  - constructor; try (cbv; repeat split; auto; lia); try (cbv; intros; auto; discriminate). apply (SAME 4 0); lia.
  - cbn. lia.
  - constructor; try (cbv; repeat split; auto; lia); try (cbv; intros; auto; discriminate). apply (SAME 6 0); lia.
  - split; [|split; [reflexivity|vm_compute; reflexivity]].
    intros i j i' k (H1 & H2 & H3) Hi' Hk E. cbn in *. assert (j = 4 \/ j = 5) as [-> | ->] by lia; reflexivity.
Qed.
