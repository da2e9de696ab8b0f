(** Syrk_Proofs.v -- dense syrkLower. *)
From Coq Require Import Arith Lia List Bool PeanoNat ZArith.
From Verif Require Import Base Base_Proofs Spec Algebra_Proofs Layout_Model Layout_Proofs Simd_Model Simd_Proofs
  Reg_Model Reg_Proofs Reg_Proofs2 Vec_Proofs Tile_Model Tile_Proofs Gemm_Model Gemm_Proofs Ger_Model Ger_Proofs Syrk_Model.
Import ListNotations.

Lemma steps_shift : forall j step cond cond' fuel i, (forall x, cond (j + x) = cond' x) ->
  steps fuel cond step (j + i) = (map (fun x => j + x) (fst (steps fuel cond' step i)), j + snd (steps fuel cond' step i)).
Proof.
  intros j step cond cond' fuel; induction fuel as [|f IH]; intros i H; cbn [steps]; [reflexivity|].
  rewrite H. destruct (cond' i); [|reflexivity]. rewrite <- Nat.add_assoc. rewrite IH by auto. reflexivity.
Qed.

Definition shift_call (j : nat) (c : call) : call :=
  Call (k_rm c) (k_n c) (j + k_i c) (k_j c) (k_m c) (k_nn c) (k_full c).

Lemma FOP_map : forall A B (R : B -> B -> Prop) (f : A -> B) l, ForallOrdPairs (fun x y => R (f x) (f y)) l -> ForallOrdPairs R (map f l).
Proof.
  intros A B R f l H. induction H; cbn; constructor; auto. apply Forall_map. exact H.
Qed.

Section Syrk.
Variable SS : nat.
Hypothesis HSS : 0 < SS.
Variable cc : nat.
Hypothesis Hcc : 0 < cc.
Notation TS := (TS SS cc).
Let HT : 0 < TS. Proof. apply TS_pos; auto. Qed.

Lemma syrk_column_shift : forall full M j cols, j <= M ->
  syrk_column SS cc full M j cols = map (shift_call j) (tile_column TS TS full (M - j) j cols).
Proof.
  intros full M j cols Hj. unfold syrk_column, tile_column.
  set (f := M - j + 1).
  assert (L : forall a b, (j + a + b <=? M) = (a + b <=? M - j)).
  { intros. destruct (Nat.leb_spec (j + a + b) M), (Nat.leb_spec (a + b) (M - j)); auto; lia. }
  assert (E : forall a b, (j + a + b =? M) = (a + b =? M - j)).
  { intros. destruct (Nat.eqb_spec (j + a + b) M), (Nat.eqb_spec (a + b) (M - j)); auto; lia. }
  assert (S3 : steps f (fun i => (i + 3 * TS <=? M) && negb (i + 4 * TS =? M)) (3 * TS) j =
    let r := steps f (fun i => (i + 3 * TS <=? M - j) && negb (i + 4 * TS =? M - j)) (3 * TS) 0 in (map (fun x => j + x) (fst r), j + snd r)).
  { cbv zeta. pose proof (steps_shift j (3 * TS) (fun i => (i + 3 * TS <=? M) && negb (i + 4 * TS =? M))
      (fun i => (i + 3 * TS <=? M - j) && negb (i + 4 * TS =? M - j)) f 0) as X. rewrite Nat.add_0_r in X. apply X.
    intros x. rewrite L, E. reflexivity. }
  rewrite S3. cbv zeta. cbn [fst snd].
  rewrite (steps_shift j (2 * TS) (fun i => i + 2 * TS <=? M) (fun i => i + 2 * TS <=? M - j)) by (intros; apply L). cbn [fst snd].
  rewrite (steps_shift j (1 * TS) (fun i => i + 1 * TS <=? M) (fun i => i + 1 * TS <=? M - j)) by (intros; apply L). cbn [fst snd].
  rewrite !map_app, !map_map. apply f_equal2; [reflexivity|]. apply f_equal2; [reflexivity|]. apply f_equal2; [reflexivity|].
  set (z := snd _).
  destruct (Nat.ltb_spec (j + z) M), (Nat.ltb_spec z (M - j)); try lia; auto.
  cbn [map shift_call k_rm k_n k_i k_j k_m k_nn k_full]. unfold shift_call. cbn. do 2 f_equal. lia.
Qed.

(** What every call of syrkLower satisfies. *)
Definition syrk_ok (M : nat) (c : call) : Prop := call_ok TS TS M M c /\ k_j c <= k_i c.

Section Col.
Variables (full : bool) (M j cols : nat).
Hypothesis Hc : 1 <= cols <= TS.
Hypothesis Hfull : full = true <-> cols = TS.
Hypothesis Hjn : j + cols <= M.
Hypothesis Hj : exists q, j = TS * q.
Notation L := (syrk_column SS cc full M j cols).
Lemma sc_ok : forall c, In c L -> syrk_ok M c /\ k_j c = j /\ k_nn c = cols.
Proof.
  intros c H. rewrite syrk_column_shift in H by lia. apply in_map_iff in H. destruct H as (d & <- & Hd).
  apply (col_ok TS HT TS HT full (M - j) M j cols) in Hd; auto.
  destruct Hd as ((T1 & T2 & (q & T3) & (q' & T4) & T5 & T6 & T7 & T8 & T9 & (q'' & T10) & T11) & E1 & E2).
  destruct Hj as [qj Eqj].
  unfold syrk_ok, call_ok, shift_call. cbn [k_rm k_n k_i k_j k_m k_nn k_full].
  repeat split; try lia; try tauto.
  - exists (qj + q). lia.
  - exists q'. lia.
  - exists (qj + q''). lia.
Qed.
Lemma sc_disj : ForallOrdPairs disjoint_calls L.
Proof.
  rewrite syrk_column_shift by lia. apply FOP_map. eapply FOP_impl; [|apply (col_disj TS HT TS HT full (M - j) M j cols Hc Hfull Hjn)].
  intros c d H x y [A1 A2] [B1 B2]. unfold shift_call in *. cbn in *. apply (H (x - j) y); split; lia.
Qed.
Lemma sc_cover : forall x y, j <= x < M -> j <= y < j + cols -> exists c, In c L /\ in_call c x y.
Proof.
  intros x y Hx Hy. destruct (col_cover TS HT TS HT full (M - j) M j cols Hc Hfull Hjn (x - j) y) as (c & Hi & [A B]); auto; try lia.
  exists (shift_call j c). split.
  - rewrite syrk_column_shift by lia. apply in_map. auto.
  - unfold in_call, shift_call. cbn. lia.
Qed.
End Col.

Lemma syrk_calls_ok : forall M,
  (forall c, In c (syrk_calls SS cc M) -> syrk_ok M c) /\
  ForallOrdPairs disjoint_calls (syrk_calls SS cc M) /\
  (forall x y, y <= x < M -> exists c, In c (syrk_calls SS cc M) /\ in_call c x y).
Proof.
  intros M. unfold syrk_calls. set (rj := steps (M + 1) (fun j => j + TS <=? M) TS 0).
  pose proof (row_final TS HT TS HT M) as (F1 & F2 & F3). fold rj in F1, F2, F3.
  assert (FJ : forall j, In j (fst rj) -> j + TS <= M /\ j + TS <= snd rj /\ exists q, j = TS * q) by (intros; apply (row_inj TS HT TS HT M); auto).
  split; [|split].
  - intros c H. apply in_app_or in H. destruct H as [H|H].
    + apply in_concat in H. destruct H as (l & Hl & Hc). apply in_map_iff in Hl. destruct Hl as (j & <- & Hj).
      destruct (FJ j Hj) as (A & B & C). apply sc_ok in Hc; try tauto; lia.
    + destruct (Nat.ltb_spec (snd rj) M); [|destruct H]. apply sc_ok in H; try tauto; try lia.
  - apply FOP_app.
    + apply FOP_steps_concat.
      * intros x Hx. destruct (FJ x Hx) as (A & B & C). apply sc_disj; lia.
      * intros x y u v Hxy Hu Hv Hx Hy.
        destruct (FJ x Hx) as (A & B & C). destruct (FJ y Hy) as (A' & B' & C').
        apply sc_ok in Hu; try tauto; try lia. apply sc_ok in Hv; try tauto; try lia.
        intros a b [_ H1] [_ H2]. lia.
    + destruct (Nat.ltb_spec (snd rj) M); [|constructor]. apply sc_disj; lia.
    + intros u v Hu Hv. destruct (Nat.ltb_spec (snd rj) M); [|destruct Hv].
      apply in_concat in Hu. destruct Hu as (l & Hl & Hc). apply in_map_iff in Hl. destruct Hl as (j & <- & Hj).
      destruct (FJ j Hj) as (A & B & C). apply sc_ok in Hc; try tauto; try lia.
      apply sc_ok in Hv; try tauto; try lia. intros a b [_ H1] [_ H2]. lia.
  - intros x y Hxy. destruct (Nat.lt_ge_cases y (snd rj)) as [L|L].
    + destruct (steps_cover (fun j => j + TS <=? M) TS (M + 1) 0 y) as (k & Hk & Hk2); [exact HT|fold rj; lia|]. fold rj in Hk.
      destruct (FJ k Hk) as (A & B & C).
      destruct (sc_cover true M k TS) with (x := x) (y := y) as (c & Hi & Hp); try tauto; try lia.
      exists c. split; auto. apply in_or_app. left. apply in_concat. exists (syrk_column SS cc true M k TS). split; auto.
      apply in_map_iff. exists k. auto.
    + destruct (sc_cover false M (snd rj) (M - snd rj)) with (x := x) (y := y) as (c & Hi & Hp); try tauto; try lia.
      exists c. split; auto. apply in_or_app. right. destruct (Nat.ltb_spec (snd rj) M); [auto|lia].
Qed.

(** The blocks of a block column have its full width, or reach the last column. *)
Lemma syrk_calls_wide : forall M c, In c (syrk_calls SS cc M) -> k_nn c = TS \/ (k_nn c < TS /\ k_j c + k_nn c = M).
Proof.
  intros M c. unfold syrk_calls. set (rj := steps (M + 1) (fun j => j + TS <=? M) TS 0).
  pose proof (row_final TS HT TS HT M) as (F1 & F2 & F3). fold rj in F1, F2, F3.
  assert (FJ : forall j, In j (fst rj) -> j + TS <= M /\ j + TS <= snd rj /\ exists q, j = TS * q) by (intros; apply (row_inj TS HT TS HT M); auto).
  intros H. apply in_app_or in H. destruct H as [H|H].
  - apply in_concat in H. destruct H as (l & Hl & Hc). apply in_map_iff in Hl. destruct Hl as (j & <- & Hj).
    destruct (FJ j Hj) as (A & B & C). apply sc_ok in Hc; try tauto; lia.
  - destruct (Nat.ltb_spec (snd rj) M); [|destruct H]. apply sc_ok in H; try tauto; try lia.
Qed.
Lemma syrk_calls_cover : forall M x y, TS * (y / TS) <= x < M -> y < M -> exists c, In c (syrk_calls SS cc M) /\ in_call c x y.
Proof.
  intros M x y Hx Hy. unfold syrk_calls. set (rj := steps (M + 1) (fun j => j + TS <=? M) TS 0).
  pose proof (row_final TS HT TS HT M) as (F1 & F2 & F3). fold rj in F1, F2, F3.
  assert (FJ : forall j, In j (fst rj) -> j + TS <= M /\ j + TS <= snd rj /\ exists q, j = TS * q) by (intros; apply (row_inj TS HT TS HT M); auto).
  pose proof (Nat.div_mod y TS ltac:(lia)) as DM. pose proof (Nat.mod_upper_bound y TS ltac:(lia)) as MB.
  destruct (Nat.lt_ge_cases y (snd rj)) as [L|L].
  - destruct (steps_cover (fun j => j + TS <=? M) TS (M + 1) 0 y) as (k & Hk & Hk2); [exact HT|fold rj; lia|]. fold rj in Hk.
    destruct (FJ k Hk) as (A & B & (q & C)). assert (q = y / TS) by nia.
    destruct (sc_cover true M k TS) with (x := x) (y := y) as (c & Hi & Hp); try tauto; try lia.
    exists c. split; auto. apply in_or_app. left. apply in_concat. exists (syrk_column SS cc true M k TS). split; auto.
    apply in_map_iff. exists k. auto.
  - destruct F3 as (q & F3). assert (q <= y / TS) by nia. assert (TS * q <= TS * (y / TS)) by (apply Nat.mul_le_mono_l; auto).
    destruct (sc_cover false M (snd rj) (M - snd rj)) with (x := x) (y := y) as (c & Hi & Hp); try tauto; try lia.
    exists c. split; auto. apply in_or_app. right. destruct (Nat.ltb_spec (snd rj) M); [auto|lia].
Qed.

Variable T : Type.
Variable O : Ops T.
Notation addr := (addr SS).
Notation poff := (poff SS).
Notation reg_at := (reg_at SS T).
Notation readable := (readable SS).

(** A dense column-major view whose elements start at a SIMD boundary. *)
Definition dense_cm (v : view) : Prop :=
  cont_wf SS (v_cont v) /\ c_kind (v_cont v) = Dense /\ c_so (v_cont v) = columnMajor /\ v_i v mod SS = 0.
Lemma dptr_wf : forall v i j, dense_cm v -> i mod SS = 0 -> mptr_wf SS (v_ptr SS true v i j).
Proof.
  intros v i j (H1 & H2 & H3 & H4) Hi. apply v_ptr_wf; auto. rewrite H3. intros _. split; auto.
  rewrite Nat.add_mod, H4, Hi by lia. apply Nat.mod_0_l. lia.
Qed.
Lemma dptr_addr : forall v i j k l, dense_cm v -> addr (v_ptr SS true v i j) k l = v_addr SS v (i + k) (j + l).
Proof. intros v i j k l (H1 & H2 & H3 & H4). apply v_ptr_addr; auto. rewrite H2. discriminate. Qed.
Lemma dptr_lane : forall v i j, dense_cm v -> lane_ok SS (v_ptr SS true v i j).
Proof. intros v i j (H1 & H2 & H3 & H4) K. cbn in K. congruence. Qed.
Lemma dptr_so : forall v i j, dense_cm v -> mp_so (v_ptr SS true v i j) = columnMajor.
Proof. intros v i j (H1 & H2 & H3 & H4). exact H3. Qed.
Lemma dptr_store : forall v i j, dense_cm v -> store_ok (v_ptr SS true v i j).
Proof. intros v i j _ _. reflexivity. Qed.

Definition syrk_elem (K : nat) (alpha : T) (a b : nat -> T) (beta c : T) : T :=
  fma_chain O K (fun k => omul O alpha (a k)) b (omul O beta c).

(** The elements of C that are read: in every block column from the diagonal block on; up to the last row, with its padding if C is not a window, and in an
    incomplete last block column up to the end of the last block. *)
Definition syrk_last (M : nat) (pf : bool) (j : nat) : nat :=
  if TS * (j / TS) + TS <=? M then (if pf then nextMultiple M SS else M) else nextMultiple M TS.
Lemma syrk_last_bound : forall M pf j, syrk_last M pf j <= nextMultiple M TS.
Proof.
  intros M pf j. destruct (nextMultiple_spec M TS HT) as (X1 & X2 & _). unfold syrk_last. destruct (_ <=? M); auto. destruct pf; [|lia].
  apply nextMultiple_least; auto. apply mod0_ex in X2; auto. destruct X2 as [z ->]. unfold Ger_Model.TS. rewrite (Nat.mul_comm cc SS), <- Nat.mul_assoc, Nat.mul_comm. apply Nat.mod_mul. lia.
Qed.

Lemma syrk_call_ok : forall al alpha A beta C D m0,
  let M := v_m A in let K := v_n A in
  dense_cm A -> dense_cm C -> dense_cm D ->
  v_m C = M -> v_n C = M -> v_m D = M -> v_n D = M ->
  allocated al (nextMultiple M TS) K (v_addr SS A) -> (forall i j, j < M -> TS * (j / TS) <= i < syrk_last M (v_pf C) j -> al (v_addr SS C i j) = true) ->
  (forall i j, lower M M i j -> al (v_addr SS D i j) = true) ->
  (forall i j i' j', lower M M i j -> lower M M i' j' -> v_addr SS D i j = v_addr SS D i' j' -> i = i' /\ j = j') ->
  forall c m, In c (syrk_calls SS cc M) ->
  (forall i k, i < M -> k < K -> m (v_addr SS A i k) = m0 (v_addr SS A i k)) ->
  (forall i j, in_call c i j -> j <= i -> m (v_addr SS C i j) = m0 (v_addr SS C i j)) ->
  exists m', syrk_call SS cc T O al K alpha A beta C D c m = Ok m' /\
    updated (fun i j => in_call c i j /\ j <= i) (v_addr SS D)
      (fun i j => syrk_elem K alpha (fun k => m0 (v_addr SS A i k)) (fun k => m0 (v_addr SS A j k)) beta (m0 (v_addr SS C i j))) m m'.
Proof.
  intros al alpha A beta C D m0 M K HA HC HD zC1 zC2 zD1 zD2 Ra Rc Rd Hd c m Hc HAg HCg.
  destruct (syrk_calls_ok M) as (TA & _ & _).
  specialize (TA c Hc). destruct TA as [TA Hij0].
    destruct TA as (T1 & T2 & (q & T3) & (q' & T4) & T5 & T6 & T7 & T8 & T9 & T10 & T11).
    set (i0 := k_i c) in *. set (j0 := k_j c) in *.
    assert (Hi1 : i0 mod TS = 0) by (apply ex_mod0 with q; auto).
    assert (Hi0 : i0 mod SS = 0) by (apply (TS_mod SS HSS cc Hcc); auto).
    assert (Hj0 : j0 mod SS = 0) by (apply (TS_mod SS HSS cc Hcc); apply ex_mod0 with q'; auto).
    assert (ERM : k_rm c * cc * SS = k_rm c * TS) by (unfold Ger_Model.TS; lia).
    assert (Hup : i0 + k_rm c * TS <= nextMultiple M TS) by (apply up_block; auto; apply Nat.mod_mul; lia).
    assert (Hjup : j0 + k_n c <= nextMultiple M TS).
    { rewrite T2. apply up_block; auto. apply ex_mod0 with q'; auto. apply Nat.mod_same; lia. lia. }
    pose proof (dptr_wf C i0 j0 HC Hi0) as WC. pose proof (dptr_wf A i0 0 HA Hi0) as WA.
    pose proof (ptrans_wf SS HSS _ (dptr_wf A j0 0 HA Hj0)) as WB. pose proof (dptr_wf D i0 j0 HD Hi0) as WD.
    set (pc := v_ptr SS true C i0 j0) in *. set (pd := v_ptr SS true D i0 j0) in *. set (pa := v_ptr SS true A i0 0) in *.
    set (pb := ptrans SS (v_ptr SS true A j0 0)) in *.
    assert (EC : forall u v, addr pc u v = v_addr SS C (i0 + u) (j0 + v)) by (intros; apply dptr_addr; auto).
    assert (ED : forall u v, addr pd u v = v_addr SS D (i0 + u) (j0 + v)) by (intros; apply dptr_addr; auto).
    assert (EA : forall u v, addr pa u v = v_addr SS A (i0 + u) v) by (intros; apply dptr_addr; auto).
    assert (EB : forall u v, addr pb u v = v_addr SS A (j0 + v) u).
    { intros. unfold pb. rewrite addr_ptrans by auto. apply dptr_addr; auto. }
    pose proof (punalign_wf SS pb WB) as WB'.
    assert (EB' : forall u v, addr (punalign SS pb) u v = v_addr SS A (j0 + v) u) by (intros; rewrite addr_punalign by auto; apply EB).
    (* the accumulation *)
    assert (G : forall cj r st, (forall k r, st k r = (ax <- load_col SS T O al (k_rm c * cc) (VMat columnVector (poff pa 0 k)) (fun x : vec T => vmul T O (vbroadcast T alpha) x) m ;;
                         ger_update SS T O al (k_n c) (k_rm c * cc) cj ax (VMat rowVector (poff (punalign SS pb) k 0)) m r)) ->
      exists r', for_ 0 K st r = Ok r' /\
      forall i j, i < k_rm c * TS -> j < k_n c -> cj j = true -> reg_at r' i j =
       fma_chain O K (fun k => omul O alpha (m (v_addr SS A (i0 + i) k))) (fun k => m (v_addr SS A (j0 + j) k)) (reg_at r i j)).
    { intros cj r st Hst.
      destruct (ger_loop_ok SS HSS T O al (k_n c) (k_rm c * cc) K cj (fun x : vec T => vmul T O (vbroadcast T alpha) x) (fun x => omul O alpha x)
         pa (punalign SS pb) m r st) as (r' & E & P & _); auto.
      - apply dptr_so; auto.
      - apply dptr_lane; auto.
      - cbn. discriminate.
      - intros i k Hi Hk. rewrite EA. apply Ra; lia.
      - intros k j Hk Hj _. rewrite EB'. apply Ra; lia.
      - exists r'. split; auto. intros i j Hi Hj Cj. rewrite P by (auto; lia).
        apply fma_chain_ext; intros k Hk; [rewrite EA|rewrite EB']; reflexivity. }
    assert (DD : forall (P : nat -> nat -> Prop), (forall u v, P u v -> lower M M (i0 + u) (j0 + v)) ->
      forall u v u' v', P u v -> P u' v' -> addr pd u v = addr pd u' v' -> u = u' /\ v = v').
    { intros P HP u v u' v' X Y E. rewrite !ED in E. apply Hd in E; auto. lia. }
    assert (LOW : i0 <> j0 -> forall i j, in_call c i j -> j <= i).
    { intros Ne i j [X Y]. fold i0 j0 in X, Y. assert (q' < q) by nia. assert (TS * (q' + 1) <= TS * q) by (apply Nat.mul_le_mono_l; lia). lia. }
    assert (JD : forall v, v < TS -> TS * ((j0 + v) / TS) = j0).
    { intros v Hv. rewrite T4 at 1. rewrite (Nat.mul_comm TS q'), Nat.div_add_l by lia. rewrite Nat.div_small by lia. lia. }
    unfold syrk_call. cbv zeta. fold i0 j0. fold pc pd pa pb. destruct (k_full c) eqn:F.
    + assert (X : k_m c = k_rm c * TS /\ k_nn c = k_n c) by tauto. destruct X as [X1 X2].
      destruct (reg_loadb_ok SS HSS T O al (k_n c) (k_rm c * cc) beta pc m (reg0 T O) WC (dptr_so C i0 j0 HC)) as (r1 & E1 & P1).
      { intros u v Hu Hv. rewrite EC. apply Rc; [lia|]. unfold syrk_last. rewrite JD by lia. destruct (Nat.leb_spec (j0 + TS) M); [|lia]. destruct (nextMultiple_spec M SS HSS) as (NM & _ & _). destruct (v_pf C); lia. }
      rewrite E1. cbn [bind]. unfold reg_gemm. rewrite cm_only_ok by (try assumption; eauto using dptr_so).
      destruct (G always r1 (fun k r => reg_ger_alpha SS T O al (k_n c) (k_rm c * cc) alpha (VMat columnVector (poff pa 0 k))
            (VMat rowVector (poff (punalign SS pb) k 0)) m r)) as (r2 & E2 & P2); [reflexivity|].
      rewrite E2. cbn [bind].
      assert (VAL : forall u v, u < k_rm c * TS -> v < k_n c -> j0 + v <= i0 + u ->
         reg_at r2 u v = syrk_elem K alpha (fun k => m0 (v_addr SS A (i0 + u) k)) (fun k => m0 (v_addr SS A (j0 + v) k)) beta (m0 (v_addr SS C (i0 + u) (j0 + v)))).
      { intros u v Hu Hv Hl. rewrite P2 by auto. rewrite P1 by lia. unfold syrk_elem. rewrite EC.
        rewrite HCg by (unfold in_call; fold i0 j0; lia).
        apply fma_chain_ext; intros k Hk; rewrite HAg by lia; reflexivity. }
      destruct (Nat.eqb_spec i0 j0) as [Eij|Nij].
      * destruct (reg_storeLower_region SS HSS T al (k_n c) (k_rm c * cc) pd r2 WD (dptr_so D i0 j0 HD) (dptr_store D i0 j0 HD)) as (W & E & R).
        { intros u v Hu Hv. rewrite ED. apply Rd. unfold lower. lia. }
        destruct (region_writes T _ W _ _ _ E R) with (m := m) as (m' & Em & U).
        { apply DD. intros u v Huv. unfold lower. lia. }
        exists m'. split; [exact Em|].
        apply (lift_block T (v_addr SS D) (addr pd) i0 j0 (fun i j => j <= i < k_rm c * cc * SS /\ j < k_n c) (fun i j => in_call c i j /\ j <= i) _ (reg_at r2)); auto.
        -- intros u v Huv. apply VAL; lia.
        -- intros i j. unfold in_call. fold i0 j0. lia.
      * destruct (reg_store_region SS HSS T al (k_n c) (k_rm c * cc) pd r2 WD (dptr_so D i0 j0 HD) (dptr_store D i0 j0 HD)) as (W & E & R).
        { intros u v Hu Hv. rewrite ED. apply Rd. unfold lower. pose proof (LOW Nij (i0 + u) (j0 + v)) as Y. unfold in_call in Y. fold i0 j0 in Y. lia. }
        destruct (region_writes T _ W _ _ _ E R) with (m := m) as (m' & Em & U).
        { apply DD. intros u v Huv. unfold lower. pose proof (LOW Nij (i0 + u) (j0 + v)) as Y. unfold in_call in Y. fold i0 j0 in Y. lia. }
        exists m'. split; [exact Em|].
        apply (lift_block T (v_addr SS D) (addr pd) i0 j0 (fun i j => i < k_rm c * cc * SS /\ j < k_n c) (fun i j => in_call c i j /\ j <= i) _ (reg_at r2)); auto.
        -- intros u v Huv. apply VAL; try lia. pose proof (LOW Nij (i0 + u) (j0 + v)) as Y. unfold in_call in Y. fold i0 j0 in Y. lia.
        -- intros i j. pose proof (LOW Nij i j) as Y. unfold in_call in *. fold i0 j0 in Y |- *. lia.
    + set (lr := if k_nn c <? TS then k_rm c * TS else k_m c).
      assert (Hlr : k_m c <= lr <= k_rm c * TS) by (unfold lr; destruct (_ <? _); lia).
      assert (Hlr2 : i0 + nextMultiple lr SS <= nextMultiple M TS).
      { assert (nextMultiple lr SS <= k_rm c * TS).
        { apply nextMultiple_least; [auto|lia|]. rewrite <- ERM. apply Nat.mod_mul. lia. }
        lia. }
      destruct (nextMultiple_spec lr SS HSS) as (NL & _ & _).
      destruct (reg_loadb_mn_ok SS HSS T O al (k_n c) (k_rm c * cc) beta pc lr (k_nn c) m (reg0 T O) WC (dptr_so C i0 j0 HC) (dptr_lane C i0 j0 HC)) as (r1 & E1 & P1 & _).
      { lia. }
      { assert (LM : k_nn c = TS -> i0 + nextMultiple lr SS <= nextMultiple M SS).
        { intros W. unfold lr. rewrite W. rewrite (proj2 (Nat.ltb_ge _ _)) by lia. destruct (nextMultiple_spec M SS HSS) as (NM & ND & _).
          assert (nextMultiple (k_m c) SS <= nextMultiple M SS - i0); [|lia]. apply nextMultiple_least; [auto|lia|].
          apply mod0_ex in ND; auto. apply mod0_ex in Hi0; auto. destruct ND as [z1 ->], Hi0 as [z2 ->]. rewrite <- Nat.mul_sub_distr_l, Nat.mul_comm. apply Nat.mod_mul. lia. }
        assert (MP : mp_af pc && mp_pf pc = v_pf C) by reflexivity. rewrite MP.
        assert (RD : forall u v, u < (if v_pf C then nextMultiple lr SS else lr) -> v < k_nn c -> al (v_addr SS C (i0 + u) (j0 + v)) = true).
        { intros u v Hu Hv. apply Rc; [lia|]. unfold syrk_last. rewrite JD by lia. destruct (syrk_calls_wide M c Hc) as [W|[W1 W2]].
          - specialize (LM W). fold j0 in T8. rewrite W in T8. rewrite (proj2 (Nat.leb_le _ _) T8).
            assert (LR : lr = k_m c) by (unfold lr; rewrite W, (proj2 (Nat.ltb_ge TS TS)) by lia; reflexivity). rewrite LR in *. destruct (v_pf C); lia.
          - fold j0 in W2. destruct (Nat.leb_spec (j0 + TS) M); [lia|]. destruct (v_pf C); lia. }
        destruct (v_pf C); intros u v Hu Hv; rewrite EC; apply RD; lia. }
      rewrite E1. cbn [bind]. unfold reg_gemm_mn. rewrite cm_only_ok by (try assumption; eauto using dptr_so).
      destruct (G (fun j => j <? k_nn c) r1 (fun k r => reg_ger_alpha_mn SS T O al (k_n c) (k_rm c * cc) alpha (VMat columnVector (poff pa 0 k))
            (VMat rowVector (poff (punalign SS pb) k 0)) (k_m c) (k_nn c) m r)) as (r2 & E2 & P2); [reflexivity|].
      rewrite E2. cbn [bind].
      assert (VAL : forall u v, u < k_m c -> v < k_nn c -> j0 + v <= i0 + u ->
         reg_at r2 u v = syrk_elem K alpha (fun k => m0 (v_addr SS A (i0 + u) k)) (fun k => m0 (v_addr SS A (j0 + v) k)) beta (m0 (v_addr SS C (i0 + u) (j0 + v)))).
      { intros u v Hu Hv Hl. rewrite P2 by (try lia; apply Nat.ltb_lt; lia). rewrite P1 by lia. unfold syrk_elem. rewrite EC.
        rewrite HCg by (unfold in_call; fold i0 j0; lia).
        apply fma_chain_ext; intros k Hk; rewrite HAg by lia; reflexivity. }
      destruct (Nat.eqb_spec i0 j0) as [Eij|Nij].
      * destruct (reg_storeLower_mn_region SS HSS T al (k_n c) (k_rm c * cc) pd r2 WD (dptr_so D i0 j0 HD) (dptr_store D i0 j0 HD) (k_m c) (k_nn c)) as (W & E & R); try lia.
        { intros u v Hu Hv. rewrite ED. apply Rd. unfold lower. lia. }
        destruct (region_writes T _ W _ _ _ E R) with (m := m) as (m' & Em & U).
        { apply DD. intros u v Huv. unfold lower. lia. }
        exists m'. split; [exact Em|].
        apply (lift_block T (v_addr SS D) (addr pd) i0 j0 (fun i j => j <= i < k_m c /\ j < k_nn c) (fun i j => in_call c i j /\ j <= i) _ (reg_at r2)); auto.
        -- intros u v Huv. apply VAL; lia.
        -- intros i j. unfold in_call. fold i0 j0. lia.
      * destruct (reg_store_mn_region SS HSS T al (k_n c) (k_rm c * cc) pd r2 WD (dptr_so D i0 j0 HD) (dptr_store D i0 j0 HD) (k_m c) (k_nn c)) as (W & E & R); try lia.
        { intros u v Hu Hv. rewrite ED. apply Rd. unfold lower. pose proof (LOW Nij (i0 + u) (j0 + v)) as Y. unfold in_call in Y. fold i0 j0 in Y. lia. }
        destruct (region_writes T _ W _ _ _ E R) with (m := m) as (m' & Em & U).
        { apply DD. intros u v Huv. unfold lower. pose proof (LOW Nij (i0 + u) (j0 + v)) as Y. unfold in_call in Y. fold i0 j0 in Y. lia. }
        exists m'. split; [exact Em|].
        apply (lift_block T (v_addr SS D) (addr pd) i0 j0 (fun i j => i < k_m c /\ j < k_nn c) (fun i j => in_call c i j /\ j <= i) _ (reg_at r2)); auto.
        -- intros u v Huv. apply VAL; try lia. pose proof (LOW Nij (i0 + u) (j0 + v)) as Y. unfold in_call in Y. fold i0 j0 in Y. lia.
        -- intros i j. pose proof (LOW Nij i j) as Y. unfold in_call in *. fold i0 j0 in Y |- *. lia.
Qed.

Lemma syrk_ok_thm : forall al alpha A beta C D m0,
  let M := v_m A in let K := v_n A in
  dense_cm A -> dense_cm C -> dense_cm D ->
  v_m C = M -> v_n C = M -> v_m D = M -> v_n D = M ->
  allocated al (nextMultiple M TS) K (v_addr SS A) -> (forall i j, j < M -> TS * (j / TS) <= i < syrk_last M (v_pf C) j -> al (v_addr SS C i j) = true) ->
  (forall i j, lower M M i j -> al (v_addr SS D i j) = true) ->
  (forall i j i' j', lower M M i j -> lower M M i' j' -> v_addr SS D i j = v_addr SS D i' j' -> i = i' /\ j = j') ->
  (forall i j i' k, lower M M i j -> i' < M -> k < K -> v_addr SS D i j <> v_addr SS A i' k) ->
  (forall i j i' j', lower M M i j -> lower M M i' j' -> v_addr SS D i j = v_addr SS C i' j' -> i = i' /\ j = j') ->
  exists m', syrkLower SS cc T O al alpha A beta C D m0 = Ok m' /\
    updated (lower M M) (v_addr SS D)
      (fun i j => syrk_elem K alpha (fun k => m0 (v_addr SS A i k)) (fun k => m0 (v_addr SS A j k)) beta (m0 (v_addr SS C i j))) m0 m'.
Proof.
  intros al alpha A beta C D m0 M K HA HC HD zC1 zC2 zD1 zD2 Ra Rc Rd Hd SA SC.
  unfold syrkLower. fold M K. rewrite zC1, zC2, zD1, zD2, !Nat.eqb_refl. cbn [andb negb].
  destruct (syrk_calls_ok M) as (TA & TB & TC).
  apply (tiled call T _ _ (fun c i j => in_call c i j /\ j <= i) (lower M M) (v_addr SS D)).
  - intros c i j Hc [Hij Hl]. apply TA in Hc. unfold syrk_ok, call_ok, in_call, lower in *. lia.
  - intros i j (H1 & H2 & H3). destruct (TC i j) as (c & Hc & Hp); [lia|]. exists c. auto.
  - exact Hd.
  - eapply FOP_impl; [|exact TB]. intros c d X i j [Y _] [Z _]. apply (X i j); auto.
  - intros c m Hc Hag. specialize (TA c Hc). unfold syrk_ok, call_ok in TA. apply syrk_call_ok; auto.
    + intros i k Hi Hk. apply Hag. intros i' j' Hl _ X. symmetry in X. apply (SA i' j' i k); auto.
    + intros u v Huv Hl. apply Hag. intros i j Hij Hn X.
      destruct (SC i j u v) as [-> ->]; auto. unfold in_call, lower in *; lia.
Qed.
End Syrk.
