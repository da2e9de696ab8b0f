(** Reg_Proofs2.v -- scaled partial load, triangular solve, Cholesky and trmm on register matrices. *)
From Coq Require Import Arith Lia List Bool PeanoNat ZArith.
From Verif Require Import Base Base_Proofs Spec Layout_Model Layout_Proofs Simd_Model Simd_Proofs Reg_Model Reg_Proofs.
Import ListNotations.

Section Reg.
Variable SS : nat.
Hypothesis HSS : 0 < SS.
Variable T : Type.
Variable O : Ops T.
Notation vec := (vec T).
Notation regs := (regs T).
Notation addr := (addr SS).
Notation poff := (poff SS).
Notation reg_at := (reg_at SS T).
Notation up m := (nextMultiple m SS).

(** A column loop: every register i < RM with (ci i) of column j gets g r i (r i j), where g may look at the
    registers of the other columns. *)
Lemma col_mapc : forall RM j (ci : nat -> bool) (g : regs -> nat -> vec -> vec) r,
  (forall i v r0 r1, (forall i' j', j' <> j -> r0 i' j' = r1 i' j') -> g r0 i v = g r1 i v) ->
  exists r', for_ 0 RM (fun i r => if ci i then Ok (rupd T r i j (g r i (r i j))) else Ok r) r = Ok r' /\
    (forall i, i < RM -> ci i = true -> r' i j = g r i (r i j)) /\
    (forall i' j', ~ (i' < RM /\ ci i' = true /\ j' = j) -> r' i' j' = r i' j').
Proof.
  intros RM j ci g r Hg.
  destruct (for_inv regs (fun k r' =>
    (forall i, i < k -> ci i = true -> r' i j = g r i (r i j)) /\
    (forall i' j', ~ (i' < k /\ ci i' = true /\ j' = j) -> r' i' j' = r i' j')) 0 RM
    (fun i r => if ci i then Ok (rupd T r i j (g r i (r i j))) else Ok r) r) as (r' & E & A & B).
  - lia.
  - split; [intros; lia|auto].
  - intros i r0 Hi (A & B). destruct (ci i) eqn:C.
    + eexists. split; [reflexivity|]. split.
      * intros i' Hi' C'. destruct (Nat.eq_dec i' i) as [->|N].
        -- rewrite rupd_same. rewrite (B i j) by lia. apply Hg. intros i' j' Hj. apply B. tauto.
        -- rewrite rupd_other by auto. apply A; auto. lia.
      * intros i' j' X. rewrite rupd_other.
        -- apply B. intros (Y & Z & W). apply X. repeat split; auto.
        -- destruct (Nat.eq_dec i' i) as [->|]; auto. right. intros ->. apply X. repeat split; auto.
    + exists r0. split; auto. split.
      * intros i' Hi' C'. apply A; auto. assert (i' <> i) by congruence. lia.
      * intros i' j' X. apply B. intros (Y & Z & W). apply X. repeat split; auto.
  - exists r'. split; auto.
Qed.

Lemma col_map : forall RM j (g : regs -> nat -> vec -> vec) r,
  (forall i v r0 r1, (forall i' j', j' <> j -> r0 i' j' = r1 i' j') -> g r0 i v = g r1 i v) ->
  exists r', for_ 0 RM (fun i r => Ok (rupd T r i j (g r i (r i j)))) r = Ok r' /\
    (forall i, i < RM -> r' i j = g r i (r i j)) /\
    (forall i' j', ~ (i' < RM /\ j' = j) -> r' i' j' = r i' j').
Proof.
  intros RM j g r Hg. destruct (col_mapc RM j always g r Hg) as (r' & E & A & B).
  exists r'. split; [exact E|]. split.
  - intros i Hi. apply A; auto.
  - intros i' j' X. apply B. tauto.
Qed.

(** Columns one after another: if every body only changes its own column and establishes Q there. *)
Lemma cols_loop : forall N (cj : nat -> bool) (body : nat -> regs -> res regs) (Q : nat -> regs -> Prop) r,
  (forall j r0, j < N -> cj j = true -> exists r', body j r0 = Ok r' /\ Q j r' /\ forall i j', j' <> j -> r' i j' = r0 i j') ->
  (forall j r0 r1, (forall i, r0 i j = r1 i j) -> Q j r0 -> Q j r1) ->
  exists r', for_ 0 N (fun j r => if cj j then body j r else Ok r) r = Ok r' /\
    (forall j, j < N -> cj j = true -> Q j r') /\
    (forall i j, ~ (j < N /\ cj j = true) -> r' i j = r i j).
Proof.
  intros N cj body Q r H HQ.
  destruct (for_inv regs (fun k r' => (forall j, j < k -> cj j = true -> Q j r') /\
     (forall i j, ~ (j < k /\ cj j = true) -> r' i j = r i j)) 0 N (fun j r => if cj j then body j r else Ok r) r) as (r' & E & A & B).
  - lia.
  - split; [intros; lia|auto].
  - intros j r0 Hj (A & B). destruct (cj j) eqn:C.
    + destruct (H j r0 ltac:(lia) C) as (r' & E & Hq & Hk). exists r'. split; auto. split.
      * intros j' Hj' C'. destruct (Nat.eq_dec j' j) as [->|N']; auto.
        apply HQ with r0; [intros; symmetry; auto|]. apply A; auto. lia.
      * intros i j' X. destruct (Nat.eq_dec j' j) as [->|N']; [exfalso; apply X; auto|].
        rewrite Hk by auto. apply B. intros [Y Z]. apply X. auto.
    + exists r0. split; auto. split.
      * intros j' Hj' C'. apply A; auto. assert (j' <> j) by congruence. lia.
      * intros i j' X. apply B. intros [Y Z]. apply X. auto.
  - exists r'. split; auto.
Qed.

Lemma reg_loadb_mn_ok : forall al N RM beta p mm nn m r, mptr_wf SS p -> mp_so p = columnMajor -> lane_ok SS p ->
  mm <= RM * SS ->
  (if mp_af p && mp_pf p then readable SS al p (up mm) (min nn N) else readable SS al p mm (min nn N)) ->
  exists r', reg_loadb_mn SS T O al N RM beta p mm nn m r = Ok r' /\
    (forall i j, i < mm -> j < N -> j < nn -> reg_at r' i j = omul O beta (m (addr p i j))) /\
    (forall i j, nn <= j -> reg_at r' i j = reg_at r i j).
Proof.
  intros al N RM beta p mm nn m r Hwf Hso HL Hmm Hal. unfold reg_loadb_mn. rewrite cm_only_ok by auto.
  set (body := fun j r => if mp_af p && mp_pf p then
      for_ 0 RM (fun i r => if SS * i <? mm then
        x <- mp_load SS T O al (poff p (SS * i) j) m ;; Ok (rupd T r i j (vmul T O (vbroadcast T beta) x)) else Ok r) r
    else
      r <- for_ 0 RM (fun i r => if SS * i + SS <=? mm then
        x <- mp_load SS T O al (poff p (SS * i) j) m ;; Ok (rupd T r i j (vmul T O (vbroadcast T beta) x)) else Ok r) r ;;
      let rem := mm mod SS in
      if 0 <? rem then
        x <- mp_loadm SS T O al (poff p (mm - rem) j) (idx_lt (Z.of_nat rem)) m ;;
        Ok (rupd T r (mm / SS) j (vmul T O (vbroadcast T beta) x))
      else Ok r).
  destruct (cols_loop N (fun j => j <? nn) body
    (fun j r' => forall i, i < mm -> reg_at r' i j = omul O beta (m (addr p i j))) r) as (r' & E & A & B).
  - intros j r0 Hj C. apply Nat.ltb_lt in C. unfold body. destruct (mp_af p && mp_pf p).
    + destruct (col_loop SS HSS T RM (fun i => SS * i <? mm) j
        (fun i r => if SS * i <? mm then
          x <- mp_load SS T O al (poff p (SS * i) j) m ;; Ok (rupd T r i j (vmul T O (vbroadcast T beta) x)) else Ok r)
        (fun i _ => x <- mp_load SS T O al (poff p (SS * i) j) m ;; Ok (vmul T O (vbroadcast T beta) x))
        (fun i v => forall l, l < SS -> v l = omul O beta (m (addr p (SS * i + l) j))) r0) as (r1 & E1 & A1 & B1).
      * intros i r1 Hi. destruct (SS * i <? mm); auto.
        destruct (mp_load SS T O al (poff p (SS * i) j) m); reflexivity.
      * intros i Hi Ci. apply Nat.ltb_lt in Ci.
        destruct (load_block SS HSS T O al p (SS * i) j m) as (v & Ev & Hv); auto using mult_mod0.
        -- intros l Hl. apply Hal; [|lia]. apply up_reg; auto.
        -- rewrite Ev. simpl. eexists. split; [reflexivity|]. intros l Hl. unfold vmul, vbroadcast. rewrite Hv; auto.
      * exists r1. split; auto. split.
        -- intros i Hi. destruct (elem_split SS HSS i RM ltac:(lia)) as (X & Y & Z).
           rewrite Z at 2. unfold Reg_Model.reg_at. apply A1; auto. apply Nat.ltb_lt. lia.
        -- intros i j' N'. apply B1. tauto.
    + destruct (col_loop SS HSS T RM (fun i => SS * i + SS <=? mm) j
        (fun i r => if SS * i + SS <=? mm then
          x <- mp_load SS T O al (poff p (SS * i) j) m ;; Ok (rupd T r i j (vmul T O (vbroadcast T beta) x)) else Ok r)
        (fun i _ => x <- mp_load SS T O al (poff p (SS * i) j) m ;; Ok (vmul T O (vbroadcast T beta) x))
        (fun i v => forall l, l < SS -> v l = omul O beta (m (addr p (SS * i + l) j))) r0) as (r1 & E1 & A1 & B1).
      * intros i r1 Hi. destruct (SS * i + SS <=? mm); auto.
        destruct (mp_load SS T O al (poff p (SS * i) j) m); reflexivity.
      * intros i Hi Ci. apply Nat.leb_le in Ci.
        destruct (load_block SS HSS T O al p (SS * i) j m) as (v & Ev & Hv); auto using mult_mod0.
        -- intros l Hl. apply Hal; lia.
        -- rewrite Ev. simpl. eexists. split; [reflexivity|]. intros l Hl. unfold vmul, vbroadcast. rewrite Hv; auto.
      * rewrite E1. cbn [bind]. cbv zeta. destruct (dm mm SS HSS) as [Em Lm].
        assert (A1' : forall i, SS * (i / SS) + SS <= mm -> i < mm -> reg_at r1 i j = omul O beta (m (addr p i j))).
        { intros i Hc Hi. destruct (elem_split SS HSS i RM ltac:(lia)) as (X & Y & Z).
          rewrite Z at 2. unfold Reg_Model.reg_at. apply A1; auto. apply Nat.leb_le. lia. }
        destruct (Nat.ltb_spec 0 (mm mod SS)) as [Hr|Hr].
        -- replace (mm - mm mod SS) with (SS * (mm / SS)) by lia.
           assert (E : forall l, addr (poff p (SS * (mm / SS)) j) l 0 = addr p (SS * (mm / SS) + l) j).
           { intros l. rewrite addr_poff; auto. intros _ _. rewrite Hso. apply mult_mod0; auto. }
           destruct (mp_loadm_cm SS HSS T O al (poff p (SS * (mm / SS)) j) (idx_lt (Z.of_nat (mm mod SS))) m) as (v & Ev & Hv).
           ++ apply poff_wf_cm; auto using mult_mod0.
           ++ exact Hso.
           ++ intros K. pose proof (block_lanes SS HSS p (SS * (mm / SS)) j 0 Hwf Hso HL (mult_mod0 SS HSS _) HSS) as X.
              rewrite Nat.add_0_r in X. unfold Layout_Model.poff. cbn [mp_base].
              destruct (mp_af p) eqn:AF.
              ** apply addr_aligned_cm; auto using mult_mod0.
              ** clear X. cbn in K. specialize (HL K).
                 pose proof (addr_aligned_cm SS HSS (MPtr Panel columnMajor true true (mp_base p) (mp_sp p)) (SS * (mm / SS)) j eq_refl) as Y.
                 rewrite <- Y.
                 --- f_equal. unfold Layout_Model.addr, ptr_offset. cbn [mp_kind mp_so mp_af mp_base mp_sp].
                     rewrite K, Hso, AF, HL. rewrite Nat.add_0_r, Nat.sub_0_r. reflexivity.
                 --- destruct Hwf as [W1 W2]. split; cbn; auto.
                 --- reflexivity.
                 --- apply mult_mod0; auto.
           ++ intros l Hl Hk. rewrite E. unfold idx_lt in Hk. apply Z.ltb_lt in Hk. apply Hal; lia.
           ++ rewrite Ev. cbn [bind]. eexists. split; [reflexivity|]. split.
              ** intros i Hi. destruct (elem_split SS HSS i RM ltac:(lia)) as (X & Y & Z).
                 destruct (Nat.eq_dec (i / SS) (mm / SS)) as [Eq|Ne].
                 --- unfold Reg_Model.reg_at. rewrite Eq, rupd_same. unfold vmul, vbroadcast.
                     rewrite Hv by auto. unfold idx_lt.
                     rewrite (proj2 (Z.ltb_lt _ _)) by nia.
                     rewrite E. do 3 f_equal. lia.
                 --- unfold Reg_Model.reg_at. rewrite rupd_other by auto. apply A1'; auto.
                     assert (i / SS < mm / SS) by nia. nia.
              ** intros i j' N'. rewrite rupd_other by auto. apply B1. tauto.
        -- exists r1. split; auto. split.
           ++ intros i Hi. destruct (elem_split SS HSS i RM ltac:(lia)) as (X & Y & Z). apply A1'; auto.
              assert (i / SS < mm / SS) by nia. nia.
           ++ intros i j' N'. apply B1. tauto.
  - intros j r0 r1 Hc Hq i Hi. specialize (Hq i Hi). unfold Reg_Model.reg_at in *. rewrite <- Hc. exact Hq.
  - exists r'. split; [exact E|]. split.
    + intros i j Hi Hj Hn. apply A; auto. apply Nat.ltb_lt. auto.
    + intros i j Hn. unfold Reg_Model.reg_at. rewrite B; auto. intros [_ C]. apply Nat.ltb_lt in C. lia.
Qed.

(** ** Triangular solve *)
Notation fnma_chain := (fnma_chain O).

Lemma fnma_chain_ext : forall K x y z x' y' z', (forall k, k < K -> x k = x' k /\ y k = y' k) -> z = z' ->
  fnma_chain K x y z = fnma_chain K x' y' z'.
Proof.
  induction K as [|K IH]; intros x y z x' y' z' H ->; simpl; auto.
  destruct (H K ltac:(lia)) as [-> ->]. f_equal. apply IH; auto.
Qed.

Lemma reg_trsm_ok : forall al N RM A m r,
  (forall k j, k <= j -> j < N -> al (addr A k j) = true) ->
  exists r', reg_trsm SS T O al N RM A m r = Ok r' /\
    (forall i j, i < RM * SS -> j < N ->
      reg_at r' i j = odiv O (fnma_chain j (fun k => m (addr A k j)) (fun k => reg_at r' i k) (reg_at r i j)) (m (addr A j j))) /\
    (forall i j, N <= j -> r' i j = r i j).
Proof.
  intros al N RM A m r Hal. unfold reg_trsm.
  match goal with |- exists r', for_ 0 N ?f r = _ /\ _ =>
    destruct (for_inv regs (fun j0 r' =>
      (forall i j, i < RM * SS -> j < j0 -> reg_at r' i j =
         odiv O (fnma_chain j (fun k => m (addr A k j)) (fun k => reg_at r' i k) (reg_at r i j)) (m (addr A j j))) /\
      (forall i j, j0 <= j -> r' i j = r i j)) 0 N f r) as (r' & E & H1 & H2) end.
  - lia.
  - split; [intros; lia|auto].
  - intros j r0 Hj (I1 & I2).
    match goal with |- exists s', bind (for_ 0 j ?f r0) _ = _ /\ _ =>
      destruct (for_inv regs (fun k0 r' =>
        (forall i, i < RM * SS -> reg_at r' i j = fnma_chain k0 (fun k => m (addr A k j)) (fun k => reg_at r0 i k) (reg_at r0 i j)) /\
        (forall i j', j' <> j -> r' i j' = r0 i j')) 0 j f r0) as (r1 & E1 & J1 & J2) end.
    + lia.
    + split; auto.
    + intros k r1 Hk (J1 & J2). unfold rd. rewrite Hal by lia. cbn [bind].
      destruct (col_map RM j (fun r i v => vfnmadd T O (vbroadcast T (m (addr A k j))) (r i k) v) r1) as (r2 & E2 & K1 & K2).
      { intros i v ra rb Hr. rewrite Hr by lia. reflexivity. }
      exists r2. split; [exact E2|]. split.
      * intros i Hi. destruct (elem_split SS HSS i RM Hi) as (X & Y & Z).
        cbn [fnma_chain]. rewrite <- J1 by auto. unfold Reg_Model.reg_at at 1. rewrite K1 by auto.
        unfold vfnmadd, vbroadcast. rewrite J2 by lia. reflexivity.
      * intros i j' N'. rewrite K2 by tauto. auto.
    + rewrite E1. cbn [bind]. unfold rd. rewrite Hal by lia. cbn [bind].
      destruct (col_map RM j (fun r i v => vdiv T O v (vbroadcast T (m (addr A j j)))) r1) as (r2 & E2 & K1 & K2).
      { reflexivity. }
      exists r2. split; [exact E2|].
      assert (Kp : forall i j', j' <> j -> r2 i j' = r0 i j') by (intros; rewrite K2 by tauto; auto).
      split.
      * intros i j' Hi Hj'. destruct (elem_split SS HSS i RM Hi) as (X & Y & Z).
        destruct (Nat.eq_dec j' j) as [->|N'].
        -- unfold Reg_Model.reg_at at 1. rewrite K1 by auto. unfold vdiv, vbroadcast.
           change (r1 (i / SS) j (i mod SS)) with (reg_at r1 i j). rewrite J1 by auto. f_equal.
           apply fnma_chain_ext.
           ++ intros k Hk. split; auto. unfold Reg_Model.reg_at. rewrite Kp by lia. reflexivity.
           ++ unfold Reg_Model.reg_at. rewrite I2 by lia. reflexivity.
        -- unfold Reg_Model.reg_at at 1. rewrite Kp by auto. change (r0 (i / SS) j' (i mod SS)) with (reg_at r0 i j').
           rewrite I1 by (auto; lia). f_equal. apply fnma_chain_ext; auto.
           intros k Hk. split; auto. unfold Reg_Model.reg_at. rewrite Kp by lia. reflexivity.
      * intros i j' Hj'. rewrite Kp by lia. apply I2. lia.
  - eauto.
Qed.

(** ** Cholesky *)
Lemma reg_potrf_ok : forall N RM r, N <= RM * SS ->
  exists r', reg_potrf SS T O N RM r = Ok r' /\
    (forall i j, j <= i -> i < RM * SS -> j < N ->
      reg_at r' i j = odiv O (fnma_chain j (fun k => reg_at r' j k) (fun k => reg_at r' i k) (reg_at r i j))
                             (osqrt O (fnma_chain j (fun k => reg_at r' j k) (fun k => reg_at r' j k) (reg_at r j j)))) /\
    (forall i j, i < SS * (j / SS) -> j < N -> reg_at r' i j = o0 O) /\
    (forall i j, N <= j -> r' i j = r i j).
Proof.
  intros N RM r HN. unfold reg_potrf.
  match goal with |- exists r', for_ 0 N ?f r = _ /\ _ =>
    destruct (for_inv regs (fun j0 r' =>
      (forall i j, j <= i -> i < RM * SS -> j < j0 -> reg_at r' i j =
         odiv O (fnma_chain j (fun k => reg_at r' j k) (fun k => reg_at r' i k) (reg_at r i j))
                (osqrt O (fnma_chain j (fun k => reg_at r' j k) (fun k => reg_at r' j k) (reg_at r j j)))) /\
      (forall i j, i < SS * (j / SS) -> j < j0 -> reg_at r' i j = o0 O) /\
      (forall i j, j0 <= j -> r' i j = r i j)) 0 N f r) as (r' & E & H1 & H2 & H3) end.
  - lia.
  - split; [intros; lia|split; [intros; lia|auto]].
  - intros k r0 Hk (I1 & I2 & I3). cbv zeta.
    match goal with |- exists s', bind (for_ 0 k ?f r0) _ = _ /\ _ =>
      destruct (for_inv regs (fun j0 r' =>
        (forall i, i < RM * SS -> SS * (k / SS) <= i ->
           reg_at r' i k = fnma_chain j0 (fun j => reg_at r0 k j) (fun j => reg_at r0 i j) (reg_at r0 i k)) /\
        (forall i j', j' <> k -> r' i j' = r0 i j')) 0 k f r0) as (r1 & E1 & J1 & J2) end.
    + lia.
    + split; auto.
    + intros j r1 Hj (J1 & J2).
      destruct (col_mapc RM k (fun i => k / SS <=? i)
        (fun r i v => vfnmadd T O (vbroadcast T (r1 (k / SS) j (k mod SS))) (r i j) v) r1) as (r2 & E2 & K1 & K2).
      { intros i v ra rb Hr. rewrite Hr by lia. reflexivity. }
      exists r2. split; [exact E2|]. split.
      * intros i Hi Hge. destruct (elem_split SS HSS i RM Hi) as (X & Y & Z).
        cbn [fnma_chain]. rewrite <- J1 by auto. unfold Reg_Model.reg_at at 1.
        rewrite K1 by (auto; apply Nat.leb_le; nia).
        unfold vfnmadd, vbroadcast. rewrite !J2 by lia. reflexivity.
      * intros i j' N'. rewrite K2 by tauto. auto.
    + match goal with |- exists s', bind ?x _ = _ /\ _ => replace x with (@Ok regs r1) by (symmetry; exact E1) end.
      cbn [bind]. set (s := osqrt O (r1 (k / SS) k (k mod SS))).
      destruct (elem_split SS HSS k RM ltac:(lia)) as (Xk & Yk & Zk).
      destruct (col_map RM k (fun r i v => if i <? k / SS then (fun _ => o0 O) else vdiv T O v (vbroadcast T s)) r1) as (r2 & E2 & K1 & K2).
      { reflexivity. }
      exists r2. split.
      { rewrite <- E2. unfold for_. apply loop_ext. intros i r3 Hi. destruct (i <? k / SS); reflexivity. }
      assert (Kp : forall i j', j' <> k -> r2 i j' = r0 i j') by (intros; rewrite K2 by tauto; auto).
      assert (Kr : forall i j', j' <> k -> reg_at r2 i j' = reg_at r0 i j') by (intros; unfold Reg_Model.reg_at; rewrite Kp by auto; reflexivity).
      assert (R0 : forall i, reg_at r0 i k = reg_at r i k) by (intros; unfold Reg_Model.reg_at; rewrite I3 by lia; reflexivity).
      split; [|split].
      * intros i j' Hle Hi Hj'. destruct (elem_split SS HSS i RM Hi) as (X & Y & Z).
        destruct (Nat.eq_dec j' k) as [->|N'].
        -- assert (Q : k / SS <= i / SS) by (apply Nat.div_le_mono; lia).
           unfold Reg_Model.reg_at at 1. rewrite K1 by auto.
           destruct (Nat.ltb_spec (i / SS) (k / SS)); [lia|]. unfold vdiv, vbroadcast.
           change (r1 (i / SS) k (i mod SS)) with (reg_at r1 i k). rewrite J1 by (auto; nia).
           unfold s. change (r1 (k / SS) k (k mod SS)) with (reg_at r1 k k). rewrite J1 by lia.
           rewrite !R0. f_equal; [|f_equal]; apply fnma_chain_ext; auto; intros k' Hk'; rewrite !Kr by lia; auto.
        -- rewrite Kr by auto. rewrite I1 by (auto; lia).
           f_equal; [|f_equal]; apply fnma_chain_ext; auto; intros k' Hk'; rewrite !Kr by lia; auto.
      * intros i j' Hi Hj'. destruct (Nat.eq_dec j' k) as [->|N'].
        -- destruct (elem_split SS HSS i RM ltac:(nia)) as (X & Y & Z).
           unfold Reg_Model.reg_at. rewrite K1 by auto.
           destruct (Nat.ltb_spec (i / SS) (k / SS)); [reflexivity|nia].
        -- rewrite Kr by auto. apply I2; auto. lia.
      * intros i j' Hj'. rewrite Kp by lia. apply I3. lia.
  - exists r'. auto.
Qed.

End Reg.
