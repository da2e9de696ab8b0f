(** Needs_Proofs.v -- a register operation that completes has accessed all the memory it is said to access. *)
From Coq Require Import Arith Lia List Bool PeanoNat ZArith.
From Verif Require Import Base Base_Proofs Layout_Model Layout_Proofs Simd_Model Simd_Proofs Reg_Model Reg_Proofs Vec_Proofs.
Import ListNotations.

(** Every iteration of a loop that completes has completed. *)
Lemma loop_each : forall St n lo (f : nat -> St -> res St) s s', loop n lo f s = Ok s' ->
  forall k, lo <= k < lo + n -> exists s1 s2, f k s1 = Ok s2.
Proof.
  induction n as [|n IH]; intros lo f s s' E k Hk; [lia|]. cbn [loop] in E. apply bind_ok_inv in E. destruct E as (s1 & E1 & E2).
  destruct (Nat.eq_dec k lo) as [->|]; eauto. apply (IH (S lo) f s1 s' E2). lia.
Qed.
Lemma for_each : forall St lo hi (f : nat -> St -> res St) s s', for_ lo hi f s = Ok s' ->
  forall k, lo <= k < hi -> exists s1 s2, f k s1 = Ok s2.
Proof. intros St lo hi f s s' E k Hk. apply (loop_each St (hi - lo) lo f s s' E). lia. Qed.
Lemma foldM_each : forall St X (f : X -> St -> res St) l s s', foldM f l s = Ok s' -> forall x, In x l -> exists s1 s2, f x s1 = Ok s2.
Proof.
  induction l as [|a l IH]; intros s s' E x Hx; [destruct Hx|]. cbn [foldM] in E; apply bind_ok_inv in E; destruct E as (s1 & E1 & E2).
  destruct Hx as [-> | Hx]; eauto.
Qed.
Lemma noexcept_each : forall X (x : res X) v, noexcept x = Ok v -> x = Ok v.
Proof. intros X [] v E; cbn in E; try discriminate; auto. Qed.
Lemma cm_only_inv : forall X p (x : res X) v, cm_only p x = Ok v -> mp_so p = columnMajor /\ x = Ok v.
Proof. intros X p x v E. unfold cm_only in E. destruct (mp_so p) eqn:S; cbn in E; [discriminate|auto]. Qed.
Lemma rd_each : forall T al (m : mem T) a v, rd al m a = Ok v -> al a = true.
Proof. intros T al m a v E. unfold rd in E. destruct (al a); [auto|discriminate]. Qed.

Section Needs.
Variable SS : nat.
Hypothesis HSS : 0 < SS.
Variable T : Type.
Variable O : Ops T.
Notation addr := (addr SS).
Notation poff := (poff SS).

Lemma simd_load_each : forall al af a m v, simd_load SS T al af a m = Ok v -> forall l, l < SS -> al (a + l) = true.
Proof.
  intros al af a m v E l Hl. unfold simd_load in E. destruct (af && negb (a mod SS =? 0)); [discriminate|].
  destruct (forallb (fun l => al (a + l)) (seq 0 SS)) eqn:F; [|discriminate]. rewrite forallb_forall in F. apply F. apply in_seq. lia.
Qed.
Lemma simd_store_each : forall al af a x (m v : mem T), simd_store SS T al af a x m = Ok v -> forall l, l < SS -> al (a + l) = true.
Proof.
  intros al af a x m v E l Hl. unfold simd_store in E. destruct (af && negb (a mod SS =? 0)); [discriminate|].
  destruct (forallb (fun l => al (a + l)) (seq 0 SS)) eqn:F; [|discriminate]. rewrite forallb_forall in F. apply F. apply in_seq. lia.
Qed.
Lemma simd_maskload_each : forall al a mk m v, simd_maskload SS T O al a mk m = Ok v -> forall l, l < SS -> mk l = true -> al (a + l) = true.
Proof.
  intros al a mk m v E l Hl Hm. unfold simd_maskload in E.
  destruct (forallb (fun l => negb (mk l) || al (a + l)) (seq 0 SS)) eqn:F; [|discriminate]. rewrite forallb_forall in F.
  specialize (F l ltac:(apply in_seq; lia)). rewrite Hm in F. exact F.
Qed.
Lemma simd_maskstore_each : forall al a x mk (m v : mem T), simd_maskstore SS T al a x mk m = Ok v -> forall l, l < SS -> mk l = true -> al (a + l) = true.
Proof.
  intros al a x mk m v E l Hl Hm. unfold simd_maskstore in E.
  destruct (forallb (fun l => negb (mk l) || al (a + l)) (seq 0 SS)) eqn:F; [|discriminate]. rewrite forallb_forall in F.
  specialize (F l ltac:(apply in_seq; lia)). rewrite Hm in F. exact F.
Qed.

Lemma off_lane : forall p i j l, mptr_wf SS p -> mp_so p = columnMajor -> i mod SS = 0 -> l < SS -> lane_ok SS (poff p i j) ->
  mp_base (poff p i j) + l = addr p (i + l) j.
Proof.
  intros p i j l W S Hi Hl L. pose proof (poff_wf_cm SS HSS p i j W S Hi) as W'.
  pose proof (addr_lanes_cm SS HSS (poff p i j) 0 0 l S W' ltac:(apply Nat.mod_0_l; lia) Hl) as E.
  rewrite (addr_00 SS HSS) in E. rewrite <- E by auto. rewrite addr_poff by (auto; intros _ _; rewrite S; auto). f_equal; lia.
Qed.
Lemma mp_load_each : forall al p i j m v, mptr_wf SS p -> mp_so p = columnMajor -> i mod SS = 0 -> mp_load SS T O al (poff p i j) m = Ok v ->
  forall l, l < SS -> al (addr p (i + l) j) = true.
Proof.
  intros al p i j m v W S Hi E l Hl. pose proof (poff_wf_cm SS HSS p i j W S Hi) as W'. unfold mp_load in E.
  destruct (mp_kind (poff p i j)) eqn:K.
  - rewrite <- (off_lane p i j l) by (auto; intros X; congruence). apply (simd_load_each _ _ _ _ _ E); auto.
  - destruct (mp_af (poff p i j)) eqn:AF.
    + rewrite <- (off_lane p i j l) by (auto; apply lane_af; auto). apply (simd_load_each _ _ _ _ _ E); auto.
    + change (mp_so (poff p i j)) with (mp_so p) in E. rewrite S in E.
      destruct (for_each _ _ _ _ _ _ E l ltac:(lia)) as (s1 & s2 & E1). apply bind_ok_inv in E1. destruct E1 as (x & E1 & _).
      apply rd_each in E1. rewrite addr_punalign in E1 by auto. rewrite addr_poff in E1 by (auto; intros _ _; rewrite S; auto).
      rewrite Nat.add_0_r in E1. exact E1.
Qed.
Lemma mp_loadm_each : forall al p i j mk m v, mptr_wf SS p -> mp_so p = columnMajor -> i mod SS = 0 -> lane_ok SS p ->
  mp_loadm SS T O al (poff p i j) mk m = Ok v -> forall l, l < SS -> mk l = true -> al (addr p (i + l) j) = true.
Proof.
  intros al p i j mk m v W S Hi L E l Hl Hm. rewrite <- (off_lane p i j l) by (auto; apply lane_poff; auto).
  apply (simd_maskload_each _ _ _ _ _ E); auto.
Qed.
Lemma mp_store_lane : forall al p x (m v : mem T), mptr_wf SS p -> (mp_store SS T al p x m = Ok v \/ exists mk, mp_storem SS T al p x mk m = Ok v) -> lane_ok SS p.
Proof.
  intros al p x m v W E K. destruct (mp_af p) eqn:AF; [apply W; auto|]. unfold mp_store, mp_storem in E. rewrite K, AF in E.
  destruct E as [E|(mk & E)]; discriminate.
Qed.
Lemma mp_store_each : forall al p i j x (m v : mem T), mptr_wf SS p -> mp_so p = columnMajor -> i mod SS = 0 -> mp_store SS T al (poff p i j) x m = Ok v ->
  forall l, l < SS -> al (addr p (i + l) j) = true.
Proof.
  intros al p i j x m v W S Hi E l Hl. pose proof (poff_wf_cm SS HSS p i j W S Hi) as W'.
  rewrite <- (off_lane p i j l) by (auto; eapply mp_store_lane; eauto).
  unfold mp_store in E. destruct (mp_kind (poff p i j)), (mp_af (poff p i j)); try discriminate; apply (simd_store_each _ _ _ _ _ _ E); auto.
Qed.
Lemma mp_storem_each : forall al p i j x mk (m v : mem T), mptr_wf SS p -> mp_so p = columnMajor -> i mod SS = 0 -> mp_storem SS T al (poff p i j) x mk m = Ok v ->
  forall l, l < SS -> mk l = true -> al (addr p (i + l) j) = true.
Proof.
  intros al p i j x mk m v W S Hi E l Hl Hm. pose proof (poff_wf_cm SS HSS p i j W S Hi) as W'.
  rewrite <- (off_lane p i j l) by (auto; eapply mp_store_lane; eauto).
  unfold mp_storem in E. destruct (mp_kind (poff p i j)), (mp_af (poff p i j)); try discriminate; apply (simd_maskstore_each _ _ _ _ _ _ E); auto.
Qed.
Lemma vload_each : forall al v i m x, vptr_ok SS v -> i mod SS = 0 -> vload SS T O al (voff SS v i) m = Ok x ->
  forall l, l < SS -> al (vaddr SS v (i + l)) = true.
Proof.
  intros al v i m x Hv Hi E l Hl. destruct v as [tf p|s af b|s b].
  - assert (C : forall p, mptr_wf SS p -> mp_so p = columnMajor -> lane_ok SS p ->
       vload SS T O al (VMat columnVector (poff p i 0)) m = Ok x -> al (addr p (i + l) 0) = true).
    { clear p Hv E. intros p W S L E. cbn [vload] in E. apply noexcept_each in E. unfold mp_loadt in E.
      change (mp_so (poff p i 0)) with (mp_so p) in E. rewrite S in E. cbn [majorOrientation tflag_eqb] in E.
      rewrite <- (off_lane p i 0 l) by (auto; apply lane_poff; auto). apply (simd_load_each _ _ _ _ _ E); auto. }
    destruct tf; destruct Hv as (Hw & Hs & HL); cbn [voff vaddr] in *.
    + rewrite <- (addr_ptrans SS HSS). apply C; [apply ptrans_wf; auto|cbn; rewrite Hs; reflexivity|apply lane_ptrans; auto|].
      rewrite <- E. cbn [voff vload]. f_equal. unfold mp_loadt. cbn [Layout_Model.poff ptrans mp_so mp_af mp_base].
      rewrite Hs. cbn [order_neg majorOrientation tflag_eqb]. f_equal.
      fold (poff p 0 i). change (addr (ptrans SS p) i 0 = addr p 0 i). rewrite addr_ptrans by auto. reflexivity.
    + apply C; auto.
  - cbn [voff vload vaddr] in *. destruct (Nat.eqb_spec s 1) as [->|N].
    + replace (b + (i + l) * 1) with (b + i * 1 + l) by lia. apply (simd_load_each _ _ _ _ _ E); auto.
    + destruct (for_each _ _ _ _ _ _ E l ltac:(lia)) as (s1 & s2 & E1). apply bind_ok_inv in E1. destruct E1 as (y & E1 & _).
      apply rd_each in E1. replace (b + (i + l) * s) with (b + i * s + s * l) by lia. exact E1.
  - cbn [voff vload vaddr] in *. destruct (for_each _ _ _ _ _ _ E l ltac:(lia)) as (s1 & s2 & E1). apply bind_ok_inv in E1. destruct E1 as (y & E1 & _).
    apply rd_each in E1. replace (b + (i + l) * s) with (b + i * s + s * l) by lia. exact E1.
Qed.

(** ** Register operations *)
Ltac steps_in E := apply bind_ok_inv in E; let x := fresh "x" in let E1 := fresh "E" in destruct E as (x & E1 & E).

Lemma reg_map_each : forall N RM cj ci g r r', reg_map T N RM cj ci g r = Ok r' ->
  forall i j, i < RM -> j < N -> cj j = true -> ci i = true -> exists v v', g i j v = Ok v'.
Proof.
  intros N RM cj ci g r r' E i j Hi Hj Cj Ci. unfold reg_map in E. destruct (for_each _ _ _ _ _ _ E j ltac:(lia)) as (s1 & s2 & E1).
  rewrite Cj in E1. destruct (for_each _ _ _ _ _ _ E1 i ltac:(lia)) as (s3 & s4 & E2). rewrite Ci in E2. apply bind_ok_inv in E2.
  destruct E2 as (v & E2 & _). eauto.
Qed.
Lemma rows_of : forall RM i, i < RM * SS -> i / SS < RM /\ i mod SS < SS /\ SS * (i / SS) + i mod SS = i.
Proof. intros RM i Hi. destruct (elem_split SS HSS i RM Hi) as (A & B & C). auto. Qed.

Lemma reg_axpy_each : forall al N RM beta p m r r', mptr_wf SS p -> reg_axpy SS T O al N RM beta p m r = Ok r' ->
  forall i j, i < RM * SS -> j < N -> al (addr p i j) = true.
Proof.
  intros al N RM beta p m r r' W E i j Hi Hj. apply cm_only_inv in E. destruct E as [S E]. destruct (rows_of RM i Hi) as (A & B & C).
  destruct (reg_map_each _ _ _ _ _ _ _ E (i / SS) j A Hj eq_refl eq_refl) as (v & v' & E1). steps_in E1.
  rewrite <- C. eapply mp_load_each; eauto. apply mult_mod0; auto.
Qed.
Lemma reg_axpy_mn_each : forall al N RM beta p mm nn m r r', mptr_wf SS p -> reg_axpy_mn SS T O al N RM beta p mm nn m r = Ok r' ->
  forall i j, i < RM * SS -> SS * (i / SS) < mm -> j < N -> j < nn -> al (addr p i j) = true.
Proof.
  intros al N RM beta p mm nn m r r' W E i j Hi Hm Hj Hn. apply cm_only_inv in E. destruct E as [S E]. destruct (rows_of RM i Hi) as (A & B & C).
  destruct (reg_map_each _ _ _ _ _ _ _ E (i / SS) j A Hj ltac:(apply Nat.ltb_lt; auto) ltac:(apply Nat.ltb_lt; auto)) as (v & v' & E1). steps_in E1.
  rewrite <- C. eapply mp_load_each; eauto. apply mult_mod0; auto.
Qed.
Lemma reg_load_each : forall al N RM p m r r', mptr_wf SS p -> reg_load SS T O al N RM p m r = Ok r' ->
  forall i j, i < RM * SS -> j < N -> al (addr p i j) = true.
Proof.
  intros al N RM p m r r' W E i j Hi Hj. apply cm_only_inv in E. destruct E as [S E]. destruct (rows_of RM i Hi) as (A & B & C).
  destruct (reg_map_each _ _ _ _ _ _ _ E (i / SS) j A Hj eq_refl eq_refl) as (v & v' & E1).
  rewrite <- C. eapply mp_load_each; eauto. apply mult_mod0; auto.
Qed.
Lemma reg_loadb_each : forall al N RM beta p m r r', mptr_wf SS p -> reg_loadb SS T O al N RM beta p m r = Ok r' ->
  forall i j, i < RM * SS -> j < N -> al (addr p i j) = true.
Proof.
  intros al N RM beta p m r r' W E i j Hi Hj. apply cm_only_inv in E. destruct E as [S E]. destruct (rows_of RM i Hi) as (A & B & C).
  destruct (reg_map_each _ _ _ _ _ _ _ E (i / SS) j A Hj eq_refl eq_refl) as (v & v' & E1). steps_in E1.
  rewrite <- C. eapply mp_load_each; eauto. apply mult_mod0; auto.
Qed.
(** Aligned and padded pointers: whole registers; others: exactly the m-by-n part. *)
Lemma reg_loadb_mn_each : forall al N RM beta p mm nn m r r', mptr_wf SS p -> lane_ok SS p -> reg_loadb_mn SS T O al N RM beta p mm nn m r = Ok r' ->
  forall i j, i < RM * SS -> (if mp_af p && mp_pf p then SS * (i / SS) < mm else i < mm) -> j < N -> j < nn -> al (addr p i j) = true.
Proof.
  intros al N RM beta p mm nn m r r' W L E i j Hi Hm Hj Hn. apply cm_only_inv in E. destruct E as [S E]. destruct (rows_of RM i Hi) as (A & B & C).
  destruct (for_each _ _ _ _ _ _ E j ltac:(lia)) as (s1 & s2 & E1). rewrite (proj2 (Nat.ltb_lt _ _) Hn) in E1.
  destruct (mp_af p && mp_pf p).
  - destruct (for_each _ _ _ _ _ _ E1 (i / SS) ltac:(lia)) as (s3 & s4 & E2). rewrite (proj2 (Nat.ltb_lt _ _) Hm) in E2. steps_in E2.
    rewrite <- C. eapply mp_load_each; eauto. apply mult_mod0; auto.
  - steps_in E1. destruct (Nat.le_gt_cases (SS * (i / SS) + SS) mm) as [H|H].
    + destruct (for_each _ _ _ _ _ _ E0 (i / SS) ltac:(lia)) as (s3 & s4 & E2). rewrite (proj2 (Nat.leb_le _ _) H) in E2. steps_in E2.
      rewrite <- C. eapply mp_load_each; eauto. apply mult_mod0; auto.
    + cbv zeta in E1. destruct (dm mm SS HSS) as [D1 D2].
      assert (Q : mm / SS = i / SS) by (assert (SS * (mm / SS) < SS * (i / SS) + SS) by lia; assert (SS * (i / SS) <= mm) by lia; nia).
      rewrite (proj2 (Nat.ltb_lt 0 (mm mod SS))) in E1 by (rewrite Q in D1; lia). steps_in E1.
      rewrite <- C. assert (R : mm - mm mod SS = SS * (i / SS)) by (rewrite <- Q; lia). rewrite R in E2.
      eapply mp_loadm_each; eauto; [apply mult_mod0; auto|]. unfold idx_lt. apply Z.ltb_lt. rewrite Q in D1. lia.
Qed.
Lemma reg_store_each : forall al N RM p r (m m' : mem T), mptr_wf SS p -> reg_store SS T al N RM p r m = Ok m' ->
  forall i j, i < RM * SS -> j < N -> al (addr p i j) = true.
Proof.
  intros al N RM p r m m' W E i j Hi Hj. apply cm_only_inv in E. destruct E as [S E]. destruct (rows_of RM i Hi) as (A & B & C).
  destruct (for_each _ _ _ _ _ _ E j ltac:(lia)) as (s1 & s2 & E1). destruct (for_each _ _ _ _ _ _ E1 (i / SS) ltac:(lia)) as (s3 & s4 & E2).
  rewrite <- C. eapply mp_store_each; eauto. apply mult_mod0; auto.
Qed.
Lemma reg_store_mn_each : forall al N RM p mm nn r (m m' : mem T), mptr_wf SS p -> reg_store_mn SS T al N RM p mm nn r m = Ok m' ->
  forall i j, i < RM * SS -> i < mm -> j < N -> j < nn -> al (addr p i j) = true.
Proof.
  intros al N RM p mm nn r m m' W E i j Hi Hm Hj Hn. apply cm_only_inv in E. destruct E as [S E]. destruct (rows_of RM i Hi) as (A & B & C).
  steps_in E. destruct (Nat.le_gt_cases (SS * (i / SS + 1)) mm) as [H|H].
  - destruct (for_each _ _ _ _ _ _ E0 j ltac:(lia)) as (s1 & s2 & E1). rewrite (proj2 (Nat.ltb_lt _ _) Hn) in E1.
    destruct (for_each _ _ _ _ _ _ E1 (i / SS) ltac:(lia)) as (s3 & s4 & E2). rewrite (proj2 (Nat.leb_le _ _) H) in E2.
    rewrite <- C. eapply mp_store_each; eauto. apply mult_mod0; auto.
  - cbv zeta in E. destruct (dm mm SS HSS) as [D1 D2].
    assert (Q : mm / SS = i / SS) by (assert (SS * (mm / SS) < SS * (i / SS) + SS) by lia; assert (SS * (i / SS) <= mm) by lia; nia).
    rewrite Q in *. rewrite (proj2 (Nat.ltb_lt 0 (mm mod SS))) in E by lia.
    destruct (for_each _ _ _ _ _ _ E j ltac:(lia)) as (s1 & s2 & E1).
    rewrite <- C. eapply mp_storem_each; eauto; [apply mult_mod0; auto|]. unfold idx_lt. apply Z.ltb_lt. lia.
Qed.
Lemma reg_storeLower_each : forall al N RM p r (m m' : mem T), mptr_wf SS p -> reg_storeLower SS T al N RM p r m = Ok m' ->
  forall i j, j <= i -> i < RM * SS -> j < N -> al (addr p i j) = true.
Proof.
  intros al N RM p r m m' W E i j Hij Hi Hj. apply cm_only_inv in E. destruct E as [S E]. destruct (rows_of RM i Hi) as (A & B & C).
  destruct (for_each _ _ _ _ _ _ E j ltac:(lia)) as (s1 & s2 & E1). cbv zeta in E1. destruct (dm j SS HSS) as [D1 D2].
  assert (Q : j / SS <= i / SS) by (apply Nat.div_le_mono; lia).
  destruct ((0 <? j mod SS) && (j / SS <? RM)) eqn:F.
  - steps_in E1. destruct (Nat.eq_dec (i / SS) (j / SS)) as [X|X].
    + rewrite <- X in E0. rewrite <- C. eapply mp_storem_each; eauto; [apply mult_mod0; auto|]. unfold idx_ge. apply Z.leb_le. rewrite <- X in D1. lia.
    + destruct (for_each _ _ _ _ _ _ E1 (i / SS) ltac:(lia)) as (s3 & s4 & E2). rewrite <- C. eapply mp_store_each; eauto. apply mult_mod0; auto.
  - destruct (for_each _ _ _ _ _ _ E1 (i / SS) ltac:(lia)) as (s3 & s4 & E2). rewrite <- C. eapply mp_store_each; eauto. apply mult_mod0; auto.
Qed.
Lemma reg_storeLower_mn_each : forall al N RM p mm nn r (m m' : mem T), mptr_wf SS p -> reg_storeLower_mn SS T al N RM p mm nn r m = Ok m' ->
  forall i j, j <= i -> i < RM * SS -> i < mm -> j < N -> j < nn -> al (addr p i j) = true.
Proof.
  intros al N RM p mm nn r m m' W E i j Hij Hi Hm Hj Hn. apply cm_only_inv in E. destruct E as [S E]. destruct (rows_of RM i Hi) as (A & B & C).
  destruct (for_each _ _ _ _ _ _ E j ltac:(lia)) as (s1 & s2 & E1). rewrite (proj2 (Nat.ltb_lt _ _) Hn) in E1.
  assert (Q : j / SS <= i / SS) by (apply Nat.div_le_mono; lia).
  destruct (for_each _ _ _ _ _ _ E1 (i / SS) ltac:(lia)) as (s3 & s4 & E2). cbv zeta in E2.
  rewrite <- C. eapply mp_storem_each; eauto; [apply mult_mod0; auto|].
  assert (M1 : idx_lt (Z.of_nat mm - Z.of_nat (i / SS * SS)) (i mod SS) = true) by (unfold idx_lt; apply Z.ltb_lt; nia).
  destruct (Z.ltb_spec 0 (Z.of_nat j - Z.of_nat (i / SS * SS))); [|exact M1].
  unfold mask_and. rewrite M1. cbn [andb]. unfold idx_ge. apply Z.leb_le. nia.
Qed.
Lemma load_col_each : forall al RM a f m ax, vptr_ok SS a -> load_col SS T O al RM a f m = Ok ax -> forall i, i < RM * SS -> al (vaddr SS a i) = true.
Proof.
  intros al RM a f m ax Ha E i Hi. destruct (rows_of RM i Hi) as (A & B & C). destruct (for_each _ _ _ _ _ _ E (i / SS) ltac:(lia)) as (s1 & s2 & E1).
  steps_in E1. rewrite <- C, (Nat.mul_comm SS). eapply vload_each; eauto. apply mult_mod0'; auto.
Qed.
Lemma ger_update_each : forall al N RM cj ax b m r r', ger_update SS T O al N RM cj ax b m r = Ok r' -> forall j, j < N -> cj j = true -> al (vaddr SS b j) = true.
Proof.
  intros al N RM cj ax b m r r' E j Hj Cj. destruct (for_each _ _ _ _ _ _ E j ltac:(lia)) as (s1 & s2 & E1). rewrite Cj in E1. steps_in E1.
  eapply rd_each; eauto.
Qed.
Lemma reg_ger_alpha_each : forall al N RM alpha a b m r r', vptr_ok SS a -> reg_ger_alpha SS T O al N RM alpha a b m r = Ok r' ->
  (forall i, i < RM * SS -> al (vaddr SS a i) = true) /\ (forall j, j < N -> al (vaddr SS b j) = true).
Proof.
  intros al N RM alpha a b m r r' Ha E. unfold reg_ger_alpha in E. steps_in E. split.
  - eapply load_col_each; eauto.
  - intros j Hj. eapply ger_update_each; eauto.
Qed.
Lemma reg_ger_each : forall al N RM a b m r r', vptr_ok SS a -> reg_ger SS T O al N RM a b m r = Ok r' ->
  (forall i, i < RM * SS -> al (vaddr SS a i) = true) /\ (forall j, j < N -> al (vaddr SS b j) = true).
Proof.
  intros al N RM a b m r r' Ha E. unfold reg_ger in E. steps_in E. split.
  - eapply load_col_each; eauto.
  - intros j Hj. eapply ger_update_each; eauto.
Qed.
Lemma reg_ger_alpha_mn_each : forall al N RM alpha a b mm nn m r r', vptr_ok SS a -> reg_ger_alpha_mn SS T O al N RM alpha a b mm nn m r = Ok r' ->
  (forall i, i < RM * SS -> al (vaddr SS a i) = true) /\ (forall j, j < N -> j < nn -> al (vaddr SS b j) = true).
Proof.
  intros al N RM alpha a b mm nn m r r' Ha E. unfold reg_ger_alpha_mn in E. steps_in E. split.
  - eapply load_col_each; eauto.
  - intros j Hj Hn. eapply ger_update_each; eauto. apply Nat.ltb_lt. exact Hn.
Qed.
Lemma reg_ger_mn_each : forall al N RM a b mm nn m r r', vptr_ok SS a -> reg_ger_mn SS T O al N RM a b mm nn m r = Ok r' ->
  (forall i, i < RM * SS -> al (vaddr SS a i) = true) /\ (forall j, j < N -> j < nn -> al (vaddr SS b j) = true).
Proof.
  intros al N RM a b mm nn m r r' Ha E. unfold reg_ger_mn in E. steps_in E. split.
  - eapply load_col_each; eauto.
  - intros j Hj Hn. eapply ger_update_each; eauto. apply Nat.ltb_lt. exact Hn.
Qed.
Lemma reg_trsm_each : forall al N RM A m r r', reg_trsm SS T O al N RM A m r = Ok r' -> forall k j, k <= j < N -> al (addr A k j) = true.
Proof.
  intros al N RM A m r r' E k j Hk. destruct (for_each _ _ _ _ _ _ E j ltac:(lia)) as (s1 & s2 & E1). steps_in E1. steps_in E1.
  destruct (Nat.eq_dec k j) as [->|].
  - eapply rd_each; eauto.
  - destruct (for_each _ _ _ _ _ _ E0 k ltac:(lia)) as (s3 & s4 & E3). steps_in E3. eapply rd_each; eauto.
Qed.

(** column(p(0, k)) and row(b(k, 0)) *)
Lemma col_vec : forall p k, mptr_wf SS p -> mp_so p = columnMajor -> lane_ok SS p ->
  vptr_ok SS (VMat columnVector (poff p 0 k)) /\ forall i, vaddr SS (VMat columnVector (poff p 0 k)) i = addr p i k.
Proof.
  intros p k W S L. assert (Z0 : 0 mod SS = 0) by (apply Nat.mod_0_l; lia). split.
  - cbn [vptr_ok]. split; [apply poff_wf_cm; auto|]. split; [exact S|apply lane_poff; auto].
  - intros i. cbn [vaddr]. rewrite addr_poff by (auto; intros _ _; rewrite S; auto). f_equal; lia.
Qed.
Lemma row_vec : forall b k j, mptr_wf SS b -> vaddr SS (VMat rowVector (poff (punalign SS b) k 0)) j = addr b k j.
Proof.
  intros b k j W. cbn [vaddr]. rewrite (addr_poff SS HSS) by first [apply (punalign_wf SS); exact W|intros _ X; discriminate X]. rewrite (addr_punalign SS HSS) by auto. f_equal; lia.
Qed.

Lemma reg_gemm_each : forall al N RM K alpha a b m r r', mptr_wf SS a -> lane_ok SS a -> mptr_wf SS b -> reg_gemm SS T O al N RM K alpha a b m r = Ok r' ->
  (forall i k, i < RM * SS -> k < K -> al (addr a i k) = true) /\ (forall k j, k < K -> j < N -> al (addr b k j) = true).
Proof.
  intros al N RM K alpha a b m r r' W L Wb E. apply cm_only_inv in E. destruct E as [S E]. split.
  - intros i k Hi Hk. destruct (for_each _ _ _ _ _ _ E k ltac:(lia)) as (s1 & s2 & E1). destruct (col_vec a k W S L) as [V1 V2].
    apply reg_ger_alpha_each in E1; auto. rewrite <- V2. apply E1. exact Hi.
  - intros k j Hk Hj. destruct (for_each _ _ _ _ _ _ E k ltac:(lia)) as (s1 & s2 & E1). destruct (col_vec a k W S L) as [V1 V2].
    apply reg_ger_alpha_each in E1; auto. rewrite <- (row_vec b k j Wb). apply E1. exact Hj.
Qed.
Lemma reg_gemm_mn_each : forall al N RM K alpha a b md nd m r r', mptr_wf SS a -> lane_ok SS a -> mptr_wf SS b -> reg_gemm_mn SS T O al N RM K alpha a b md nd m r = Ok r' ->
  (forall i k, i < RM * SS -> k < K -> al (addr a i k) = true) /\ (forall k j, k < K -> j < N -> j < nd -> al (addr b k j) = true).
Proof.
  intros al N RM K alpha a b md nd m r r' W L Wb E. apply cm_only_inv in E. destruct E as [S E]. split.
  - intros i k Hi Hk. destruct (for_each _ _ _ _ _ _ E k ltac:(lia)) as (s1 & s2 & E1). destruct (col_vec a k W S L) as [V1 V2].
    apply reg_ger_alpha_mn_each in E1; auto. rewrite <- V2. apply E1. exact Hi.
  - intros k j Hk Hj Hn. destruct (for_each _ _ _ _ _ _ E k ltac:(lia)) as (s1 & s2 & E1). destruct (col_vec a k W S L) as [V1 V2].
    apply reg_ger_alpha_mn_each in E1; auto. rewrite <- (row_vec b k j Wb). apply E1; auto.
Qed.
Lemma ger_a_vec : forall a k, mptr_wf SS a -> mp_so a = columnMajor -> lane_ok SS a ->
  vptr_ok SS (VMat columnVector (poff (gemm_ger_a SS a) 0 k)) /\ forall i, vaddr SS (VMat columnVector (poff (gemm_ger_a SS a) 0 k)) i = addr a i k.
Proof.
  intros a k W S L. unfold gemm_ger_a. destruct (mp_af a && mp_pf a && order_eqb (mp_so a) columnMajor); [apply col_vec; auto|].
  destruct (col_vec (punalign SS a) k) as [V1 V2]; auto.
  - apply punalign_wf; auto.
  - intros K. cbn [punalign mp_kind] in K. rewrite <- (addr_00 SS HSS), (addr_punalign SS HSS), (addr_00 SS HSS) by auto. apply L. exact K.
  - split; auto. intros i. rewrite V2. apply addr_punalign; auto.
Qed.
Lemma ger_b_vec : forall b k j, mptr_wf SS b -> vaddr SS (VMat rowVector (poff (gemm_ger_b SS b) k 0)) j = addr b k j.
Proof.
  intros b k j W. unfold gemm_ger_b. destruct (mp_af b && mp_pf b && order_eqb (mp_so b) rowMajor) eqn:F; [|apply row_vec; auto].
  apply andb_true_iff in F. destruct F as [_ F]. cbn [vaddr]. rewrite (addr_poff SS HSS) by first [assumption|intros _ _; destruct (mp_so b); [apply Nat.mod_0_l; lia|discriminate F]]. f_equal; lia.
Qed.
Lemma kgemm_each : forall al N RM K alpha a b beta c d r (m m' : mem T), mptr_wf SS a -> lane_ok SS a -> mptr_wf SS b -> mptr_wf SS c -> mptr_wf SS d ->
  kgemm SS T O al N RM K alpha a b beta c d r m = Ok m' ->
  (forall i k, i < RM * SS -> k < K -> al (addr a i k) = true) /\ (forall k j, k < K -> j < N -> al (addr b k j) = true) /\
  (forall i j, i < RM * SS -> j < N -> al (addr c i j) = true) /\ (forall i j, i < RM * SS -> j < N -> al (addr d i j) = true).
Proof.
  intros al N RM K alpha a b beta c d r m m' Wa La Wb Wc Wd E. unfold kgemm in E.
  destruct (negb (order_eqb (mp_so a) columnMajor && order_eqb (mp_so c) columnMajor && order_eqb (mp_so d) columnMajor)) eqn:F; [discriminate|].
  assert (S : mp_so a = columnMajor) by (destruct (mp_so a); [discriminate F|auto]).
  apply noexcept_each in E. steps_in E. steps_in E. steps_in E. steps_in E. split; [|split; [|split]].
  - intros i k Hi Hk. destruct (for_each _ _ _ _ _ _ E1 k ltac:(lia)) as (s1 & s2 & X). destruct (ger_a_vec a k Wa S La) as [V1 V2].
    apply reg_ger_each in X; auto. rewrite <- V2. apply X. exact Hi.
  - intros k j Hk Hj. destruct (for_each _ _ _ _ _ _ E1 k ltac:(lia)) as (s1 & s2 & X). destruct (ger_a_vec a k Wa S La) as [V1 V2].
    apply reg_ger_each in X; auto. rewrite <- (ger_b_vec b k j Wb). apply X. exact Hj.
  - eapply reg_axpy_each; eauto.
  - eapply reg_store_each; eauto.
Qed.
Lemma kgemm_mn_each : forall al N RM K alpha a b beta c d md nd r (m m' : mem T), mptr_wf SS a -> lane_ok SS a -> mptr_wf SS b -> mptr_wf SS c -> mptr_wf SS d ->
  kgemm_mn SS T O al N RM K alpha a b beta c d md nd r m = Ok m' ->
  (forall i k, i < RM * SS -> k < K -> al (addr a i k) = true) /\ (forall k j, k < K -> j < N -> j < nd -> al (addr b k j) = true) /\
  (forall i j, i < RM * SS -> SS * (i / SS) < md -> j < N -> j < nd -> al (addr c i j) = true) /\
  (forall i j, i < RM * SS -> i < md -> j < N -> j < nd -> al (addr d i j) = true).
Proof.
  intros al N RM K alpha a b beta c d md nd r m m' Wa La Wb Wc Wd E. unfold kgemm_mn in E.
  destruct (negb (order_eqb (mp_so a) columnMajor && order_eqb (mp_so c) columnMajor && order_eqb (mp_so d) columnMajor)) eqn:F; [discriminate|].
  assert (S : mp_so a = columnMajor) by (destruct (mp_so a); [discriminate F|auto]).
  apply noexcept_each in E. steps_in E. steps_in E. steps_in E. steps_in E. split; [|split; [|split]].
  - intros i k Hi Hk. destruct (for_each _ _ _ _ _ _ E1 k ltac:(lia)) as (s1 & s2 & X). destruct (col_vec a k Wa S La) as [V1 V2].
    apply reg_ger_mn_each in X; auto. rewrite <- V2. apply X. exact Hi.
  - intros k j Hk Hj Hn. destruct (for_each _ _ _ _ _ _ E1 k ltac:(lia)) as (s1 & s2 & X). destruct (col_vec a k Wa S La) as [V1 V2].
    apply reg_ger_mn_each in X; auto. rewrite <- (row_vec b k j Wb). apply X; auto.
  - eapply reg_axpy_mn_each; eauto.
  - eapply reg_store_mn_each; eauto.
Qed.
End Needs.

(** Completes or is undefined, whatever the memory: no exception, no termination, nothing rejected by the compiler. *)
Definition ou {X} (r : res X) : Prop := match r with Ok _ | UB => True | _ => False end.
Lemma ou_cases : forall X (r : res X), ou r -> (exists x, r = Ok x) \/ r = UB.
Proof. intros X [] H; cbn in H; try contradiction; eauto. Qed.
Lemma ou_bind : forall X Y (e : res X) (f : X -> res Y), ou e -> (forall x, ou (f x)) -> ou (bind e f).
Proof. intros X Y [] f He Hf; cbn in *; auto. Qed.
Lemma ou_loop : forall St (f : nat -> St -> res St), (forall k s, ou (f k s)) -> forall n lo s, ou (loop n lo f s).
Proof. induction n as [|n IH]; intros lo s; cbn [loop]; [exact I|]. apply ou_bind; auto. Qed.
Lemma ou_for : forall St lo hi (f : nat -> St -> res St) s, (forall k s, ou (f k s)) -> ou (for_ lo hi f s).
Proof. intros. apply ou_loop. auto. Qed.
Lemma ou_foldM : forall St X (f : X -> St -> res St) l, (forall x s, In x l -> ou (f x s)) -> forall s, ou (foldM f l s).
Proof. induction l as [|a l IH]; intros H s; cbn [foldM]; [exact I|]. apply ou_bind; [apply H; left; auto|]. intros x. apply IH. intros; apply H; right; auto. Qed.
Lemma ou_noexcept : forall X (e : res X), ou e -> ou (noexcept e).
Proof. intros X [] H; cbn in *; auto. Qed.
Ltac ou_step := match goal with
  | |- ou (if ?b then _ else _) => destruct b
  | |- ou (bind _ _) => apply ou_bind; [|intros ?]
  | |- ou (for_ _ _ _ _) => apply ou_for; intros ? ?
  | |- ou (noexcept _) => apply ou_noexcept
  | |- ou (Ok _) => exact I
  | |- ou UB => exact I
  | |- ou (let _ := _ in _) => cbv zeta
  end.
Ltac ou_go := repeat ou_step.

Section OkOrUB.
Variable SS : nat.
Variable T : Type.
Variable O : Ops T.
Lemma ou_rd : forall al (m : mem T) a, ou (rd al m a).
Proof. intros. unfold rd. ou_go. Qed.
Lemma ou_mp_load : forall al p (m : mem T), ou (mp_load SS T O al p m).
Proof.
  intros al p m. unfold mp_load, simd_load. destruct (mp_kind p); ou_go. apply ou_rd.
Qed.
Lemma ou_loadm : forall al p mk (m : mem T), ou (mp_loadm SS T O al p mk m).
Proof. intros. unfold mp_loadm, simd_maskload. ou_go. Qed.
Lemma ou_mp_store : forall al p v (m : mem T), (mp_kind p = Panel -> mp_af p = true) -> ou (mp_store SS T al p v m).
Proof. intros al p v m H. unfold mp_store, simd_store. destruct (mp_kind p), (mp_af p); try (discriminate (H eq_refl)); ou_go. Qed.
Lemma ou_mp_storem : forall al p v mk (m : mem T), (mp_kind p = Panel -> mp_af p = true) -> ou (mp_storem SS T al p v mk m).
Proof. intros al p v mk m H. unfold mp_storem, simd_maskstore. destruct (mp_kind p), (mp_af p); try (discriminate (H eq_refl)); ou_go. Qed.
Lemma ou_cm : forall X p (e : res X), mp_so p = columnMajor -> ou e -> ou (cm_only p e).
Proof. intros X p e H He. unfold cm_only. rewrite H. exact He. Qed.
Lemma ou_reg_map : forall N RM cj ci g r, (forall i j v, ou (g i j v)) -> ou (reg_map T N RM cj ci g r).
Proof. intros. unfold reg_map. ou_go. auto. Qed.
Lemma ou_axpy : forall al N RM beta a m r, mp_so a = columnMajor -> ou (reg_axpy SS T O al N RM beta a m r).
Proof. intros. apply ou_cm; auto. apply ou_reg_map. intros. ou_go. apply ou_mp_load. Qed.
Lemma ou_axpy_mn : forall al N RM beta a mm nn m r, mp_so a = columnMajor -> ou (reg_axpy_mn SS T O al N RM beta a mm nn m r).
Proof. intros. apply ou_cm; auto. apply ou_reg_map. intros. ou_go. apply ou_mp_load. Qed.
Lemma ou_loadb : forall al N RM beta a m r, mp_so a = columnMajor -> ou (reg_loadb SS T O al N RM beta a m r).
Proof. intros. apply ou_cm; auto. apply ou_reg_map. intros. ou_go. apply ou_mp_load. Qed.
Lemma ou_loadb_mn : forall al N RM beta a mm nn m r, mp_so a = columnMajor -> ou (reg_loadb_mn SS T O al N RM beta a mm nn m r).
Proof. intros. apply ou_cm; auto. ou_go; first [apply ou_mp_load|apply ou_loadm]. Qed.
Lemma ou_store : forall al N RM p r m, mp_so p = columnMajor -> (mp_kind p = Panel -> mp_af p = true) -> ou (reg_store SS T al N RM p r m).
Proof. intros. apply ou_cm; auto. ou_go. apply ou_mp_store. auto. Qed.
Lemma ou_store_mn : forall al N RM p mm nn r m, mp_so p = columnMajor -> (mp_kind p = Panel -> mp_af p = true) -> ou (reg_store_mn SS T al N RM p mm nn r m).
Proof. intros. apply ou_cm; auto. ou_go; [apply ou_mp_store|apply ou_mp_storem]; auto. Qed.
(** The vector can be loaded along its direction. *)
Definition along_major (a : vptr) : Prop := match a with VMat tf p => tflag_eqb tf (majorOrientation (mp_so p)) = true | _ => True end.
Lemma ou_vload : forall al a m, along_major a -> ou (vload SS T O al a m).
Proof.
  intros al [tf p|s af b|s b] m H; unfold vload, mp_loadt, simd_load, gather; cbn [along_major] in H; [rewrite H|..]; ou_go; apply ou_rd.
Qed.
Lemma along_voff : forall a i, along_major a -> along_major (voff SS a i).
Proof. intros [[] p| |] i; cbn; auto. Qed.
Lemma ou_ger_alpha : forall al N RM alpha a b m r, along_major a -> ou (reg_ger_alpha SS T O al N RM alpha a b m r).
Proof. intros. unfold reg_ger_alpha, load_col, ger_update. ou_go; first [apply ou_rd|apply ou_vload, along_voff; auto]. Qed.
Lemma ou_ger_alpha_mn : forall al N RM alpha a b mm nn m r, along_major a -> ou (reg_ger_alpha_mn SS T O al N RM alpha a b mm nn m r).
Proof. intros. unfold reg_ger_alpha_mn, load_col, ger_update. ou_go; first [apply ou_rd|apply ou_vload, along_voff; auto]. Qed.
Lemma ou_ger : forall al N RM a b m r, along_major a -> ou (reg_ger SS T O al N RM a b m r).
Proof. intros. unfold reg_ger, load_col, ger_update. ou_go; first [apply ou_rd|apply ou_vload, along_voff; auto]. Qed.
Lemma ou_ger_mn : forall al N RM a b mm nn m r, along_major a -> ou (reg_ger_mn SS T O al N RM a b mm nn m r).
Proof. intros. unfold reg_ger_mn, load_col, ger_update. ou_go; first [apply ou_rd|apply ou_vload, along_voff; auto]. Qed.
Lemma col_along : forall p i k, mp_so p = columnMajor -> along_major (VMat columnVector (poff SS p i k)).
Proof. intros p i k H. cbn. rewrite H. reflexivity. Qed.
Lemma ou_gemm : forall al N RM K alpha a b m r, mp_so a = columnMajor -> ou (reg_gemm SS T O al N RM K alpha a b m r).
Proof. intros. apply ou_cm; auto. ou_go. apply ou_ger_alpha, col_along. auto. Qed.
Lemma ou_gemm_mn : forall al N RM K alpha a b md nd m r, mp_so a = columnMajor -> ou (reg_gemm_mn SS T O al N RM K alpha a b md nd m r).
Proof. intros. apply ou_cm; auto. ou_go. apply ou_ger_alpha_mn, col_along. auto. Qed.
Lemma ou_storeLower : forall al N RM p r m, mp_so p = columnMajor -> (mp_kind p = Panel -> mp_af p = true) -> ou (reg_storeLower SS T al N RM p r m).
Proof. intros. apply ou_cm; auto. ou_go; first [apply ou_mp_store|apply ou_mp_storem]; auto. Qed.
Lemma ou_storeLower_mn : forall al N RM p mm nn r m, mp_so p = columnMajor -> (mp_kind p = Panel -> mp_af p = true) -> ou (reg_storeLower_mn SS T al N RM p mm nn r m).
Proof. intros. apply ou_cm; auto. ou_go; first [apply ou_mp_store|apply ou_mp_storem]; auto. Qed.
Lemma ou_reset : forall N RM r, ou (reg_reset T O N RM r).
Proof. intros. apply ou_reg_map. intros. exact I. Qed.
Lemma ou_trmm_right_loop : forall al N RM ck alpha b a m r, ou (trmm_right_loop SS T O al N RM ck alpha b a m r).
Proof.
  intros. unfold trmm_right_loop. apply ou_bind; [|intros; exact I]. apply ou_for. intros k [[r1 b1] a1]. ou_go; first [apply ou_rd|apply ou_mp_load].
Qed.
Lemma ou_trmm_right : forall al N RM alpha b a m r, mp_so b = columnMajor -> ou (reg_trmm_right SS T O al N RM alpha b a Lower false m r).
Proof. intros. apply ou_cm; auto. apply ou_noexcept, ou_trmm_right_loop. Qed.
Lemma ou_trmm_right_mn : forall al N RM alpha b a ul u mm nn m r, mp_so b = columnMajor -> ou (reg_trmm_right_mn SS T O al N RM alpha b a ul u mm nn m r).
Proof. intros. apply ou_cm; auto. apply ou_noexcept, ou_trmm_right_loop. Qed.
Lemma ou_trmm_left : forall al N RM alpha a b m r, mp_so a = columnMajor -> ou (reg_trmm_left SS T O al N RM alpha a Upper false b m r).
Proof.
  intros. apply ou_cm; auto. apply ou_noexcept. cbv iota. apply ou_bind; [|intros; exact I]. apply ou_for. intros k [[r1 a1] b1]. ou_go; first [apply ou_rd|apply ou_mp_load|apply ou_loadm].
Qed.
Lemma ou_kgemm : forall al N RM K alpha a b beta c d r (m : mem T), mp_so a = columnMajor -> mp_so c = columnMajor -> mp_so d = columnMajor ->
  (mp_kind d = Panel -> mp_af d = true) -> ou (kgemm SS T O al N RM K alpha a b beta c d r m).
Proof.
  intros al N RM K alpha a b beta c d r m Ha Hc Hd Hp. unfold kgemm. rewrite Ha, Hc, Hd. cbn [order_eqb negb andb]. ou_go.
  - unfold reg_reset. apply ou_reg_map. intros. exact I.
  - apply ou_ger, col_along. unfold gemm_ger_a. destruct (_ && _ && _); auto.
  - unfold reg_scale. apply ou_reg_map. intros. exact I.
  - apply ou_axpy; auto.
  - apply ou_store; auto.
Qed.
Lemma ou_kgemm_mn : forall al N RM K alpha a b beta c d md nd r (m : mem T), mp_so a = columnMajor -> mp_so c = columnMajor -> mp_so d = columnMajor ->
  (mp_kind d = Panel -> mp_af d = true) -> ou (kgemm_mn SS T O al N RM K alpha a b beta c d md nd r m).
Proof.
  intros al N RM K alpha a b beta c d md nd r m Ha Hc Hd Hp. unfold kgemm_mn. rewrite Ha, Hc, Hd. cbn [order_eqb negb andb]. ou_go.
  - unfold reg_reset. apply ou_reg_map. intros. exact I.
  - apply ou_ger_mn, col_along. auto.
  - unfold reg_scale. apply ou_reg_map. intros. exact I.
  - apply ou_axpy_mn; auto.
  - apply ou_store_mn; auto.
Qed.
End OkOrUB.
