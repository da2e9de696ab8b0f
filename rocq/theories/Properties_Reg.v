(** Properties_Reg.v -- C11-C14, C27, C30: RegisterMatrix, for every shape (RM registers of SS rows by N columns). *)
From Coq Require Import Arith Lia List Bool PeanoNat ZArith Reals Lra.
From Verif Require Import Base Base_Proofs Spec Algebra_Proofs Layout_Model Layout_Proofs Simd_Model Simd_Proofs
  Reg_Model Reg_Proofs Reg_Proofs2 Vec_Proofs Properties_Layout Instances.
Import ListNotations.

(** A matrix pointer the register kernels accept: column-major, a panel pointer's spacing is a multiple of the panel
    size, an aligned pointer really is aligned. *)
Definition col_ptr (SS : nat) (p : mptr) : Prop := mptr_wf SS p /\ mp_so p = columnMajor.
(** Panel pointers can only be stored through when they carry the aligned flag (static_assert in store). *)
Definition storable (p : mptr) : Prop := mp_kind p = Panel -> mp_af p = true.
(** A panel pointer that starts at a panel boundary. *)
Definition panel_start (SS : nat) (p : mptr) : Prop := mp_kind p = Panel -> mp_base p mod SS = 0.

(** Sample operands used to show that hypotheses can be met: an aligned dense one and an aligned panel one. *)
Definition dense_ptr : mptr := MPtr Dense columnMajor true true 0 8.
Definition panel_ptr : mptr := MPtr Panel columnMajor true true 0 12.
Lemma dense_ptr_ok : col_ptr 4 dense_ptr /\ storable dense_ptr /\ distinct 8 3 (addr 4 dense_ptr) /\
  allocated (fun a => a <? 24) 8 3 (addr 4 dense_ptr).
Proof.
  split; [split; [split; cbn; auto|auto]|]. split; [intros H; discriminate H|]. split.
  - intros i j i' j' Hi Hj Hi' Hj'. cbn. intros E. nia.
  - intros i j Hi Hj. apply Nat.ltb_lt. cbn. nia.
Qed.
Lemma panel_ptr_ok : col_ptr 4 panel_ptr /\ storable panel_ptr /\ distinct 8 3 (addr 4 panel_ptr) /\
  allocated (fun a => a <? 24) 8 3 (addr 4 panel_ptr).
Proof.
  split; [split; [split; cbn; auto|auto]|]. split; [intros _; auto|]. split.
  - intros i j i' j' Hi Hj Hi' Hj'. unfold addr, ptr_offset, panel_ptr. cbn [mp_kind mp_so mp_af mp_base mp_sp].
    rewrite !Nat.add_0_r, Nat.sub_0_r, !Nat.add_0_l.
    destruct (dm i 4 ltac:(lia)), (dm i' 4 ltac:(lia)). intros E. nia.
  - intros i j Hi Hj. apply Nat.ltb_lt. unfold addr, ptr_offset, panel_ptr. cbn [mp_kind mp_so mp_af mp_base mp_sp].
    rewrite !Nat.add_0_r, Nat.sub_0_r, !Nat.add_0_l. destruct (dm i 4 ltac:(lia)). nia.
Qed.

Section Props.
Variable SS : nat.
Hypothesis HSS : 0 < SS.
Variable T : Type.
Variable O : Ops T.

(* ------------------------------------------------------------------ C12, C13 *)
Theorem C12_full_store : forall al N RM p r, col_ptr SS p -> storable p ->
  allocated al (RM * SS) N (addr SS p) -> distinct (RM * SS) N (addr SS p) ->
  writes (reg_store SS T al N RM p r) (block (RM * SS) N) (addr SS p) (reg_at SS T r).
Proof.
  intros al N RM p r [Hw Hs] Hst Hal Hd.
  destruct (reg_store_region SS HSS T al N RM p r Hw Hs Hst Hal) as (W & E & R).
  apply (region_writes T _ W _ _ _ E R). intros i j i' j' [] [] X. apply Hd; auto.
Qed.

Theorem C12_partial_store : forall al N RM p r mm nn, col_ptr SS p -> storable p ->
  mm <= RM * SS -> nn <= N -> allocated al mm nn (addr SS p) -> distinct mm nn (addr SS p) ->
  writes (reg_store_mn SS T al N RM p mm nn r) (block mm nn) (addr SS p) (reg_at SS T r).
Proof.
  intros al N RM p r mm nn [Hw Hs] Hst Hm Hn Hal Hd.
  destruct (reg_store_mn_region SS HSS T al N RM p r Hw Hs Hst mm nn Hm Hn Hal) as (W & E & R).
  apply (region_writes T _ W _ _ _ E R). intros i j i' j' [] [] X. apply Hd; auto.
Qed.

Theorem C13_storeLower : forall al N RM p r, col_ptr SS p -> storable p ->
  (forall i j, lower (RM * SS) N i j -> al (addr SS p i j) = true) -> distinct (RM * SS) N (addr SS p) ->
  writes (reg_storeLower SS T al N RM p r) (lower (RM * SS) N) (addr SS p) (reg_at SS T r).
Proof.
  intros al N RM p r [Hw Hs] Hst Hal Hd.
  destruct (reg_storeLower_region SS HSS T al N RM p r Hw Hs Hst) as (W & E & R).
  { intros i j Hi Hj. apply Hal. unfold lower. lia. }
  apply (region_writes T _ W _ _ _ E).
  - eapply region_iff; [|exact R]. intros. cbv [lower]. tauto.
  - unfold lower. intros i j i' j' H H' X. apply Hd; tauto.
Qed.

Theorem C13_storeLower_sized : forall al N RM p r mm nn, col_ptr SS p -> storable p ->
  mm <= RM * SS -> nn <= N ->
  (forall i j, lower mm nn i j -> al (addr SS p i j) = true) -> distinct mm nn (addr SS p) ->
  writes (reg_storeLower_mn SS T al N RM p mm nn r) (lower mm nn) (addr SS p) (reg_at SS T r).
Proof.
  intros al N RM p r mm nn [Hw Hs] Hst Hm Hn Hal Hd.
  destruct (reg_storeLower_mn_region SS HSS T al N RM p r Hw Hs Hst mm nn Hm Hn) as (W & E & R).
  { intros i j Hi Hj. apply Hal. unfold lower. lia. }
  apply (region_writes T _ W _ _ _ E).
  - eapply region_iff; [|exact R]. intros. cbv [lower]. tauto.
  - unfold lower. intros i j i' j' H H' X. apply Hd; tauto.
Qed.

(* ------------------------------------------------------------------ C11 *)
(** load(p) then store(q): element by element copy, nothing else changes (q may overlap p: the loads come first). *)
Theorem C11_load_store : forall al N RM p q r0 m, col_ptr SS p -> col_ptr SS q -> storable q ->
  allocated al (RM * SS) N (addr SS p) -> allocated al (RM * SS) N (addr SS q) -> distinct (RM * SS) N (addr SS q) ->
  exists m', (r <- reg_load SS T O al N RM p m r0 ;; reg_store SS T al N RM q r m) = Ok m' /\
    updated (block (RM * SS) N) (addr SS q) (fun i j => m (addr SS p i j)) m m'.
Proof.
  intros al N RM p q r0 m [Hwp Hsp] Hq Hst Hap Haq Hd.
  destruct (reg_load_ok SS HSS T O al N RM p m r0 Hwp Hsp Hap) as (r & E & P). rewrite E. cbn [bind].
  destruct (C12_full_store al N RM q r Hq Hst Haq Hd m) as (m' & E' & U1 & U2).
  exists m'. split; auto. split; auto. intros i j Hij. rewrite U1 by auto. destruct Hij. auto.
Qed.

(** Partial form: load(1, p, mm, nn) then store(q, mm, nn). Only the mm-by-nn block needs to be allocated for a
    source without the (aligned and padded) flags; a padded aligned source is read up to the next multiple of SS. *)
Theorem C11_load_store_sized : forall al N RM beta p q r0 mm nn m, col_ptr SS p -> panel_start SS p -> col_ptr SS q -> storable q ->
  mm <= RM * SS -> nn <= N ->
  allocated al (if mp_af p && mp_pf p then nextMultiple mm SS else mm) nn (addr SS p) ->
  allocated al mm nn (addr SS q) -> distinct mm nn (addr SS q) ->
  exists m', (r <- reg_loadb_mn SS T O al N RM beta p mm nn m r0 ;; reg_store_mn SS T al N RM q mm nn r m) = Ok m' /\
    updated (block mm nn) (addr SS q) (fun i j => omul O beta (m (addr SS p i j))) m m'.
Proof.
  intros al N RM beta p q r0 mm nn m [Hwp Hsp] Hlp Hq Hst Hm Hn Hap Haq Hd.
  destruct (reg_loadb_mn_ok SS HSS T O al N RM beta p mm nn m r0 Hwp Hsp Hlp Hm) as (r & E & P & _).
  { rewrite Nat.min_l by auto. destruct (mp_af p && mp_pf p); exact Hap. }
  rewrite E. cbn [bind].
  destruct (C12_partial_store al N RM q r mm nn Hq Hst Hm Hn Haq Hd m) as (m' & E' & U1 & U2).
  exists m'. split; auto. split; auto. intros i j Hij. rewrite U1 by auto. destruct Hij. rewrite P; auto. lia.
Qed.

(* ------------------------------------------------------------------ C14 *)
(** ger(alpha, a, b) *)
Theorem C14_ger : forall al N RM alpha a b m r, vptr_ok SS a ->
  (forall i, i < RM * SS -> al (vaddr SS a i) = true) -> (forall j, j < N -> al (vaddr SS b j) = true) ->
  exists r', reg_ger_alpha SS T O al N RM alpha a b m r = Ok r' /\
    forall i j, i < RM * SS -> j < N ->
      reg_at SS T r' i j = ofma O (omul O alpha (m (vaddr SS a i))) (m (vaddr SS b j)) (reg_at SS T r i j).
Proof.
  intros al N RM alpha a b m r Ha Hal Hb.
  destruct (reg_ger_vec_ok SS HSS T O al N RM always (fun x => vmul T O (vbroadcast T alpha) x) (fun x => omul O alpha x) a b m r)
    as (r' & E & P & _); auto. exists r'. split; auto.
Qed.

(** ger(a, b) *)
Theorem C14_ger_unscaled : forall al N RM a b m r, vptr_ok SS a ->
  (forall i, i < RM * SS -> al (vaddr SS a i) = true) -> (forall j, j < N -> al (vaddr SS b j) = true) ->
  exists r', reg_ger SS T O al N RM a b m r = Ok r' /\
    forall i j, i < RM * SS -> j < N ->
      reg_at SS T r' i j = ofma O (m (vaddr SS a i)) (m (vaddr SS b j)) (reg_at SS T r i j).
Proof.
  intros al N RM a b m r Ha Hal Hb.
  destruct (reg_ger_vec_ok SS HSS T O al N RM always (fun x => x) (fun x => x) a b m r)
    as (r' & E & P & _); auto. exists r'. split; auto.
Qed.

(** ger(alpha, a, b, mm, nn): only columns j < nn change; b is read only there. *)
Theorem C14_ger_sized : forall al N RM alpha a b mm nn m r, vptr_ok SS a ->
  (forall i, i < RM * SS -> al (vaddr SS a i) = true) -> (forall j, j < N -> j < nn -> al (vaddr SS b j) = true) ->
  exists r', reg_ger_alpha_mn SS T O al N RM alpha a b mm nn m r = Ok r' /\
    forall i j, i < RM * SS -> j < N -> reg_at SS T r' i j =
      if j <? nn then ofma O (omul O alpha (m (vaddr SS a i))) (m (vaddr SS b j)) (reg_at SS T r i j) else reg_at SS T r i j.
Proof.
  intros al N RM alpha a b mm nn m r Ha Hal Hb.
  destruct (reg_ger_vec_ok SS HSS T O al N RM (fun j => j <? nn) (fun x => vmul T O (vbroadcast T alpha) x) (fun x => omul O alpha x) a b m r)
    as (r' & E & P & Q); auto.
  { intros j Hj C. apply Nat.ltb_lt in C. auto. }
  exists r'. split; auto. intros i j Hi Hj. destruct (j <? nn) eqn:C; auto.
Qed.

(** The same without the factor. *)
Theorem C14_ger_unscaled_sized : forall al N RM a b mm nn m r, vptr_ok SS a ->
  (forall i, i < RM * SS -> al (vaddr SS a i) = true) -> (forall j, j < N -> j < nn -> al (vaddr SS b j) = true) ->
  exists r', reg_ger_mn SS T O al N RM a b mm nn m r = Ok r' /\
    forall i j, i < RM * SS -> j < N -> reg_at SS T r' i j =
      if j <? nn then ofma O (m (vaddr SS a i)) (m (vaddr SS b j)) (reg_at SS T r i j) else reg_at SS T r i j.
Proof.
  intros al N RM a b mm nn m r Ha Hal Hb.
  destruct (reg_ger_vec_ok SS HSS T O al N RM (fun j => j <? nn) (fun x => x) (fun x => x) a b m r)
    as (r' & E & P & Q); auto.
  { intros j Hj C. apply Nat.ltb_lt in C. auto. }
  exists r'. split; auto. intros i j Hi Hj. destruct (j <? nn) eqn:C; auto.
Qed.

Theorem C14_axpy : forall al N RM beta p m r, col_ptr SS p -> allocated al (RM * SS) N (addr SS p) ->
  exists r', reg_axpy SS T O al N RM beta p m r = Ok r' /\
    forall i j, i < RM * SS -> j < N -> reg_at SS T r' i j = ofma O beta (m (addr SS p i j)) (reg_at SS T r i j).
Proof. intros al N RM beta p m r [Hw Hs] Hal. apply reg_axpy_ok; auto. Qed.

Theorem C14_scaled_load : forall al N RM beta p m r, col_ptr SS p -> allocated al (RM * SS) N (addr SS p) ->
  exists r', reg_loadb SS T O al N RM beta p m r = Ok r' /\
    forall i j, i < RM * SS -> j < N -> reg_at SS T r' i j = omul O beta (m (addr SS p i j)).
Proof. intros al N RM beta p m r [Hw Hs] Hal. apply reg_loadb_ok; auto. Qed.

Theorem C14_scale : forall N RM alpha r, exists r', reg_scale T O N RM alpha r = Ok r' /\
  forall i j, i < RM * SS -> j < N -> reg_at SS T r' i j = omul O (reg_at SS T r i j) alpha.
Proof. intros. apply reg_scale_ok; auto. Qed.

Theorem C14_reset : forall N RM r, exists r', reg_reset T O N RM r = Ok r' /\
  forall i j, i < RM * SS -> j < N -> reg_at SS T r' i j = o0 O.
Proof. intros. apply reg_reset_ok; auto. Qed.

(* ------------------------------------------------------------------ C30 *)
(** trsm(Right, Upper, A): exact operation sequence; only A(k,j), k <= j, is read. *)
Theorem C30_trsm_ops : forall al N RM A m r,
  (forall k j, k <= j -> j < N -> al (addr SS A k j) = true) ->
  exists r', reg_trsm SS T O al N RM A m r = Ok r' /\
    forall i j, i < RM * SS -> j < N ->
      reg_at SS T r' i j = odiv O (fnma_chain O j (fun k => m (addr SS A k j)) (fun k => reg_at SS T r' i k) (reg_at SS T r i j))
                                  (m (addr SS A j j)).
Proof.
  intros al N RM A m r H. destruct (reg_trsm_ok SS HSS T O al N RM A m r H) as (r' & E & P & _). exists r'. auto.
Qed.

(** Over a field with non-zero diagonal: X * A = B, where A is taken as upper triangular. *)
Theorem C30_trsm_solves : field_laws O -> forall al N RM A m r,
  (forall k j, k <= j -> j < N -> al (addr SS A k j) = true) ->
  (forall j, j < N -> m (addr SS A j j) <> o0 O) ->
  exists r', reg_trsm SS T O al N RM A m r = Ok r' /\
    forall i j, i < RM * SS -> j < N ->
      sum O N (fun k => omul O (reg_at SS T r' i k) (if k <=? j then m (addr SS A k j) else o0 O)) = reg_at SS T r i j.
Proof.
  intros FL al N RM A m r Hal Hd. pose proof (fl_ring O FL) as RL. pose proof (alg_ring O RL) as RT.
  destruct (C30_trsm_ops al N RM A m r Hal) as (r' & E & P). exists r'. split; auto.
  intros i j Hi Hj. rewrite (sum_trunc O RL N (S j)) by
    (try lia; intros k Hk; rewrite (proj2 (Nat.leb_gt _ _)) by lia; apply (mul_0_r O RL)).
  cbn [sum]. rewrite Nat.leb_refl. pose proof (P i j Hi Hj) as Q.
  assert (Q' : omul O (reg_at SS T r' i j) (m (addr SS A j j)) =
     osub O (reg_at SS T r i j) (sum O j (fun k => omul O (m (addr SS A k j)) (reg_at SS T r' i k)))).
  { rewrite Q at 1. rewrite (fl_div O FL) by auto. apply fnma_chain_sum; auto. }
  rewrite Q'. rewrite (sum_ext O j _ (fun k => omul O (m (addr SS A k j)) (reg_at SS T r' i k))).
  - rewrite (rl_add_comm O RL). apply (rl_sub O RL).
  - intros k Hk. rewrite (proj2 (Nat.leb_le _ _)) by lia. apply (rl_mul_comm O RL).
Qed.

(* ------------------------------------------------------------------ C27 *)
(** potrf(): left-looking recurrence; the result depends on the lower part of the input only (see C27_lower_only). *)
Theorem C27_potrf_ops : forall N RM r, N <= RM * SS ->
  exists r', reg_potrf SS T O N RM r = Ok r' /\
    forall i j, lower (RM * SS) N i j ->
      reg_at SS T r' i j =
      odiv O (fnma_chain O j (fun k => reg_at SS T r' j k) (fun k => reg_at SS T r' i k) (reg_at SS T r i j))
             (osqrt O (fnma_chain O j (fun k => reg_at SS T r' j k) (fun k => reg_at SS T r' j k) (reg_at SS T r j j))).
Proof.
  intros N RM r H. destruct (reg_potrf_ok SS HSS T O N RM r H) as (r' & E & P & _). exists r'. split; auto.
  intros i j (A & B & C). auto.
Qed.

(** What is above the diagonal of the input has no influence on the factor. *)
Theorem C27_lower_only : forall N RM r1 r2, N <= RM * SS ->
  (forall i j, lower (RM * SS) N i j -> reg_at SS T r1 i j = reg_at SS T r2 i j) ->
  exists r1' r2', reg_potrf SS T O N RM r1 = Ok r1' /\ reg_potrf SS T O N RM r2 = Ok r2' /\
    forall i j, lower (RM * SS) N i j -> reg_at SS T r1' i j = reg_at SS T r2' i j.
Proof.
  intros N RM r1 r2 H L.
  destruct (C27_potrf_ops N RM r1 H) as (a & Ea & Pa). destruct (C27_potrf_ops N RM r2 H) as (b & Eb & Pb).
  exists a, b. split; auto. split; auto. intros i j. revert i. induction j as [j IH] using lt_wf_ind. intros i Hij.
  rewrite Pa, Pb by auto. destruct Hij as (X & Y & Z).
  f_equal; [|f_equal]; rewrite ?(L i j), ?(L j j) by (unfold lower; lia); apply fnma_chain_ext'; intros k Hk; apply IH; unfold lower; lia.
Qed.
End Props.

(** Over the reals: if every pivot is positive then L * L^T reproduces the lower part of the input.  [rops] are the
    real numbers with exact operations. *)
Theorem C27_potrf_reals : forall SS N RM r, 0 < SS -> N <= RM * SS ->
  exists r', reg_potrf SS R rops N RM r = Ok r' /\
   ((forall j, j < N -> (0 < reg_at SS R r j j - sum rops j (fun k => reg_at SS R r' j k * reg_at SS R r' j k))%R) ->
    (forall j, j < N -> (0 < reg_at SS R r' j j)%R) /\
    forall i j, lower (RM * SS) N i j ->
      sum rops (S j) (fun k => reg_at SS R r' i k * reg_at SS R r' j k)%R = reg_at SS R r i j).
Proof.
  intros SS N RM r HSS H. destruct (C27_potrf_ops SS HSS R rops N RM r H) as (r' & E & P).
  exists r'. split; auto. intros Hp.
  set (L := reg_at SS R r') in *. set (A := reg_at SS R r) in *.
  assert (D : forall j, j < N -> (L j j * L j j = A j j - sum rops j (fun k => L j k * L j k) /\ 0 < L j j)%R).
  { intros j Hj. rewrite (P j j) by (unfold lower; lia). rewrite !(fnma_chain_sum rops rops_ring).
    specialize (Hp j Hj). cbn [osub omul odiv osqrt rops]. set (x := (A j j - _)%R) in *.
    assert (X : (x / sqrt x = sqrt x)%R).
    { rewrite <- (sqrt_sqrt x) at 1 by lra. field. apply Rgt_not_eq. apply sqrt_lt_R0. auto. }
    rewrite X. split; [apply sqrt_sqrt; lra|apply sqrt_lt_R0; auto]. }
  split; [intros j Hj; apply D; auto|]. intros i j Hij. cbn [sum]. cbn [oadd rops].
  assert (Hj : j < N) by (unfold lower in Hij; lia).
  destruct (D j Hj) as [D1 D2]. rewrite (P i j Hij) at 1. rewrite !(fnma_chain_sum rops rops_ring).
  cbn [osub omul odiv osqrt rops].
  assert (Q : sqrt (A j j - sum rops j (fun k => L j k * L j k))%R = L j j).
  { rewrite <- D1. apply sqrt_square. lra. }
  rewrite Q. rewrite (sum_ext rops j (fun k => L j k * L i k)%R (fun k => L i k * L j k)%R) by (intros; apply Rmult_comm).
  replace (sum rops j (fun k => L j k * L i k)%R) with (sum rops j (fun k => L i k * L j k)%R) by (apply sum_ext; intros; apply Rmult_comm).
  field. apply Rgt_not_eq. auto.
Qed.

(* ------------------------------------------------------------------ examples *)
Definition sample_reg : nat -> nat -> nat -> Z := fun i j l => Z.of_nat (100 * i + 10 * j + l).
Definition sample_mem : nat -> Z := fun a => Z.of_nat (3 * a + 1).
Example C11_example : exists m', (r <- reg_load 4 Z zops (fun a => a <? 24) 3 2 dense_ptr sample_mem sample_reg ;;
    reg_store 4 Z (fun a => a <? 24) 3 2 panel_ptr r sample_mem) = Ok m' /\
  map m' [0; 4; 12; 23; 24] = [sample_mem 0; sample_mem 8; sample_mem 4; sample_mem 23; sample_mem 24].
Proof. eexists. split; [vm_compute; reflexivity|]. vm_compute. reflexivity. Qed.
Example C12_example : exists m', reg_store_mn 4 Z (fun a => a <? 24) 3 2 dense_ptr 5 2 sample_reg sample_mem = Ok m' /\
  map m' [0; 4; 5; 12; 13; 16] = [0; 100; 16; 110; 40; 49]%Z.
Proof. eexists. split; [vm_compute; reflexivity|]. vm_compute. reflexivity. Qed.
Example C13_example : exists m', reg_storeLower_mn 4 Z (fun a => a <? 24) 3 2 dense_ptr 5 2 sample_reg sample_mem = Ok m' /\
  map m' [0; 4; 5; 8; 9; 12; 13; 16] = [0; 100; 16; 25; 11; 110; 40; 49]%Z.
Proof. eexists. split; [vm_compute; reflexivity|]. vm_compute. reflexivity. Qed.
Example C14_example : vptr_ok 4 (VMat columnVector dense_ptr) /\ vptr_ok 4 (VDyn 3 5) /\ vptr_ok 4 (VStat 1 true 8).
Proof. cbn. repeat split; auto. Qed.
Example C30_example : field_laws rops /\ (forall j, j < 3 -> (fun a => INR a + 1)%R (addr 4 dense_ptr j j) <> o0 rops).
Proof. split; [apply rops_field|]. intros j _. cbn [o0 rops]. pose proof (pos_INR (addr 4 dense_ptr j j)). lra. Qed.
(** The Cholesky factor of the register holding the identity in its first N columns has positive pivots. *)
Example C27_example : forall j, j < 2 -> exists r', reg_potrf 4 R rops 2 1 (fun _ j l => if l =? j then 1%R else 0%R) = Ok r' /\
  (0 < reg_at 4 R (fun _ j l => if l =? j then 1%R else 0%R) j j - sum rops j (fun k => reg_at 4 R r' j k * reg_at 4 R r' j k))%R.
Proof.
  intros j Hj. destruct (C27_potrf_ops 4 ltac:(lia) R rops 2 1 (fun _ j l => if l =? j then 1%R else 0%R) ltac:(lia)) as (r' & E & P).
  exists r'. split; auto. destruct j as [|[|j]]; [| |lia].
  - cbn. lra.
  - cbn [sum oadd o0 rops].
    rewrite (P 1 0) by (unfold lower; lia). cbn. unfold Rdiv. rewrite Rmult_0_l. lra.
Qed.
