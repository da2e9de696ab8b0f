(** Reg_Proofs.v -- RegisterMatrix operations, element by element. *)
From Coq Require Import Arith Lia List Bool PeanoNat ZArith.
From Verif Require Import Base Base_Proofs Layout_Model Layout_Proofs Simd_Model Simd_Proofs Reg_Model.
Import ListNotations.

Section Reg.
Variable SS : nat.
Hypothesis HSS : 0 < SS.
Variable T : Type.
Variable O : Ops T.
Notation vec := (vec T).
Notation regs := (regs T).
Notation addr := (addr SS).
Notation poff := (poff SS).
Notation reg_at := (reg_at SS T).

(** ** Elements and registers *)
Lemma mult_mod0 : forall i, (SS * i) mod SS = 0.
Proof. intros. rewrite Nat.mul_comm. apply Nat.mod_mul. lia. Qed.
Lemma mult_mod0' : forall i, (i * SS) mod SS = 0.
Proof. intros. apply Nat.mod_mul. lia. Qed.

Lemma elem_split : forall i RM, i < RM * SS -> i / SS < RM /\ i mod SS < SS /\ i = SS * (i / SS) + i mod SS.
Proof.
  intros i RM H. destruct (dm i SS HSS) as [E L]. repeat split; auto.
  apply Nat.div_lt_upper_bound; lia.
Qed.

Lemma reg_at_lane : forall r i l j, l < SS -> reg_at r (SS * i + l) j = r i j l.
Proof. intros. unfold Reg_Model.reg_at. rewrite div_q, mod_q; auto. Qed.

Lemma rupd_same : forall r i j v, rupd T r i j v i j = v.
Proof. intros. unfold rupd. rewrite !Nat.eqb_refl. reflexivity. Qed.
Lemma rupd_other : forall r i j v i' j', i' <> i \/ j' <> j -> rupd T r i j v i' j' = r i' j'.
Proof.
  intros. unfold rupd. destruct (Nat.eqb_spec i' i), (Nat.eqb_spec j' j); simpl; auto. destruct H; contradiction.
Qed.

(** ** Loop nests over registers *)
(** One column: for i < RM: if (ci i) v_[i][j] = g i v_[i][j] *)
Lemma col_loop : forall RM (ci : nat -> bool) j (step : nat -> regs -> res regs) (g : nat -> vec -> res vec) (Q : nat -> vec -> Prop) r,
  (forall i r, i < RM -> step i r = if ci i then v <- g i (r i j) ;; Ok (rupd T r i j v) else Ok r) ->
  (forall i, i < RM -> ci i = true -> exists v, g i (r i j) = Ok v /\ Q i v) ->
  exists r', for_ 0 RM step r = Ok r' /\
    (forall i, i < RM -> ci i = true -> Q i (r' i j)) /\
    (forall i' j', ~ (i' < RM /\ ci i' = true /\ j' = j) -> r' i' j' = r i' j').
Proof.
  intros RM ci j step g Q r Hstep Hg.
  destruct (for_inv regs (fun k r' =>
      (forall i, i < k -> ci i = true -> Q i (r' i j)) /\
      (forall i' j', ~ (i' < k /\ ci i' = true /\ j' = j) -> r' i' j' = r i' j')) 0 RM step r) as (r' & E & H1 & H2).
  - lia.
  - split; [lia|auto].
  - intros i r0 Hi (A & B). rewrite Hstep by lia. destruct (ci i) eqn:C.
    + assert (Eq : r0 i j = r i j) by (apply B; lia). rewrite Eq.
      destruct (Hg i ltac:(lia) C) as (v & Ev & Hv). rewrite Ev. simpl. eexists. split; [reflexivity|]. split.
      * intros i' Hi' C'. destruct (Nat.eq_dec i' i) as [->|N].
        -- rewrite rupd_same. auto.
        -- rewrite rupd_other by auto. apply A; auto. lia.
      * intros i' j' Hn. rewrite rupd_other.
        -- apply B. intros (X & Y & Z). apply Hn. repeat split; auto.
        -- destruct (Nat.eq_dec i' i) as [->|]; auto. right. intros ->. apply Hn. repeat split; auto.
    + exists r0. split; auto. split.
      * intros i' Hi' C'. apply A; auto. assert (i' <> i) by congruence. lia.
      * intros i' j' Hn. apply B. intros (X & Y & Z). apply Hn. repeat split; auto.
  - exists r'. split; auto.
Qed.

(** The nest: columns j (if cj), registers i (if ci). *)
Lemma nest_loop : forall N RM (cj ci : nat -> bool) (step : nat -> regs -> res regs) (g : nat -> nat -> vec -> res vec)
    (Q : nat -> nat -> vec -> Prop) r,
  (forall j r, j < N -> cj j = true ->
     step j r = for_ 0 RM (fun i r => if ci i then v <- g i j (r i j) ;; Ok (rupd T r i j v) else Ok r) r) ->
  (forall j r, j < N -> cj j = false -> step j r = Ok r) ->
  (forall i j, i < RM -> j < N -> cj j = true -> ci i = true -> exists v, g i j (r i j) = Ok v /\ Q i j v) ->
  exists r', for_ 0 N step r = Ok r' /\
    (forall i j, i < RM -> j < N -> cj j = true -> ci i = true -> Q i j (r' i j)) /\
    (forall i j, ~ (i < RM /\ j < N /\ cj j = true /\ ci i = true) -> r' i j = r i j).
Proof.
  intros N RM cj ci step g Q r Hs1 Hs2 Hg.
  destruct (for_inv regs (fun k r' =>
      (forall i j, i < RM -> j < k -> cj j = true -> ci i = true -> Q i j (r' i j)) /\
      (forall i j, ~ (i < RM /\ j < k /\ cj j = true /\ ci i = true) -> r' i j = r i j)) 0 N step r) as (r' & E & H1 & H2).
  - lia.
  - split; [lia|auto].
  - intros j r0 Hj (A & B). destruct (cj j) eqn:C.
    + rewrite Hs1 by (auto; lia).
      destruct (col_loop RM ci j (fun i r => if ci i then v <- g i j (r i j) ;; Ok (rupd T r i j v) else Ok r)
                  (fun i v => g i j v) (fun i v => Q i j v) r0) as (r1 & E1 & A1 & B1).
      * auto.
      * intros i Hi Ci. assert (Eq : r0 i j = r i j) by (apply B; lia). rewrite Eq. apply Hg; auto; lia.
      * exists r1. split; auto. split.
        -- intros i' j' Hi' Hj' Cj' Ci'. destruct (Nat.eq_dec j' j) as [->|N0].
           ++ apply A1; auto.
           ++ rewrite B1 by tauto. apply A; auto. lia.
        -- intros i' j' Hn. rewrite B1; [apply B|].
           ++ intros (X & Y & Z & U). apply Hn. repeat split; auto.
           ++ intros (X & Y & Z). subst. apply Hn. repeat split; auto.
    + rewrite Hs2 by (auto; lia). exists r0. split; auto. split.
      * intros i' j' Hi' Hj' Cj' Ci'. assert (j' <> j) by congruence. apply A; auto. lia.
      * intros i' j' Hn. apply B. intros (X & Y & Z & U). apply Hn. repeat split; auto.
  - exists r'. split; auto.
Qed.

Lemma reg_map_spec : forall N RM cj ci g (Q : nat -> nat -> vec -> Prop) r,
  (forall i j, i < RM -> j < N -> cj j = true -> ci i = true -> exists v, g i j (r i j) = Ok v /\ Q i j v) ->
  exists r', reg_map T N RM cj ci g r = Ok r' /\
    (forall i j, i < RM -> j < N -> cj j = true -> ci i = true -> Q i j (r' i j)) /\
    (forall i j, ~ (i < RM /\ j < N /\ cj j = true /\ ci i = true) -> r' i j = r i j).
Proof.
  intros N RM cj ci g Q r H. unfold reg_map.
  apply (nest_loop N RM cj ci _ g Q r); auto.
  - intros j r0 Hj C. rewrite C. reflexivity.
  - intros j r0 Hj C. rewrite C. reflexivity.
Qed.

(** Element-wise form: all registers. *)
Lemma reg_map_all : forall N RM g (F : nat -> nat -> T) r,
  (forall i j, i < RM -> j < N -> exists v, g i j (r i j) = Ok v /\ forall l, l < SS -> v l = F (SS * i + l) j) ->
  exists r', reg_map T N RM always always g r = Ok r' /\
    forall i j, i < RM * SS -> j < N -> reg_at r' i j = F i j.
Proof.
  intros N RM g F r H.
  destruct (reg_map_spec N RM always always g (fun i j v => forall l, l < SS -> v l = F (SS * i + l) j) r) as (r' & E & A & B).
  - intros i j Hi Hj _ _. auto.
  - exists r'. split; auto. intros i j Hi Hj. destruct (elem_split i RM Hi) as (X & Y & Z).
    rewrite Z at 2. unfold Reg_Model.reg_at. apply A; auto.
Qed.

Lemma reg_reset_ok : forall N RM r, exists r', reg_reset T O N RM r = Ok r' /\
  forall i j, i < RM * SS -> j < N -> reg_at r' i j = o0 O.
Proof.
  intros. apply (reg_map_all N RM _ (fun _ _ => o0 O)). intros. eexists; split; [reflexivity|auto].
Qed.

Lemma reg_scale_ok : forall N RM alpha r, exists r', reg_scale T O N RM alpha r = Ok r' /\
  forall i j, i < RM * SS -> j < N -> reg_at r' i j = omul O (reg_at r i j) alpha.
Proof.
  intros. apply (reg_map_all N RM _ (fun i j => omul O (reg_at r i j) alpha)).
  intros i j Hi Hj. eexists; split; [reflexivity|]. intros l Hl. rewrite reg_at_lane by auto. reflexivity.
Qed.

(** Readability of the first rows x cols elements through p. *)
Definition readable (al : alloc) (p : mptr) (rows cols : nat) : Prop :=
  forall i j, i < rows -> j < cols -> al (addr p i j) = true.

Lemma load_block : forall al p i j m, mptr_wf SS p -> mp_so p = columnMajor -> i mod SS = 0 ->
  (forall l, l < SS -> al (addr p (i + l) j) = true) ->
  exists v, mp_load SS T O al (poff p i j) m = Ok v /\ forall l, l < SS -> v l = m (addr p (i + l) j).
Proof.
  intros al p i j m Hwf Hso Hi Hal.
  assert (E : forall l, addr (poff p i j) l 0 = addr p (i + l) j).
  { intros l. rewrite addr_poff; auto.
    intros _ _. rewrite Hso. auto. }
  destruct (mp_load_cm SS HSS T O al (poff p i j) m) as (v & Ev & Hv).
  - apply poff_wf_cm; auto.
  - exact Hso.
  - intros l Hl. rewrite E. auto.
  - exists v. split; auto. intros l Hl. rewrite Hv, E; auto.
Qed.

Lemma cm_only_ok : forall {R} p (x : res R), mp_so p = columnMajor -> cm_only p x = x.
Proof. intros R p x H. unfold cm_only. rewrite H. reflexivity. Qed.

Lemma reg_load_ok : forall al N RM p m r, mptr_wf SS p -> mp_so p = columnMajor -> readable al p (RM * SS) N ->
  exists r', reg_load SS T O al N RM p m r = Ok r' /\
  forall i j, i < RM * SS -> j < N -> reg_at r' i j = m (addr p i j).
Proof.
  intros al N RM p m r Hwf Hso Hal. unfold reg_load. rewrite cm_only_ok by auto. apply (reg_map_all N RM _ (fun i j => m (addr p i j))).
  intros i j Hi Hj. apply load_block; auto using mult_mod0. intros l Hl. apply Hal; auto. nia.
Qed.

Lemma reg_loadb_ok : forall al N RM beta p m r, mptr_wf SS p -> mp_so p = columnMajor -> readable al p (RM * SS) N ->
  exists r', reg_loadb SS T O al N RM beta p m r = Ok r' /\
  forall i j, i < RM * SS -> j < N -> reg_at r' i j = omul O beta (m (addr p i j)).
Proof.
  intros al N RM beta p m r Hwf Hso Hal. unfold reg_loadb. rewrite cm_only_ok by auto. apply (reg_map_all N RM _ (fun i j => omul O beta (m (addr p i j)))).
  intros i j Hi Hj. destruct (load_block al p (SS * i) j m) as (v & E & H); auto using mult_mod0.
  - intros l Hl. apply Hal; auto. nia.
  - rewrite E. simpl. eexists. split; [reflexivity|]. intros l Hl. unfold vmul, vbroadcast. rewrite H; auto.
Qed.

Lemma reg_axpy_ok : forall al N RM beta p m r, mptr_wf SS p -> mp_so p = columnMajor -> readable al p (RM * SS) N ->
  exists r', reg_axpy SS T O al N RM beta p m r = Ok r' /\
  forall i j, i < RM * SS -> j < N -> reg_at r' i j = ofma O beta (m (addr p i j)) (reg_at r i j).
Proof.
  intros al N RM beta p m r Hwf Hso Hal. unfold reg_axpy. rewrite cm_only_ok by auto.
  apply (reg_map_all N RM _ (fun i j => ofma O beta (m (addr p i j)) (reg_at r i j))).
  intros i j Hi Hj. destruct (load_block al p (SS * i) j m) as (v & E & H); auto using mult_mod0.
  - intros l Hl. apply Hal; auto. nia.
  - rewrite E. simpl. eexists. split; [reflexivity|]. intros l Hl. unfold vfmadd, vbroadcast.
    rewrite H, reg_at_lane by auto. reflexivity.
Qed.

(** The smallest multiple of SS that is >= m: the rows touched by the unmasked partial accesses. *)
Notation up m := (nextMultiple m SS).

Lemma up_reg : forall m i l, SS * i < m -> l < SS -> SS * i + l < up m.
Proof.
  intros m i l H Hl. destruct (nextMultiple_spec m SS HSS) as (A & B & C).
  apply mod0_ex in B; auto. destruct B as [q Eq]. rewrite Eq. rewrite Eq in A.
  assert (i < q) by nia. nia.
Qed.

(** Partial axpy: elements of registers with SS*i < m and columns j < n are updated, the others kept. *)
Lemma reg_axpy_mn_ok : forall al N RM beta p mm nn m r, mptr_wf SS p -> mp_so p = columnMajor ->
  readable al p (min (up mm) (RM * SS)) (min nn N) ->
  exists r', reg_axpy_mn SS T O al N RM beta p mm nn m r = Ok r' /\
  (forall i j, i < RM * SS -> j < N -> i < up mm -> j < nn ->
     reg_at r' i j = ofma O beta (m (addr p i j)) (reg_at r i j)) /\
  (forall i j, i < RM * SS -> j < N -> (up mm <= i \/ nn <= j) -> reg_at r' i j = reg_at r i j).
Proof.
  intros al N RM beta p mm nn m r Hwf Hso Hal. unfold reg_axpy_mn. rewrite cm_only_ok by auto.
  destruct (reg_map_spec N RM (fun j => j <? nn) (fun i => SS * i <? mm)
    (fun i j v => x <- mp_load SS T O al (poff p (SS * i) j) m;; Ok (vfmadd T O (vbroadcast T beta) x v))
    (fun i j v => forall l, l < SS -> v l = ofma O beta (m (addr p (SS * i + l) j)) (reg_at r (SS * i + l) j)) r)
    as (r' & E & A & B).
  - intros i j Hi Hj Cj Ci. apply Nat.ltb_lt in Cj, Ci.
    destruct (load_block al p (SS * i) j m) as (v & E & H); auto using mult_mod0.
    + intros l Hl. apply Hal; [|lia]. pose proof (up_reg mm i l Ci Hl). nia.
    + rewrite E. simpl. eexists. split; [reflexivity|]. intros l Hl. unfold vfmadd, vbroadcast.
      rewrite H, reg_at_lane by auto. reflexivity.
  - exists r'. split; auto.
    assert (U : forall i, i < RM * SS -> i < up mm <-> SS * (i / SS) < mm).
    { intros i Hi. destruct (elem_split i RM Hi) as (X & Y & Z).
      destruct (nextMultiple_spec mm SS HSS) as (A1 & B1 & C1).
      apply mod0_ex in B1; auto. destruct B1 as [q Eq]. rewrite Eq. rewrite Eq in A1, C1.
      split; intros; [assert (i / SS < q) by nia | assert (i / SS < q) by nia]; nia. }
    split.
    + intros i j Hi Hj Hu Hn. destruct (elem_split i RM Hi) as (X & Y & Z).
      apply U in Hu; auto.
      pose proof (A (i / SS) j X Hj ltac:(apply Nat.ltb_lt; auto) ltac:(apply Nat.ltb_lt; auto) (i mod SS) Y) as P.
      rewrite <- Z in P. exact P.
    + intros i j Hi Hj Hn. unfold Reg_Model.reg_at. rewrite B; auto.
      intros (_ & _ & C1 & C2). apply Nat.ltb_lt in C1, C2. apply U in C2; auto. lia.
Qed.

(** ** ger *)
Lemma load_col_ok : forall al RM a f m (av : nat -> T),
  (forall i, i < RM -> exists v, vload SS T O al (voff SS a (i * SS)) m = Ok v /\ forall l, l < SS -> v l = av (SS * i + l)) ->
  (forall v w, (forall l, l < SS -> v l = w l) -> forall l, l < SS -> f v l = f w l) ->
  exists ax, load_col SS T O al RM a f m = Ok ax /\
    forall i, i < RM -> forall l, l < SS -> ax i l = f (fun l => av (SS * i + l)) l.
Proof.
  intros al RM a f m av H Hf. unfold load_col.
  destruct (for_inv (nat -> vec) (fun k ax => forall i, i < k -> forall l, l < SS -> ax i l = f (fun l => av (SS * i + l)) l) 0 RM
    (fun i ax => x <- vload SS T O al (voff SS a (i * SS)) m ;; Ok (fun i' => if i' =? i then f x else ax i')) (fun _ _ => o0 O)) as (ax & E & P).
  - lia.
  - intros; lia.
  - intros i ax Hi HP. destruct (H i ltac:(lia)) as (v & Ev & Hv). rewrite Ev. simpl. eexists. split; [reflexivity|].
    intros i' Hi' l Hl. simpl. destruct (Nat.eqb_spec i' i) as [->|N].
    + apply Hf; auto.
    + apply HP; auto. lia.
  - eauto.
Qed.

Lemma ger_update_ok : forall al N RM cj ax b m r (av : nat -> T) (bv : nat -> T),
  (forall i, i < RM -> forall l, l < SS -> ax i l = av (SS * i + l)) ->
  (forall j, j < N -> cj j = true -> rd al m (vaddr SS b j) = Ok (bv j)) ->
  exists r', ger_update SS T O al N RM cj ax b m r = Ok r' /\
    (forall i j, i < RM * SS -> j < N -> cj j = true -> reg_at r' i j = ofma O (av i) (bv j) (reg_at r i j)) /\
    (forall i j, i < RM * SS -> j < N -> cj j = false -> reg_at r' i j = reg_at r i j).
Proof.
  intros al N RM cj ax b m r av bv Ha Hb. unfold ger_update.
  destruct (nest_loop N RM cj always
     (fun j r => if cj j then bx <- rd al m (vaddr SS b j) ;;
        for_ 0 RM (fun i r => Ok (rupd T r i j (vfmadd T O (ax i) (vbroadcast T bx) (r i j)))) r else Ok r)
     (fun i j v => Ok (vfmadd T O (ax i) (vbroadcast T (bv j)) v))
     (fun i j v => forall l, l < SS -> v l = ofma O (av (SS * i + l)) (bv j) (reg_at r (SS * i + l) j)) r) as (r' & E & A & B).
  - intros j r0 Hj C. rewrite C, Hb by auto. reflexivity.
  - intros j r0 Hj C. rewrite C. reflexivity.
  - intros i j Hi Hj _ _. eexists. split; [reflexivity|]. intros l Hl. unfold vfmadd, vbroadcast.
    rewrite Ha, reg_at_lane by auto. reflexivity.
  - exists r'. split; auto. split.
    + intros i j Hi Hj C. destruct (elem_split i RM Hi) as (X & Y & Z).
      pose proof (A (i / SS) j X Hj C eq_refl (i mod SS) Y) as P. rewrite <- Z in P. exact P.
    + intros i j Hi Hj C. unfold Reg_Model.reg_at. rewrite B; auto. intros (_ & _ & C' & _). congruence.
Qed.

(** Column vector pointer taken from a matrix pointer. *)
Lemma vload_colptr : forall al a k i m, mptr_wf SS a -> mp_so a = columnMajor -> lane_ok SS a ->
  (forall l, l < SS -> al (addr a (i * SS + l) k) = true) ->
  exists v, vload SS T O al (voff SS (VMat columnVector (poff a 0 k)) (i * SS)) m = Ok v /\
    forall l, l < SS -> v l = m (addr a (SS * i + l) k).
Proof.
  intros al a k i m Hwf Hso HL Hal. cbn [voff].
  assert (Hwf1 : mptr_wf SS (poff a 0 k)) by (apply poff_wf_cm; auto; apply Nat.mod_0_l; lia).
  assert (E : forall l, addr (poff (poff a 0 k) (i * SS) 0) l 0 = addr a (i * SS + l) k).
  { intros l. rewrite addr_poff; [|exact HSS|exact Hwf1|].
    - rewrite addr_poff; [|exact HSS|exact Hwf|].
      + rewrite !Nat.add_0_r. reflexivity.
      + intros _ _. rewrite Hso. apply Nat.mod_0_l. lia.
    - intros _ _. cbn [Layout_Model.poff mp_so]. rewrite Hso. apply mult_mod0'. }
  destruct (vload_col SS HSS T O al (poff (poff a 0 k) (i * SS) 0) m) as (v & Ev & Hv).
  - apply poff_wf_cm; auto using mult_mod0'.
  - exact Hso.
  - intros K. cbn [Layout_Model.poff mp_kind mp_base] in *.
    pose proof (poff_wf_cm SS HSS (poff a 0 k) (i * SS) 0 Hwf1 Hso (mult_mod0' i)) as W.
    (* base of the block is addr a (i*SS) k, aligned because the panel pointer is at a boundary *)
    pose proof (E 0) as E0. rewrite (addr_00 SS HSS) in E0. cbn [Layout_Model.poff mp_base] in E0. rewrite E0.
    assert (G : forall p, mptr_wf SS p -> mp_so p = columnMajor -> mp_kind p = Panel -> mp_base p mod SS = 0 ->
      forall x y, x mod SS = 0 -> addr p x y mod SS = 0).
    { clear - HSS. intros [kd so af pf bs sp] [W1 W2] Hs Hk Hb x y Hx. cbn [mp_kind mp_so mp_base mp_sp mp_af] in *. subst.
      unfold Layout_Model.addr, ptr_offset. cbn [mp_kind mp_so mp_af mp_base mp_sp].
      rewrite Hb. replace (if af then 0 else 0) with 0 by (destruct af; auto). rewrite Nat.add_0_r, Nat.sub_0_r.
      specialize (W1 eq_refl). apply mod0_ex in W1; auto. apply mod0_ex in Hb; auto. apply mod0_ex in Hx; auto.
      destruct W1 as [qs ->], Hb as [qb ->], Hx as [qx ->].
      replace (SS * qx) with (SS * qx + 0) by lia. rewrite div_q, mod_q by lia.
      apply ex_mod0 with (qb + qx * qs + y); lia. }
    apply G; auto. rewrite Nat.add_0_r. apply mult_mod0'.
  - intros l Hl. rewrite E. auto.
  - exists v. split; auto. intros l Hl. rewrite Hv, E by auto. f_equal. f_equal. lia.
Qed.

(** Row vector pointer taken from a matrix pointer: only scalar access is used. *)
Lemma vaddr_rowptr : forall b k j, mptr_wf SS b -> (mp_kind b = Panel -> mp_af b = true -> mp_so b = columnMajor -> k mod SS = 0) ->
  vaddr SS (VMat rowVector (poff b k 0)) j = addr b k j.
Proof.
  intros b k j Hwf Hm. cbn [vaddr]. rewrite addr_poff; [|exact HSS|exact Hwf|].
  - rewrite Nat.add_0_r. reflexivity.
  - intros K AF. destruct (mp_so b); auto. apply Nat.mod_0_l; lia.
Qed.

(** ger with the column k of a and row k of b (as called by gemm). *)
Lemma reg_ger_ok : forall al N RM cj f (ff : T -> T) a b k m r,
  mptr_wf SS a -> mp_so a = columnMajor -> lane_ok SS a -> mptr_wf SS b ->
  (mp_kind b = Panel -> mp_af b = true -> mp_so b = columnMajor -> k mod SS = 0) ->
  (forall i, i < RM * SS -> al (addr a i k) = true) ->
  (forall j, j < N -> cj j = true -> al (addr b k j) = true) ->
  (forall v l, f v l = ff (v l)) ->
  exists r', (ax <- load_col SS T O al RM (VMat columnVector (poff a 0 k)) f m ;;
              ger_update SS T O al N RM cj ax (VMat rowVector (poff b k 0)) m r) = Ok r' /\
    (forall i j, i < RM * SS -> j < N -> cj j = true ->
       reg_at r' i j = ofma O (ff (m (addr a i k))) (m (addr b k j)) (reg_at r i j)) /\
    (forall i j, i < RM * SS -> j < N -> cj j = false -> reg_at r' i j = reg_at r i j).
Proof.
  intros al N RM cj f ff a b k m r Hwa Hsa HL Hwb Hkb Ha Hb Hf.
  destruct (load_col_ok al RM (VMat columnVector (poff a 0 k)) f m (fun i => m (addr a i k))) as (ax & E & P).
  - intros i Hi. apply vload_colptr; auto. intros l Hl. apply Ha. nia.
  - intros v w H l Hl. rewrite !Hf, H; auto.
  - rewrite E. simpl.
    apply (ger_update_ok al N RM cj ax _ m r (fun i => ff (m (addr a i k))) (fun j => m (addr b k j))).
    + intros i Hi l Hl. rewrite P, Hf by auto. reflexivity.
    + intros j Hj C. rewrite vaddr_rowptr by auto. unfold rd. rewrite Hb by auto. reflexivity.
Qed.

(** ** Stores *)
Section Stores.
Variables (al : alloc) (N RM : nat) (p : mptr) (r : regs).
Hypothesis Hwf : mptr_wf SS p.
Hypothesis Hso : mp_so p = columnMajor.
Hypothesis Hst : store_ok p.

Lemma st_full : forall i j, (forall l, l < SS -> al (addr p (SS * i + l) j) = true) ->
  exists W, effect (fun m => mp_store SS T al (poff p (SS * i) j) (r i j) m) W /\
    region W (fun i' j' => j' = j /\ SS * i <= i' < SS * i + SS) (addr p) (reg_at r).
Proof.
  intros i j Hal. destruct (mp_store_effect SS HSS T al p (SS * i) j (r i j)) as (W & E & H); auto using mult_mod0.
  exists W. split; auto. apply H. intros l Hl. rewrite reg_at_lane; auto.
Qed.

Lemma st_mask : forall i j mk, (forall l, l < SS -> mk l = true -> al (addr p (SS * i + l) j) = true) ->
  exists W, effect (fun m => mp_storem SS T al (poff p (SS * i) j) (r i j) mk m) W /\
    region W (fun i' j' => j' = j /\ SS * i <= i' < SS * i + SS /\ mk (i' - SS * i) = true) (addr p) (reg_at r).
Proof.
  intros i j mk Hal. destruct (mp_storem_effect SS HSS T al p (SS * i) j (r i j) mk) as (W & E & H); auto using mult_mod0.
  exists W. split; auto. apply H. intros l Hl Hm. rewrite reg_at_lane; auto.
Qed.

(** From "for every k in the range an effect exists" to the effect of the loop. *)
Lemma loop_region : forall lo hi (f : nat -> mem T -> res (mem T)) (P : nat -> nat -> nat -> Prop) ad e,
  (forall k, lo <= k < hi -> exists W, effect (f k) W /\ region W (P k) ad e) ->
  exists W, effect (fun m => for_ lo hi f m) W /\ region W (fun i j => exists k, lo <= k < hi /\ P k i j) ad e.
Proof.
  intros lo hi f P ad e H.
  assert (G : forall n lo, (forall k, lo <= k < lo + n -> exists W, effect (f k) W /\ region W (P k) ad e) ->
     exists W, effect (loop n lo f) W /\ region W (fun i j => exists k, lo <= k < lo + n /\ P k i j) ad e).
  { clear H. induction n as [|n IH]; intros lo0 H.
    - exists (fun _ => None). split; [apply effect_id|]. apply region_none. intros i j (k & Hk & _). lia.
    - destruct (H lo0 ltac:(lia)) as (W1 & E1 & R1).
      destruct (IH (S lo0)) as (W2 & E2 & R2). { intros; apply H; lia. }
      exists (Wthen W1 W2). split.
      + cbn [loop]. apply (effect_then (f lo0) (loop n (S lo0) f)); auto.
      + eapply region_iff; [|apply region_then; [exact R1|exact R2]]. intros i j. cbn beta. split.
        * intros [HP|(k & Hk & HP)]; [exists lo0; split; [lia|auto] | exists k; split; [lia|auto]].
        * intros (k & Hk & HP). destruct (Nat.eq_dec k lo0) as [->|]; auto. right. exists k. split; [lia|auto]. }
  destruct (G (hi - lo) lo) as (W & E & R). { intros; apply H; lia. }
  exists W. split; [exact E|]. eapply region_iff; [|exact R]. intros i j. cbn beta. split; intros (k & Hk & HP); exists k; split; auto; lia.
Qed.

Lemma seq_region : forall (f g : mem T -> res (mem T)) P1 P2 ad e,
  (exists W, effect f W /\ region W P1 ad e) -> (exists W, effect g W /\ region W P2 ad e) ->
  exists W, effect (fun m => bind (f m) g) W /\ region W (fun i j => P1 i j \/ P2 i j) ad e.
Proof.
  intros f g P1 P2 ad e (W1 & E1 & R1) (W2 & E2 & R2). exists (Wthen W1 W2). split.
  - apply effect_then; auto.
  - apply region_then; auto.
Qed.

Lemma skip_region : forall (P : nat -> nat -> Prop) ad (e : nat -> nat -> T), (forall i j, ~ P i j) ->
  exists W, effect (fun m => Ok m) W /\ region W P ad e.
Proof. intros. exists (fun _ => None). split; [apply effect_id | apply region_none; auto]. Qed.

Lemma reg_store_region : readable al p (RM * SS) N ->
  exists W, effect (fun m => reg_store SS T al N RM p r m) W /\
    region W (fun i j => i < RM * SS /\ j < N) (addr p) (reg_at r).
Proof.
  intros Hal. unfold reg_store, cm_only. rewrite Hso. cbn [order_eqb].
  destruct (loop_region 0 N (fun j m => for_ 0 RM (fun i m => mp_store SS T al (poff p (SS * i) j) (r i j) m) m)
     (fun j i' j' => exists i, 0 <= i < RM /\ (j' = j /\ SS * i <= i' < SS * i + SS)) (addr p) (reg_at r)) as (W & E & R).
  - intros j Hj. apply (loop_region 0 RM (fun i m => mp_store SS T al (poff p (SS * i) j) (r i j) m)).
    intros i Hi. apply st_full. intros l Hl. apply Hal; [nia|lia].
  - exists W. split; [exact E|]. eapply region_iff; [|exact R]. intros i j. cbn beta. split.
    + intros (k & Hk & i0 & Hi0 & -> & H). nia.
    + intros [Hi Hj]. destruct (elem_split i RM Hi) as (X & Y & Z).
      exists j. split; [lia|]. exists (i / SS). repeat split; lia.
Qed.

Lemma reg_store_mn_region : forall mm nn, mm <= RM * SS -> nn <= N -> readable al p mm nn ->
  exists W, effect (fun m => reg_store_mn SS T al N RM p mm nn r m) W /\
    region W (fun i j => i < mm /\ j < nn) (addr p) (reg_at r).
Proof.
  intros mm nn Hmm Hnn Hal. unfold reg_store_mn, cm_only. rewrite Hso. cbn [order_eqb].
  destruct (dm mm SS HSS) as [Em Lm]. set (q := mm / SS) in *. set (rem := mm mod SS) in *.
  assert (S1 : exists W, effect (fun m => for_ 0 N (fun j m => if j <? nn then
         for_ 0 RM (fun i m => if SS * (i + 1) <=? mm then mp_store SS T al (poff p (SS * i) j) (r i j) m else Ok m) m
         else Ok m) m) W /\ region W (fun i j => i < SS * q /\ j < nn) (addr p) (reg_at r)).
  { destruct (loop_region 0 N (fun j m => if j <? nn then
         for_ 0 RM (fun i m => if SS * (i + 1) <=? mm then mp_store SS T al (poff p (SS * i) j) (r i j) m else Ok m) m
         else Ok m)
       (fun j i' j' => j < nn /\ exists i, 0 <= i < RM /\ (SS * (i + 1) <= mm /\ j' = j /\ SS * i <= i' < SS * i + SS))
       (addr p) (reg_at r)) as (W & E & R).
    - intros j Hj. destruct (Nat.ltb_spec j nn).
      + destruct (loop_region 0 RM (fun i m => if SS * (i + 1) <=? mm then mp_store SS T al (poff p (SS * i) j) (r i j) m else Ok m)
           (fun i i' j' => SS * (i + 1) <= mm /\ j' = j /\ SS * i <= i' < SS * i + SS) (addr p) (reg_at r)) as (W & E & R).
        * intros i Hi. destruct (Nat.leb_spec (SS * (i + 1)) mm).
          -- destruct (st_full i j) as (W & E & R). { intros l Hl. apply Hal; nia. }
             exists W. split; auto. eapply region_iff; [|exact R]. intros; cbn beta; tauto.
          -- apply skip_region. intros i' j' (X & _). lia.
        * exists W. split; auto. eapply region_iff; [|exact R]. intros; cbn beta. tauto.
      + apply skip_region. intros i' j' (X & _). lia.
    - exists W. split; [exact E|]. eapply region_iff; [|exact R]. intros i j. cbn beta. split.
      + intros (k & Hk & Hkn & i0 & Hi0 & Hle & -> & H). split; [|auto].
        assert (i0 + 1 <= q) by nia. nia.
      + intros [Hi Hj]. destruct (elem_split i RM ltac:(lia)) as (X & Y & Z).
        assert (i / SS < q) by nia.
        exists j. split; [lia|]. split; [auto|]. exists (i / SS). repeat split; try lia. nia. }
  destruct (Nat.ltb_spec 0 rem) as [Hr|Hr].
  - assert (S2 : exists W, effect (fun m => for_ 0 (min nn N) (fun j m => mp_storem SS T al (poff p (SS * q) j) (r q j) (idx_lt (Z.of_nat rem)) m) m) W /\
       region W (fun i j => SS * q <= i < mm /\ j < nn) (addr p) (reg_at r)).
    { destruct (loop_region 0 (min nn N) (fun j m => mp_storem SS T al (poff p (SS * q) j) (r q j) (idx_lt (Z.of_nat rem)) m)
        (fun j i' j' => j' = j /\ SS * q <= i' < SS * q + SS /\ idx_lt (Z.of_nat rem) (i' - SS * q) = true) (addr p) (reg_at r)) as (W & E & R).
      - intros j Hj. apply st_mask. intros l Hl Hm. unfold idx_lt in Hm. apply Z.ltb_lt in Hm. apply Hal; lia.
      - exists W. split; [exact E|]. eapply region_iff; [|exact R]. intros i j. cbn beta. unfold idx_lt. split.
        + intros (k & Hk & -> & H & Hm). apply Z.ltb_lt in Hm. lia.
        + intros [Hi Hj]. exists j. repeat split; try lia. apply Z.ltb_lt. lia. }
    destruct (seq_region _ _ _ _ _ _ S1 S2) as (W & E & R).
    exists W. split; [exact E|]. eapply region_iff; [|exact R]. intros i j. cbn beta. lia.
  - destruct S1 as (W & E & R). exists W. split.
    + eapply effect_ext; [|exact E]. intros m. cbn beta. destruct (for_ 0 N _ m); reflexivity.
    + eapply region_iff; [|exact R]. intros i j. cbn beta. lia.
Qed.

Lemma reg_storeLower_region :
  (forall i j, j <= i < RM * SS -> j < N -> al (addr p i j) = true) ->
  exists W, effect (fun m => reg_storeLower SS T al N RM p r m) W /\
    region W (fun i j => j <= i < RM * SS /\ j < N) (addr p) (reg_at r).
Proof.
  intros Hal. unfold reg_storeLower, cm_only. rewrite Hso. cbn [order_eqb].
  match goal with |- exists W, effect (fun m => for_ 0 N ?f m) W /\ _ =>
    destruct (loop_region 0 N f (fun j i' j' => j' = j /\ j <= i' < RM * SS) (addr p) (reg_at r)) as (W & E & R) end.
  - intros j Hj. cbv zeta. destruct (dm j SS HSS) as [Ej Lj]. set (q := j / SS) in *. set (skip := j mod SS) in *.
    assert (SR : forall lo, j <= SS * lo -> exists W, effect (fun m => for_ lo RM (fun ri m => mp_store SS T al (poff p (SS * ri) j) (r ri j) m) m) W /\
        region W (fun i' j' => j' = j /\ SS * lo <= i' < RM * SS) (addr p) (reg_at r)).
    { intros lo Hlo. destruct (loop_region lo RM (fun ri m => mp_store SS T al (poff p (SS * ri) j) (r ri j) m)
        (fun ri i' j' => j' = j /\ SS * ri <= i' < SS * ri + SS) (addr p) (reg_at r)) as (W & E & R).
      - intros ri Hri. apply st_full. intros l Hl. apply Hal; [nia|lia].
      - exists W. split; auto. eapply region_iff; [|exact R]. intros i' j'. cbn beta. split.
        + intros (k & Hk & -> & H). nia.
        + intros (-> & H). destruct (elem_split i' RM ltac:(lia)) as (X & Y & Z).
          exists (i' / SS). assert (lo <= i' / SS) by nia. lia. }
    destruct (Nat.ltb_spec 0 skip), (Nat.ltb_spec q RM); cbn [andb].
    + destruct (st_mask q j (idx_ge (Z.of_nat skip))) as (W1 & E1 & R1).
      { intros l Hl Hm. unfold idx_ge in Hm. apply Z.leb_le in Hm. apply Hal; [nia|lia]. }
      destruct (SR (q + 1) ltac:(nia)) as (W2 & E2 & R2).
      destruct (seq_region _ _ _ _ _ _ (ex_intro _ W1 (conj E1 R1)) (ex_intro _ W2 (conj E2 R2))) as (W & E & R).
      exists W. split; [exact E|]. eapply region_iff; [|exact R]. intros i' j'. cbn beta. unfold idx_ge. split.
      * intros [(-> & H1 & Hm)|(-> & H1)].
        -- apply Z.leb_le in Hm. nia.
        -- nia.
      * intros (-> & H1). destruct (Nat.lt_ge_cases i' (SS * q + SS)).
        -- left. repeat split; try lia. apply Z.leb_le. lia.
        -- right. split; auto. nia.
    + exists (fun _ => None). split.
      * intros m. exists m. rewrite for_empty by lia. split; auto.
      * apply region_none. intros i' j' (-> & H1). nia.
    + destruct (SR q ltac:(nia)) as (W2 & E2 & R2). exists W2. split; [exact E2|].
      eapply region_iff; [|exact R2]. intros i' j'. cbn beta. nia.
    + destruct (SR q ltac:(nia)) as (W2 & E2 & R2). exists W2. split; [exact E2|].
      eapply region_iff; [|exact R2]. intros i' j'. cbn beta. nia.
  - exists W. split; [exact E|]. eapply region_iff; [|exact R]. intros i j. cbn beta. split.
    + intros (k & Hk & -> & H). lia.
    + intros (H1 & H2). exists j. lia.
Qed.

Lemma reg_storeLower_mn_region : forall mm nn, mm <= RM * SS -> nn <= N ->
  (forall i j, j <= i < mm -> j < nn -> al (addr p i j) = true) ->
  exists W, effect (fun m => reg_storeLower_mn SS T al N RM p mm nn r m) W /\
    region W (fun i j => j <= i < mm /\ j < nn) (addr p) (reg_at r).
Proof.
  intros mm nn Hmm Hnn Hal. unfold reg_storeLower_mn, cm_only. rewrite Hso. cbn [order_eqb].
  match goal with |- exists W, effect (fun m => for_ 0 N ?f m) W /\ _ =>
    destruct (loop_region 0 N f (fun j i' j' => j' = j /\ j <= i' < mm /\ j < nn) (addr p) (reg_at r)) as (W & E & R) end.
  - intros j Hj. destruct (Nat.ltb_spec j nn).
    2: { apply skip_region. intros; lia. }
    destruct (dm j SS HSS) as [Ej Lj]. set (q := j / SS) in *. set (skip := j mod SS) in *.
    match goal with |- exists W, effect (fun m => for_ q RM ?f m) W /\ _ =>
      destruct (loop_region q RM f (fun ri i' j' => j' = j /\ SS * ri <= i' < SS * ri + SS /\ j <= i' < mm) (addr p) (reg_at r)) as (W & E & R) end.
    + intros ri Hri. cbv zeta.
      set (mk := if (0 <? Z.of_nat j - Z.of_nat (ri * SS))%Z
                 then mask_and (idx_lt (Z.of_nat mm - Z.of_nat (ri * SS))) (idx_ge (Z.of_nat j - Z.of_nat (ri * SS)))
                 else idx_lt (Z.of_nat mm - Z.of_nat (ri * SS))).
      assert (Mk : forall l, mk l = true <-> (j <= SS * ri + l < mm)).
      { intros l. unfold mk. destruct (Z.ltb_spec 0 (Z.of_nat j - Z.of_nat (ri * SS))); unfold mask_and, idx_lt, idx_ge.
        - rewrite andb_true_iff, Z.ltb_lt, Z.leb_le. lia.
        - rewrite Z.ltb_lt. nia. }
      destruct (st_mask ri j mk) as (W & E & R).
      { intros l Hl Hm. apply Mk in Hm. apply Hal; lia. }
      exists W. split; auto. eapply region_iff; [|exact R]. intros i' j'. cbn beta. rewrite Mk. lia.
    + exists W. split; auto. eapply region_iff; [|exact R]. intros i' j'. cbn beta. split.
      * intros (k & Hk & -> & H1 & H2). lia.
      * intros (-> & H1 & H2). destruct (elem_split i' RM ltac:(lia)) as (X & Y & Z).
        exists (i' / SS). assert (q <= i' / SS) by nia. lia.
  - exists W. split; [exact E|]. eapply region_iff; [|exact R]. intros i j. cbn beta. split.
    + intros (k & Hk & -> & H). lia.
    + intros (H1 & H2). exists j. lia.
Qed.

End Stores.

End Reg.
