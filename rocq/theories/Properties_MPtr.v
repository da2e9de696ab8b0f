(** Properties_MPtr.v -- C70: SIMD access through matrix pointers, for every kind, storage order and alignment. *)
From Coq Require Import Arith Lia List Bool PeanoNat ZArith.
From Verif Require Import Base Base_Proofs Spec Layout_Model Layout_Proofs Simd_Model Simd_Proofs Instances.
Import ListNotations.

(** The l-th element after the one a pointer points at, in the storage direction *)
Definition next_addr (SS : nat) (p : mptr) (l : nat) : nat := match mp_so p with columnMajor => addr SS p l 0 | rowMajor => addr SS p 0 l end.
(** At a panel boundary, if a panel pointer *)
Definition at_boundary (SS : nat) (p : mptr) : Prop := mp_kind p = Panel -> mp_base p mod SS = 0.

Lemma next_contiguous : forall SS p l, 0 < SS -> mptr_wf SS p -> at_boundary SS p -> l < SS -> next_addr SS p l = mp_base p + l.
Proof.
  intros SS p l HSS W L Hl. unfold next_addr. destruct (mp_so p) eqn:SO.
  - pose proof (addr_lanes_rm SS HSS p 0 0 l SO W) as E. rewrite (addr_00 SS HSS) in E. apply E; auto. apply Nat.mod_0_l; lia.
  - pose proof (addr_lanes_cm SS HSS p 0 0 l SO W) as E. rewrite (addr_00 SS HSS) in E. apply E; auto. apply Nat.mod_0_l; lia.
Qed.
Lemma wf_boundary : forall SS p, mptr_wf SS p -> (mp_kind p = Panel -> mp_af p = true) -> at_boundary SS p.
Proof. intros SS p [_ H] A K. apply H. auto. Qed.

(** *** load() reads the next SS elements of the column (row), also of an unaligned panel pointer inside a panel, and nothing else. *)
Theorem C70_load : forall SS T (O : Ops T) al p m, 0 < SS -> mptr_wf SS p -> (forall l, l < SS -> al (next_addr SS p l) = true) ->
  exists v, mp_load SS T O al p m = Ok v /\ forall l, l < SS -> v l = m (next_addr SS p l).
Proof.
  intros SS T O al p m HSS W Hal. unfold mp_load.
  assert (S : at_boundary SS p -> exists v, simd_load SS T al (mp_af p) (mp_base p) m = Ok v /\ forall l, l < SS -> v l = m (next_addr SS p l)).
  { intros B. exists (fun l => m (mp_base p + l)). split.
    - apply simd_load_ok; auto; [intros A; apply W; exact A|]. intros l Hl. rewrite <- (next_contiguous SS p l) by auto. auto.
    - intros l Hl. rewrite next_contiguous by auto. reflexivity. }
  destruct (mp_kind p) eqn:K.
  - apply S. unfold at_boundary. congruence.
  - destruct (mp_af p) eqn:A.
    + apply S. apply wf_boundary; auto.
    + destruct (gather_loop SS HSS T O al m (fun i => match mp_so p with columnMajor => addr SS (punalign SS p) i 0 | rowMajor => addr SS (punalign SS p) 0 i end)) as (v & E & H).
      { intros l Hl. specialize (Hal l Hl). unfold next_addr in Hal. destruct (mp_so p); rewrite addr_punalign by auto; exact Hal. }
      exists v. split; [exact E|]. intros l Hl. rewrite H by auto. unfold next_addr. destruct (mp_so p); rewrite addr_punalign by auto; reflexivity.
Qed.
(** *** load(mask) reads the masked ones of them and gives zero in the other lanes, at a panel boundary. *)
Theorem C70_masked_load : forall SS T (O : Ops T) al p mk m, 0 < SS -> mptr_wf SS p -> at_boundary SS p ->
  (forall l, l < SS -> mk l = true -> al (next_addr SS p l) = true) ->
  exists v, mp_loadm SS T O al p mk m = Ok v /\ forall l, l < SS -> v l = if mk l then m (next_addr SS p l) else o0 O.
Proof.
  intros SS T O al p mk m HSS W B Hal. unfold mp_loadm. eexists. split.
  - apply (simd_maskload_ok SS HSS). intros l Hl M. rewrite <- (next_contiguous SS p l) by auto. auto.
  - intros l Hl. cbn beta. rewrite next_contiguous by auto. reflexivity.
Qed.
(** *** store() writes exactly the next SS elements; store(mask) exactly the masked ones.  For unaligned panel pointers neither compiles. *)
Theorem C70_store : forall SS T al p v (m : mem T), 0 < SS -> mptr_wf SS p -> (mp_kind p = Panel -> mp_af p = true) ->
  (forall l, l < SS -> al (next_addr SS p l) = true) ->
  exists m', mp_store SS T al p v m = Ok m' /\
    (forall l, l < SS -> m' (next_addr SS p l) = v l) /\ (forall a, (forall l, l < SS -> a <> next_addr SS p l) -> m' a = m a).
Proof.
  intros SS T al p v m HSS W A Hal. pose proof (wf_boundary SS p W A) as B.
  assert (E : mp_store SS T al p v m = simd_store SS T al (mp_af p) (mp_base p) v m) by (unfold mp_store; destruct (mp_kind p); [reflexivity|rewrite A; auto]).
  rewrite E. clear E. unfold simd_store.
  replace (mp_af p && negb (mp_base p mod SS =? 0)) with false.
  2:{ destruct (mp_af p) eqn:F; [|reflexivity]. destruct W as [_ W]. destruct (W F) as [-> _]. reflexivity. }
  rewrite (forallb_lanes SS HSS).
  2:{ intros l Hl. rewrite <- (next_contiguous SS p l) by auto. auto. }
  eexists. split; [reflexivity|]. cbn beta. split.
  - intros l Hl. rewrite next_contiguous by auto. rewrite (proj2 (Nat.leb_le _ _)), (proj2 (Nat.ltb_lt _ _)) by lia. cbn [andb]. f_equal. lia.
  - intros a Ha. destruct (Nat.leb_spec (mp_base p) a), (Nat.ltb_spec a (mp_base p + SS)); cbn [andb]; auto.
    exfalso. apply (Ha (a - mp_base p)); [lia|]. rewrite next_contiguous by (auto; lia). lia.
Qed.
Theorem C70_masked_store : forall SS T al p v mk (m : mem T), 0 < SS -> mptr_wf SS p -> (mp_kind p = Panel -> mp_af p = true) ->
  (forall l, l < SS -> mk l = true -> al (next_addr SS p l) = true) ->
  exists m', mp_storem SS T al p v mk m = Ok m' /\
    (forall l, l < SS -> mk l = true -> m' (next_addr SS p l) = v l) /\
    (forall a, (forall l, l < SS -> mk l = true -> a <> next_addr SS p l) -> m' a = m a).
Proof.
  intros SS T al p v mk m HSS W A Hal. pose proof (wf_boundary SS p W A) as B.
  assert (E : mp_storem SS T al p v mk m = simd_maskstore SS T al (mp_base p) v mk m) by (unfold mp_storem; destruct (mp_kind p); [reflexivity|rewrite A; auto]).
  rewrite E. clear E.
  unfold simd_maskstore. rewrite (forallb_lanes SS HSS).
  2:{ intros l Hl. destruct (mk l) eqn:M; [|reflexivity]. rewrite <- (next_contiguous SS p l) by auto. cbn. auto. }
  eexists. split; [reflexivity|]. cbn beta. split.
  - intros l Hl M. rewrite next_contiguous by auto. rewrite (proj2 (Nat.leb_le _ _)), (proj2 (Nat.ltb_lt _ _)) by lia. cbn [andb].
    replace (mp_base p + l - mp_base p) with l by lia. rewrite M. reflexivity.
  - intros a Ha. destruct (Nat.leb_spec (mp_base p) a), (Nat.ltb_spec a (mp_base p + SS)); cbn [andb]; auto.
    destruct (mk (a - mp_base p)) eqn:M; auto.
    exfalso. apply (Ha (a - mp_base p)); [lia|exact M|]. rewrite next_contiguous by (auto; lia). lia.
Qed.
Theorem C70_unaligned_panel_store : forall SS T al p v mk (m : mem T), mp_kind p = Panel -> mp_af p = false ->
  mp_store SS T al p v m = IllFormed /\ mp_storem SS T al p v mk m = IllFormed.
Proof. intros SS T al p v mk m K A. unfold mp_store, mp_storem. rewrite K, A. auto. Qed.

(** *** What was stored is what is loaded, and a copy of a block of SS elements between two pointers. *)
Theorem C70_store_load : forall SS T (O : Ops T) al p v (m : mem T), 0 < SS -> mptr_wf SS p -> (mp_kind p = Panel -> mp_af p = true) ->
  (forall l, l < SS -> al (next_addr SS p l) = true) ->
  exists m' w, mp_store SS T al p v m = Ok m' /\ mp_load SS T O al p m' = Ok w /\ mp_loadm SS T O al p (fun _ => true) m' = Ok w /\ forall l, l < SS -> w l = v l.
Proof.
  intros SS T O al p v m HSS W A Hal. destruct (C70_store SS T al p v m HSS W A Hal) as (m' & E & U & _).
  assert (B : at_boundary SS p) by (apply wf_boundary; auto).
  exists m', (fun l => m' (mp_base p + l)). split; [exact E|]. split; [|split].
  - assert (F : mp_load SS T O al p m' = simd_load SS T al (mp_af p) (mp_base p) m').
    { unfold mp_load. destruct (mp_kind p); [reflexivity|]. rewrite A; auto. }
    rewrite F. apply simd_load_ok; auto; [intros X; apply W; exact X|]. intros l Hl. rewrite <- (next_contiguous SS p l) by auto. auto.
  - unfold mp_loadm, simd_maskload. rewrite (forallb_lanes SS HSS); [reflexivity|]. intros l Hl. cbn. rewrite <- (next_contiguous SS p l) by auto. auto.
  - intros l Hl. rewrite <- (next_contiguous SS p l) by auto. auto.
Qed.

(** Refuted: "load(mask) with a full mask is load()".  Inside a panel (unaligned pointer) it runs past the end of the panel. *)
Theorem C70_masked_panel_refuted : let p := MPtr Panel rowMajor false false 2 12 in let al := fun _ : nat => true in let m a := Z.of_nat a in
  mptr_wf 4 p /\
  match mp_load 4 Z zops al p m, mp_loadm 4 Z zops al p (fun _ => true) m with
  | Ok x, Ok y => map x [0; 1; 2; 3] = [2; 3; 12; 13]%Z /\ map (fun l => Z.of_nat (next_addr 4 p l)) [0; 1; 2; 3] = [2; 3; 12; 13]%Z /\ map y [0; 1; 2; 3] = [2; 3; 4; 5]%Z
  | _, _ => False end.
Proof. cbv zeta. split; [split; cbn; auto; discriminate|]. vm_compute. auto. Qed.

(** The hypotheses for a row-major unaligned panel pointer inside a panel, and for an aligned column-major one. *)
Example C70_example : let p := MPtr Panel rowMajor false false 2 12 in let q := MPtr Panel columnMajor true true 16 12 in
  mptr_wf 4 p /\ ~ at_boundary 4 p /\ mptr_wf 4 q /\ (mp_kind q = Panel -> mp_af q = true) /\ at_boundary 4 q /\ map (next_addr 4 q) [0; 1; 2; 3] = [16; 17; 18; 19] /\
  match mp_store 4 Z (fun a => a <? 24) q (fun l => Z.of_nat (100 + l)) (fun _ => 0%Z) with Ok m' => map m' [15; 16; 17; 18; 19; 20] = [0; 100; 101; 102; 103; 0]%Z | _ => False end.
Proof.
  cbv zeta. split; [split; cbn; auto; discriminate|]. split; [intros H; specialize (H eq_refl); discriminate H|]. split; [split; cbn; auto|].
  split; [reflexivity|]. split; [intros _; reflexivity|]. split; vm_compute; reflexivity.
Qed.
