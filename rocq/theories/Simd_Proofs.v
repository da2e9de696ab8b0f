(** Simd_Proofs.v -- SIMD loads and stores, write effects, imax. *)
From Coq Require Import Arith Lia List Bool PeanoNat ZArith.
From Verif Require Import Base Base_Proofs Layout_Model Layout_Proofs Simd_Model.
Import ListNotations.

(** ** Write effects: a program fragment that writes memory without reading it. *)
Section Effects.
Context {T : Type}.

Definition app (W : nat -> option T) (m : mem T) : mem T :=
  fun a => match W a with Some v => v | None => m a end.
Definition effect (f : mem T -> res (mem T)) (W : nat -> option T) : Prop :=
  forall m, exists m', f m = Ok m' /\ forall a, m' a = app W m a.

Definition Wthen (W1 W2 : nat -> option T) : nat -> option T :=
  fun a => match W2 a with Some v => Some v | None => W1 a end.
Fixpoint Wseq (n lo : nat) (W : nat -> nat -> option T) : nat -> option T :=
  match n with
  | 0 => fun _ => None
  | S n' => Wthen (W lo) (Wseq n' (S lo) W)
  end.

Lemma effect_id : effect (fun m => Ok m) (fun _ => None).
Proof. intros m. exists m. split; auto. Qed.

Lemma effect_then : forall f g W1 W2, effect f W1 -> effect g W2 ->
  effect (fun m => bind (f m) g) (Wthen W1 W2).
Proof.
  intros f g W1 W2 Hf Hg m. destruct (Hf m) as (m1 & E1 & P1). destruct (Hg m1) as (m2 & E2 & P2).
  exists m2. rewrite E1. simpl. split; auto. intros a. rewrite P2. unfold app, Wthen. rewrite P1.
  unfold app. destruct (W2 a); auto.
Qed.

Lemma effect_loop : forall n lo f W,
  (forall k, lo <= k < lo + n -> effect (f k) (W k)) -> effect (loop n lo f) (Wseq n lo W).
Proof.
  induction n as [|n IH]; intros lo f W H.
  - apply effect_id.
  - cbn [loop Wseq]. apply (effect_then (f lo) (loop n (S lo) f)).
    + apply H. lia.
    + apply IH. intros. apply H. lia.
Qed.

Lemma effect_for : forall lo hi f W,
  (forall k, lo <= k < hi -> effect (f k) (W k)) -> effect (for_ lo hi f) (Wseq (hi - lo) lo W).
Proof. intros. apply effect_loop. intros. apply H. lia. Qed.

Lemma effect_ext : forall f g W, (forall m, f m = g m) -> effect f W -> effect g W.
Proof. intros f g W H E m. rewrite <- H. auto. Qed.

(** [W] writes exactly the elements [e i j] at [ad i j] for (i,j) in P. *)
Definition region (W : nat -> option T) (P : nat -> nat -> Prop) (ad : nat -> nat -> nat) (e : nat -> nat -> T) : Prop :=
  (forall a v, W a = Some v -> exists i j, P i j /\ a = ad i j /\ v = e i j) /\
  (forall i j, P i j -> W (ad i j) <> None).

Lemma region_none : forall ad e (P : nat -> nat -> Prop), (forall i j, ~ P i j) -> region (fun _ => None) P ad e.
Proof. intros ad e P H. split; [discriminate|]. intros i j HP. destruct (H i j HP). Qed.

Lemma region_then : forall W1 W2 P1 P2 ad e, region W1 P1 ad e -> region W2 P2 ad e ->
  region (Wthen W1 W2) (fun i j => P1 i j \/ P2 i j) ad e.
Proof.
  intros W1 W2 P1 P2 ad e [A1 B1] [A2 B2]. unfold Wthen. split.
  - intros a v. destruct (W2 a) eqn:E2.
    + intros E; injection E as <-. destruct (A2 a t E2) as (i & j & Hp & E & Ev). eauto 6.
    + intros E. destruct (A1 a v E) as (i & j & Hp & Ea & Ev). eauto 6.
  - intros i j [H|H].
    + destruct (W2 (ad i j)); [discriminate|]. auto.
    + specialize (B2 i j H). destruct (W2 (ad i j)); [discriminate|]. congruence.
Qed.

Lemma region_seq : forall n lo W P ad e,
  (forall k, lo <= k < lo + n -> region (W k) (P k) ad e) ->
  region (Wseq n lo W) (fun i j => exists k, lo <= k < lo + n /\ P k i j) ad e.
Proof.
  induction n as [|n IH]; intros lo W P ad e H.
  - apply region_none. intros i j (k & Hk & _). lia.
  - cbn [Wseq]. pose proof (region_then _ _ _ _ _ _ (H lo ltac:(lia)) (IH (S lo) W P ad e ltac:(intros; apply H; lia))) as R.
    destruct R as [R1 R2]. split.
    + intros a v E. destruct (R1 a v E) as (i & j & [HP|(k & Hk & HP)] & Ea & Ev).
      * exists i, j. split; auto. exists lo. split; [lia|auto].
      * exists i, j. split; auto. exists k. split; [lia|auto].
    + intros i j (k & Hk & HP). apply R2. destruct (Nat.eq_dec k lo) as [->|]; auto.
      right. exists k. split; [lia|auto].
Qed.

Lemma region_for : forall lo hi W P ad e,
  (forall k, lo <= k < hi -> region (W k) (P k) ad e) ->
  region (Wseq (hi - lo) lo W) (fun i j => exists k, lo <= k < hi /\ P k i j) ad e.
Proof.
  intros lo hi W P ad e H.
  destruct (region_seq (hi - lo) lo W P ad e) as [A B]. { intros; apply H; lia. }
  split.
  - intros a v E. destruct (A a v E) as (i & j & (k & Hk & HP) & Ea & Ev).
    exists i, j. split; auto. exists k. split; [lia|auto].
  - intros i j (k & Hk & HP). apply B. exists k. split; [lia|auto].
Qed.

Lemma region_iff : forall W P Q ad e, (forall i j, P i j <-> Q i j) -> region W P ad e -> region W Q ad e.
Proof.
  intros W P Q ad e H [A B]. split.
  - intros a v E. destruct (A a v E) as (i & j & HP & R). exists i, j. split; auto. apply H; auto.
  - intros i j HQ. apply B. apply H. auto.
Qed.

(** Reading the result of a region write. *)
Lemma region_result : forall f W P ad e m, effect f W -> region W P ad e ->
  (forall i j i' j', P i j -> P i' j' -> ad i j = ad i' j' -> i = i' /\ j = j') ->
  exists m', f m = Ok m' /\
    (forall i j, P i j -> m' (ad i j) = e i j) /\
    (forall a, (forall i j, P i j -> a <> ad i j) -> m' a = m a).
Proof.
  intros f W P ad e m Hf [A B] Hinj. destruct (Hf m) as (m' & E & H). exists m'. split; auto. split.
  - intros i j HP. rewrite H. unfold app. destruct (W (ad i j)) as [v|] eqn:Ew.
    + destruct (A _ _ Ew) as (i' & j' & HP' & Ea & Ev).
      destruct (Hinj i j i' j') as [-> ->]; auto.
    + exfalso. apply (B i j HP). auto.
  - intros a Ha. rewrite H. unfold app. destruct (W a) as [v|] eqn:Ew; auto.
    destruct (A _ _ Ew) as (i & j & HP & Ea & _). exfalso. apply (Ha i j HP). auto.
Qed.

End Effects.

Section Simd.
Variable SS : nat.
Hypothesis HSS : 0 < SS.
Variable T : Type.
Variable O : Ops T.
Notation vec := (vec T).
Notation addr := (addr SS).
Notation poff := (poff SS).

Lemma forallb_lanes : forall (f : nat -> bool), (forall l, l < SS -> f l = true) -> forallb f (seq 0 SS) = true.
Proof. intros f H. apply forallb_forall. intros x Hx. apply in_seq in Hx. apply H. lia. Qed.

Lemma simd_load_ok : forall al aligned a m,
  (aligned = true -> a mod SS = 0) -> (forall l, l < SS -> al (a + l) = true) ->
  simd_load SS T al aligned a m = Ok (fun l => m (a + l)).
Proof.
  intros al aligned a m Ha Hl. unfold simd_load.
  replace (aligned && negb (a mod SS =? 0)) with false.
  - rewrite forallb_lanes; auto.
  - destruct aligned; auto. rewrite Ha by auto. reflexivity.
Qed.

Lemma simd_maskload_ok : forall al a mk m,
  (forall l, l < SS -> mk l = true -> al (a + l) = true) ->
  simd_maskload SS T O al a mk m = Ok (fun l => if mk l then m (a + l) else o0 O).
Proof.
  intros al a mk m Hl. unfold simd_maskload. rewrite forallb_lanes; auto.
  intros l H. destruct (mk l) eqn:E; auto. rewrite Hl; auto.
Qed.

Lemma simd_store_effect : forall al aligned a v,
  (aligned = true -> a mod SS = 0) -> (forall l, l < SS -> al (a + l) = true) ->
  effect (simd_store SS T al aligned a v) (fun x => if (a <=? x) && (x <? a + SS) then Some (v (x - a)) else None).
Proof.
  intros al aligned a v Ha Hl m. unfold simd_store.
  replace (aligned && negb (a mod SS =? 0)) with false
    by (destruct aligned; auto; rewrite Ha by auto; reflexivity).
  rewrite forallb_lanes by auto. eexists. split; [reflexivity|].
  intros x. unfold app. destruct ((a <=? x) && (x <? a + SS)); auto.
Qed.

Lemma simd_maskstore_effect : forall al a v mk,
  (forall l, l < SS -> mk l = true -> al (a + l) = true) ->
  effect (fun m => simd_maskstore SS T al a v mk m)
    (fun x => if (a <=? x) && (x <? a + SS) && mk (x - a) then Some (v (x - a)) else None).
Proof.
  intros al a v mk Hl m. unfold simd_maskstore.
  rewrite forallb_lanes.
  - eexists. split; [reflexivity|]. intros x. unfold app. destruct ((a <=? x) && (x <? a + SS) && mk (x - a)); auto.
  - intros l H. destruct (mk l) eqn:E; auto. rewrite Hl; auto.
Qed.

(** The NEON lane-by-lane implementations agree with the AVX2 description. *)
Lemma neon_maskload_eq : forall al a mk m,
  match simd_maskload SS T O al a mk m with
  | Ok v => exists v', neon_maskload SS T O al a mk m = Ok v' /\ forall l, l < SS -> v' l = v l
  | _ => neon_maskload SS T O al a mk m = UB
  end.
Proof.
  intros al a mk m. unfold simd_maskload.
  destruct (forallb (fun l => negb (mk l) || al (a + l)) (seq 0 SS)) eqn:F.
  - rewrite forallb_forall in F. unfold neon_maskload.
    destruct (for_inv vec (fun k v => forall l, v l = if (l <? k) && mk l then m (a + l) else o0 O) 0 SS
      (fun l v => if mk l then x <- rd al m (a + l) ;; Ok (mupd v l x) else Ok v) (fun _ => o0 O)) as (v & E & H); auto.
    + lia.
    + intros k v Hk Hv. specialize (F k ltac:(apply in_seq; lia)).
      destruct (mk k) eqn:Mk.
      * simpl in F. unfold rd. rewrite F. simpl. eexists. split; [reflexivity|].
        intros l. unfold mupd. destruct (Nat.eqb_spec l k) as [->|N].
        -- rewrite Mk. rewrite (proj2 (Nat.ltb_lt k (S k))) by lia. reflexivity.
        -- rewrite Hv. destruct (Nat.ltb_spec l k), (Nat.ltb_spec l (S k)); auto; lia.
      * exists v. split; auto. intros l. rewrite Hv.
        destruct (Nat.ltb_spec l k), (Nat.ltb_spec l (S k)); auto; try lia.
        replace l with k by lia. rewrite Mk. reflexivity.
    + exists v. split; auto. intros l Hl. rewrite H. rewrite (proj2 (Nat.ltb_lt l SS)) by lia. reflexivity.
  - unfold neon_maskload, for_. rewrite Nat.sub_0_r.
    assert (G : forall n lo v, forallb (fun l => negb (mk l) || al (a + l)) (seq lo n) = false ->
      loop n lo (fun l v => if mk l then x <- rd al m (a + l) ;; Ok (mupd v l x) else Ok v) v = UB).
    { induction n as [|n IH]; intros lo v; simpl; [discriminate|]. intros Hf.
      destruct (mk lo) eqn:Mk; simpl in Hf |- *.
      - unfold rd. destruct (al (a + lo)); simpl in Hf |- *; auto.
      - auto. }
    apply G. exact F.
Qed.

Lemma neon_maskstore_eq : forall al a v mk m,
  match simd_maskstore SS T al a v mk m with
  | Ok m1 => exists m2, neon_maskstore SS T al a v mk m = Ok m2 /\ forall x, m2 x = m1 x
  | _ => neon_maskstore SS T al a v mk m = UB
  end.
Proof.
  intros al a v mk m. unfold simd_maskstore.
  destruct (forallb (fun l => negb (mk l) || al (a + l)) (seq 0 SS)) eqn:F.
  - rewrite forallb_forall in F. unfold neon_maskstore.
    destruct (for_inv (mem T) (fun k m' => forall x, m' x = if (a <=? x) && (x <? a + k) && mk (x - a) then v (x - a) else m x) 0 SS
      (fun l m => if mk l then wr al m (a + l) (v l) else Ok m) m) as (m' & E & H); auto.
    + lia.
    + intros x. replace ((a <=? x) && (x <? a + 0)) with false; auto.
      destruct (Nat.leb_spec a x), (Nat.ltb_spec x (a + 0)); auto; lia.
    + intros k m0 Hk H0. specialize (F k ltac:(apply in_seq; lia)).
      destruct (mk k) eqn:Mk.
      * simpl in F. unfold wr. rewrite F. eexists. split; [reflexivity|].
        intros x. unfold mupd. rewrite H0.
        destruct (Nat.eqb_spec x (a + k)) as [->|N].
        -- replace (a + k - a) with k by lia. rewrite Mk.
           rewrite (proj2 (Nat.leb_le a (a + k))), (proj2 (Nat.ltb_lt (a + k) (a + S k))) by lia. reflexivity.
        -- destruct (Nat.leb_spec a x), (Nat.ltb_spec x (a + k)), (Nat.ltb_spec x (a + S k)); auto; lia.
      * exists m0. split; auto. intros x. rewrite H0.
        destruct (Nat.leb_spec a x), (Nat.ltb_spec x (a + k)), (Nat.ltb_spec x (a + S k)); auto; try lia.
        replace (x - a) with k by lia. rewrite Mk. reflexivity.
    + exists m'. split; auto.
  - unfold neon_maskstore, for_. rewrite Nat.sub_0_r.
    assert (G : forall n lo m, forallb (fun l => negb (mk l) || al (a + l)) (seq lo n) = false ->
      loop n lo (fun l m => if mk l then wr al m (a + l) (v l) else Ok m) m = UB).
    { induction n as [|n IH]; intros lo m0; simpl; [discriminate|]. intros Hf.
      destruct (mk lo) eqn:Mk; simpl in Hf |- *.
      - unfold wr. destruct (al (a + lo)); simpl in Hf |- *; auto.
      - auto. }
    apply G. exact F.
Qed.

(** ** Pointer loads *)
Lemma gather_loop : forall al m (f : nat -> nat),
  (forall l, l < SS -> al (f l) = true) ->
  exists v, for_ 0 SS (fun i tmp => x <- rd al m (f i) ;; Ok (mupd tmp i x)) (fun _ => o0 O) = Ok v /\
            forall l, l < SS -> v l = m (f l).
Proof.
  intros al m f Hf.
  destruct (for_inv vec (fun k v => forall l, l < k -> v l = m (f l)) 0 SS
      (fun i tmp => x <- rd al m (f i) ;; Ok (mupd tmp i x)) (fun _ => o0 O)) as (v & E & H).
  - lia.
  - intros; lia.
  - intros k v Hk Hv. unfold rd. rewrite Hf by lia. simpl. eexists. split; [reflexivity|].
    intros l Hl. unfold mupd. destruct (Nat.eqb_spec l k) as [->|]; auto. apply Hv. lia.
  - eauto.
Qed.

(** Lane condition: a panel pointer at a panel boundary (or any dense pointer). *)
Definition lane_ok (p : mptr) : Prop := mp_kind p = Panel -> mp_base p mod SS = 0.

Lemma lane_af : forall p, mptr_wf SS p -> mp_af p = true -> lane_ok p.
Proof. intros p [_ H] E _. apply H. auto. Qed.

Lemma mp_load_cm : forall al p m, mptr_wf SS p -> mp_so p = columnMajor ->
  (forall l, l < SS -> al (addr p l 0) = true) ->
  exists v, mp_load SS T O al p m = Ok v /\ forall l, l < SS -> v l = m (addr p l 0).
Proof.
  intros al p m Hwf Hso Hal. unfold mp_load.
  assert (L : lane_ok p -> forall l, l < SS -> addr p l 0 = mp_base p + l).
  { intros Hl l Hlt. pose proof (addr_lanes_cm SS HSS p 0 0 l Hso Hwf) as E.
    rewrite (addr_00 SS HSS) in E. apply E; auto. apply Nat.mod_0_l; lia. }
  destruct (mp_kind p) eqn:K.
  - assert (HL : lane_ok p) by (unfold lane_ok; congruence). specialize (L HL).
    exists (fun l => m (mp_base p + l)). split.
    + apply simd_load_ok; [intros; apply Hwf; auto|]. intros l Hl. rewrite <- L; auto.
    + intros l Hl. rewrite L; auto.
  - destruct (mp_af p) eqn:AF.
    + assert (HL : lane_ok p) by (apply lane_af; auto). specialize (L HL).
      exists (fun l => m (mp_base p + l)). split.
      * apply simd_load_ok; [intros; apply Hwf; auto|]. intros l Hl. rewrite <- L; auto.
      * intros l Hl. rewrite L; auto.
    + rewrite Hso. destruct (gather_loop al m (fun i => addr (punalign SS p) i 0)) as (v & E & H).
      { intros l Hl. rewrite addr_punalign; auto. }
      exists v. split; auto. intros l Hl. rewrite H by auto. rewrite addr_punalign; auto.
Qed.

(** load(TransposeFlag) as used by column(p).load() *)
Lemma vload_col : forall al p m, mptr_wf SS p -> mp_so p = columnMajor -> lane_ok p ->
  (forall l, l < SS -> al (addr p l 0) = true) ->
  exists v, vload SS T O al (VMat columnVector p) m = Ok v /\ forall l, l < SS -> v l = m (addr p l 0).
Proof.
  intros al p m Hwf Hso HL Hal. unfold vload, mp_loadt. rewrite Hso. cbn [majorOrientation tflag_eqb].
  assert (L : forall l, l < SS -> addr p l 0 = mp_base p + l).
  { intros l Hlt. pose proof (addr_lanes_cm SS HSS p 0 0 l Hso Hwf) as E.
    rewrite (addr_00 SS HSS) in E. apply E; auto. apply Nat.mod_0_l; lia. }
  exists (fun l => m (mp_base p + l)). split.
  - rewrite simd_load_ok; [reflexivity|intros; apply Hwf; auto|]. intros l Hl. rewrite <- L; auto.
  - intros l Hl. rewrite L; auto.
Qed.

Lemma mp_loadm_cm : forall al p mk m, mptr_wf SS p -> mp_so p = columnMajor -> lane_ok p ->
  (forall l, l < SS -> mk l = true -> al (addr p l 0) = true) ->
  exists v, mp_loadm SS T O al p mk m = Ok v /\ forall l, l < SS -> v l = if mk l then m (addr p l 0) else o0 O.
Proof.
  intros al p mk m Hwf Hso HL Hal. unfold mp_loadm.
  assert (L : forall l, l < SS -> addr p l 0 = mp_base p + l).
  { intros l Hlt. pose proof (addr_lanes_cm SS HSS p 0 0 l Hso Hwf) as E.
    rewrite (addr_00 SS HSS) in E. apply E; auto. apply Nat.mod_0_l; lia. }
  eexists. split.
  - apply simd_maskload_ok. intros l Hl Hm. rewrite <- L; auto.
  - intros l Hl. simpl. rewrite L; auto.
Qed.

(** ** Pointer stores, at the register block starting at row i (multiple of SS) of column j *)
Definition store_ok (p : mptr) : Prop := mp_kind p = Panel -> mp_af p = true.

Lemma store_lane : forall p, mptr_wf SS p -> store_ok p -> lane_ok p.
Proof. intros p Hwf H K. apply Hwf. auto. Qed.

Lemma block_lanes : forall p i j l, mptr_wf SS p -> mp_so p = columnMajor -> lane_ok p ->
  i mod SS = 0 -> l < SS -> addr p (i + l) j = mp_base (poff p i j) + l.
Proof.
  intros p i j l Hwf Hso HL Hi Hl. cbn [poff mp_base]. unfold poff. cbn [mp_base].
  apply addr_lanes_cm; auto.
Qed.

Lemma poff_wf_cm : forall p i j, mptr_wf SS p -> mp_so p = columnMajor -> i mod SS = 0 -> mptr_wf SS (poff p i j).
Proof. intros. apply poff_wf; auto. rewrite H0. auto. Qed.

Lemma mp_storem_effect : forall al p i j v mk, mptr_wf SS p -> mp_so p = columnMajor -> store_ok p -> i mod SS = 0 ->
  (forall l, l < SS -> mk l = true -> al (addr p (i + l) j) = true) ->
  exists W, effect (fun m => mp_storem SS T al (poff p i j) v mk m) W /\
    forall e, (forall l, l < SS -> mk l = true -> v l = e (i + l) j) ->
    region W (fun i' j' => j' = j /\ i <= i' < i + SS /\ mk (i' - i) = true) (addr p) e.
Proof.
  intros al p i j v mk Hwf Hso Hst Hi Hal.
  assert (HL : lane_ok p) by (apply store_lane; auto).
  set (b := mp_base (poff p i j)).
  assert (L : forall l, l < SS -> addr p (i + l) j = b + l) by (intros; apply block_lanes; auto).
  exists (fun x => if (b <=? x) && (x <? b + SS) && mk (x - b) then Some (v (x - b)) else None). split.
  - apply effect_ext with (fun m => simd_maskstore SS T al b v mk m).
    + intros m. unfold mp_storem. cbn [poff mp_kind mp_af]. unfold poff. cbn [mp_kind mp_af].
      destruct (mp_kind p) eqn:K; auto. rewrite (Hst K). reflexivity.
    + apply simd_maskstore_effect. intros l Hl Hm. rewrite <- L; auto.
  - intros e He. split.
    + intros a x E. destruct (Nat.leb_spec b a), (Nat.ltb_spec a (b + SS)); simpl in E; try discriminate.
      destruct (mk (a - b)) eqn:Mk; [|discriminate]. injection E as <-.
      exists (i + (a - b)), j. rewrite L by lia. replace (i + (a - b) - i) with (a - b) by lia.
      repeat split; auto; try lia. apply He; auto. lia.
    + intros i' j' (-> & Hr & Mk). replace i' with (i + (i' - i)) by lia. rewrite L by lia.
      rewrite (proj2 (Nat.leb_le _ _)), (proj2 (Nat.ltb_lt _ _)) by lia. simpl.
      replace (b + (i' - i) - b) with (i' - i) by lia. rewrite Mk. discriminate.
Qed.

Lemma mp_store_effect : forall al p i j v, mptr_wf SS p -> mp_so p = columnMajor -> store_ok p -> i mod SS = 0 ->
  (forall l, l < SS -> al (addr p (i + l) j) = true) ->
  exists W, effect (fun m => mp_store SS T al (poff p i j) v m) W /\
    forall e, (forall l, l < SS -> v l = e (i + l) j) ->
    region W (fun i' j' => j' = j /\ i <= i' < i + SS) (addr p) e.
Proof.
  intros al p i j v Hwf Hso Hst Hi Hal.
  assert (HL : lane_ok p) by (apply store_lane; auto).
  set (b := mp_base (poff p i j)).
  assert (L : forall l, l < SS -> addr p (i + l) j = b + l) by (intros; apply block_lanes; auto).
  exists (fun x => if (b <=? x) && (x <? b + SS) then Some (v (x - b)) else None). split.
  - apply effect_ext with (fun m => simd_store SS T al (mp_af p) b v m).
    + intros m. unfold mp_store. cbn [poff mp_kind mp_af]. unfold poff. cbn [mp_kind mp_af].
      destruct (mp_kind p) eqn:K; auto. rewrite (Hst K). reflexivity.
    + apply simd_store_effect.
      * intros AF. pose proof (poff_wf_cm p i j Hwf Hso Hi) as [_ W]. apply W. exact AF.
      * intros l Hl. rewrite <- L; auto.
  - intros e He. split.
    + intros a x E. destruct (Nat.leb_spec b a), (Nat.ltb_spec a (b + SS)); simpl in E; try discriminate.
      injection E as <-.
      exists (i + (a - b)), j. rewrite L by lia.
      repeat split; auto; try lia. apply He; auto. lia.
    + intros i' j' (-> & Hr). replace i' with (i + (i' - i)) by lia. rewrite L by lia.
      rewrite (proj2 (Nat.leb_le _ _)), (proj2 (Nat.ltb_lt _ _)) by lia. simpl. discriminate.
Qed.

End Simd.
