(** Properties_Container.v -- C40 (dense/panel assignment), C41 (construction, scalar assignment, reset), C46 (comparison). *)
From Coq Require Import Arith Lia List Bool PeanoNat ZArith.
From Verif Require Import Base Base_Proofs Spec Instances Layout_Model Layout_Proofs Simd_Model Scan_Proofs Reg_Model Container_Model Container_Proofs.
Import ListNotations.

(** A matrix or submatrix lies inside its container, whose buffer is aligned. *)
Definition window_ok (SS : nat) (v : view) : Prop :=
  c_base (v_cont v) mod SS = 0 /\ v_i v + v_m v <= c_rows (v_cont v) /\ v_j v + v_n v <= c_cols (v_cont v).
(** The buffer of a container is allocated. *)
Definition buffer_live (SS : nat) (al : alloc) (c : container) : Prop := forall a, c_alloc SS c a = true -> al a = true.
(** Two containers own different memory. *)
Definition buffers_apart (SS : nat) (c d : container) : Prop := forall a, c_alloc SS c a = true -> c_alloc SS d a = true -> False.
(** If both matrices are column-major (the vectorised case), they start at a row that is a multiple of the vector length.
    Containers do; panel submatrices do, their constructor throws otherwise (C09); windows of dense matrices may not. *)
Definition rows_aligned (SS : nat) (L R : view) : Prop :=
  c_so (v_cont L) = columnMajor -> c_so (v_cont R) = columnMajor -> v_i L mod SS = 0 /\ v_i R mod SS = 0.

(** ** C40 *)
Theorem C40_assign_panel_to_dense : forall SS T (O : Ops T) al L R m, 0 < SS ->
  c_kind (v_cont L) = Dense -> c_kind (v_cont R) = Panel ->
  window_ok SS L -> window_ok SS R -> rows_aligned SS L R -> v_m L = v_m R -> v_n L = v_n R ->
  buffer_live SS al (v_cont L) -> buffer_live SS al (v_cont R) -> buffers_apart SS (v_cont L) (v_cont R) ->
  exists m', assign_dense_panel SS T O al L R m = Ok m' /\
    updated (block (v_m R) (v_n R)) (v_addr SS L) (fun i j => m (v_addr SS R i j)) m m'.
Proof.
  intros SS T O al L R m HSS Lk Rk (L1 & L2 & L3) (R1 & R2 & R3) RA Em En LA RAl AP.
  destruct (c_so (v_cont L)) eqn:Lso; [|destruct (c_so (v_cont R)) eqn:Rso].
  - unfold assign_dense_panel. rewrite Lso. apply copy_elements_ok; auto; rewrite ?Em, ?En in *; auto.
  - unfold assign_dense_panel. rewrite Lso, Rso. apply copy_elements_ok; auto; rewrite ?Em, ?En in *; auto.
  - destruct (RA Lso Rso). apply assign_dense_panel_cm_ok; auto; rewrite ?Em, ?En in *; auto.
Qed.

Theorem C40_assign_dense_to_panel : forall SS T (O : Ops T) al L R m, 0 < SS ->
  c_kind (v_cont L) = Panel -> c_kind (v_cont R) = Dense ->
  window_ok SS L -> window_ok SS R -> rows_aligned SS L R -> v_m L = v_m R -> v_n L = v_n R ->
  buffer_live SS al (v_cont L) -> buffer_live SS al (v_cont R) -> buffers_apart SS (v_cont L) (v_cont R) ->
  exists m', assign_panel_dense SS T O al L R m = Ok m' /\
    updated (block (v_m R) (v_n R)) (v_addr SS L) (fun i j => m (v_addr SS R i j)) m m'.
Proof.
  intros SS T O al L R m HSS Lk Rk (L1 & L2 & L3) (R1 & R2 & R3) RA Em En LA RAl AP.
  destruct (c_so (v_cont L)) eqn:Lso; [|destruct (c_so (v_cont R)) eqn:Rso].
  - unfold assign_panel_dense. rewrite Lso. apply copy_elements_ok; auto; rewrite ?Em, ?En in *; auto.
  - apply assign_panel_dense_rm_ok; auto; rewrite ?Em, ?En in *; auto.
  - destruct (RA Lso Rso). apply assign_panel_dense_cm_ok; auto; rewrite ?Em, ?En in *; auto.
Qed.

(** dense -> panel -> dense is the identity, and the source is not changed. *)
Theorem C40_round_trip : forall SS T (O : Ops T) al D P D' m, 0 < SS ->
  c_kind (v_cont D) = Dense -> c_kind (v_cont P) = Panel -> c_kind (v_cont D') = Dense ->
  window_ok SS D -> window_ok SS P -> window_ok SS D' -> rows_aligned SS P D -> rows_aligned SS D' P ->
  v_m P = v_m D -> v_n P = v_n D -> v_m D' = v_m D -> v_n D' = v_n D ->
  buffer_live SS al (v_cont D) -> buffer_live SS al (v_cont P) -> buffer_live SS al (v_cont D') ->
  buffers_apart SS (v_cont P) (v_cont D) -> buffers_apart SS (v_cont D') (v_cont P) -> buffers_apart SS (v_cont D') (v_cont D) ->
  exists m', bind (assign_panel_dense SS T O al P D m) (assign_dense_panel SS T O al D' P) = Ok m' /\
    forall i j, i < v_m D -> j < v_n D -> m' (v_addr SS D' i j) = m (v_addr SS D i j) /\ m' (v_addr SS D i j) = m (v_addr SS D i j).
Proof.
  intros SS T O al D P D' m HSS Dk Pk Dk' WD WP WD' A1 A2 E1 E2 E3 E4 LD LP LD' S1 S2 S3.
  destruct (C40_assign_dense_to_panel SS T O al P D m) as (m1 & R1 & U1a & U1b); auto.
  destruct (C40_assign_panel_to_dense SS T O al D' P m1) as (m2 & R2 & U2a & U2b); auto; try congruence.
  rewrite R1. cbn [bind]. exists m2. split; auto. intros i j Hi Hj.
  assert (ID : c_alloc SS (v_cont D) (v_addr SS D i j) = true).
  { unfold v_addr. destruct WD as (_ & W1 & W2). apply c_alloc_index; auto; lia. }
  split.
  - rewrite U2a by (split; lia). apply U1a. split; auto.
  - rewrite U2b, U1b; auto.
    + intros i' j' [Hi' Hj'] X. apply (S1 (v_addr SS D i j)); auto. rewrite X. destruct WP as (_ & W1 & W2). apply c_alloc_index; auto; lia.
    + intros i' j' [Hi' Hj'] X. apply (S3 (v_addr SS D i j)); auto. rewrite X. destruct WD' as (_ & W1 & W2). apply c_alloc_index; auto; lia.
Qed.

(** The sizes are not checked: assigning a 5-by-1 panel matrix to a 1-by-1 dense matrix writes outside its buffer. *)
Theorem C40_sizes_unchecked_refuted : 
  let L := Cont Dense true columnMajor 1 1 0 in let R := Cont Panel true columnMajor 5 1 8 in
  assign_dense_panel 4 Z zops (fun a => c_alloc 4 L a || c_alloc 4 R a) (whole L) (whole R) (fun _ => 0%Z) = UB.
Proof. reflexivity. Qed.
(** A window of a dense matrix that does not start at a multiple of the vector length is accessed with aligned instructions. *)
Theorem C40_unaligned_window_refuted :
  let L := Cont Dense true columnMajor 8 1 0 in let R := Cont Panel true columnMajor 4 1 8 in
  window_ok 4 (submatrix false L 1 0 4 1) /\ window_ok 4 (whole R) /\
  assign_dense_panel 4 Z zops (fun a => c_alloc 4 L a || c_alloc 4 R a) (submatrix false L 1 0 4 1) (whole R) (fun _ => 0%Z) = UB.
Proof. repeat split; cbn; lia. Qed.

(** Example: 5-by-2, column-major, SS = 4: the hypotheses of the round trip hold and the elements arrive. *)
Definition exD := Cont Dense false columnMajor 5 2 0.
Definition exP := Cont Panel true columnMajor 5 2 16.
Definition exD' := Cont Dense true columnMajor 5 2 32.
Definition exal (a : nat) := a <? 48.
Definition exm (a : nat) : Z := Z.of_nat a.
Example C40_example_hypotheses :
  window_ok 4 (whole exD) /\ window_ok 4 (whole exP) /\ window_ok 4 (whole exD') /\ rows_aligned 4 (whole exP) (whole exD) /\
  buffer_live 4 exal exD /\ buffer_live 4 exal exP /\ buffer_live 4 exal exD' /\
  buffers_apart 4 exP exD /\ buffers_apart 4 exD' exP /\ buffers_apart 4 exD' exD.
Proof.
  unfold buffer_live, buffers_apart, c_alloc, exal. cbn [exD exP exD' c_base c_capacity c_kind c_so c_static c_rows c_cols c_spacing].
  repeat split; try (cbn; lia); intros a H; try (apply andb_true_iff in H; destruct H as [H1 H2]; apply Nat.leb_le in H1; apply Nat.ltb_lt in H2);
   try (intros H'; apply andb_true_iff in H'; destruct H' as [H1' H2']; apply Nat.leb_le in H1'; apply Nat.ltb_lt in H2'); cbn in *;
   try (apply Nat.leb_le); lia.
Qed.
Example C40_example_run :
  match bind (assign_panel_dense 4 Z zops exal (whole exP) (whole exD) exm) (assign_dense_panel 4 Z zops exal (whole exD') (whole exP)) with
  | Ok m' => map (fun k => m' (32 + k)) (seq 0 16) | _ => [] end
  = [0; 1; 2; 3; 4; 37; 38; 39; 8; 9; 10; 11; 12; 45; 46; 47]%Z.
Proof. vm_compute. reflexivity. Qed.

(** ** C41 *)
(** Constructing a matrix: every element is 0 (so is the padding), nothing outside the buffer changes. *)
Theorem C41_default_construction : forall SS T (O : Ops T) al c m, 0 < SS -> buffer_live SS al c ->
  exists m', c_construct SS T O al c m = Ok m' /\
    (forall i j, i < c_rows c -> j < c_cols c -> m' (c_addr SS c i j) = o0 O) /\
    (forall a, m' a = if c_alloc SS c a then o0 O else m a).
Proof.
  intros SS T O al c m HSS Hal. unfold c_construct.
  destruct (fill_n_ok SS HSS T al (c_base c) (c_capacity SS c) (o0 O) m) as (m' & E & H).
  - intros k Hk. apply Hal. apply c_alloc_base; auto.
  - exists m'. split; auto. split; [|exact H].
    intros i j Hi Hj. rewrite H. fold (c_alloc SS c (c_addr SS c i j)). rewrite c_alloc_index; auto.
Qed.
(** StaticMatrix(v): every element is v. *)
Theorem C41_value_construction : forall SS T (O : Ops T) al c v m, 0 < SS -> buffer_live SS al c ->
  exists m', c_construct_value SS T al c v m = Ok m' /\
    (forall i j, i < c_rows c -> j < c_cols c -> m' (c_addr SS c i j) = v) /\
    (forall a, c_alloc SS c a = false -> m' a = m a).
Proof.
  intros SS T O al c v m HSS Hal. unfold c_construct_value.
  destruct (fill_n_ok SS HSS T al (c_base c) (c_capacity SS c) v m) as (m' & E & H).
  - intros k Hk. apply Hal. apply c_alloc_base; auto.
  - exists m'. split; auto. split.
    + intros i j Hi Hj. rewrite H. fold (c_alloc SS c (c_addr SS c i j)). rewrite c_alloc_index; auto.
    + intros a Ha. rewrite H. unfold c_alloc in Ha. rewrite Ha. reflexivity.
Qed.
(** The padding is not zero then, although the code's comments say that padding is kept 0. *)
Theorem C41_value_construction_padding_refuted :
  let c := Cont Dense true columnMajor 3 1 0 in
  exists m' a, c_construct_value 4 Z (c_alloc 4 c) c 7%Z (fun _ => 0%Z) = Ok m' /\
    (forall i j, i < 3 -> j < 1 -> a <> c_addr 4 c i j) /\ c_alloc 4 c a = true /\ m' a = 7%Z.
Proof.
  cbv zeta. eexists. exists 3. split; [reflexivity|]. split; [|split; reflexivity].
  intros i j Hi Hj. unfold c_addr, c_index, c_spacing. cbn [c_kind c_so c_base c_rows]. destruct j; lia.
Qed.

(** Initializer lists are row-major whatever the storage order; short rows are filled with 0; a wrong number of rows or a
    row that is too long throws invalid_argument. *)
Theorem C41_list_construction : forall SS T (O : Ops T) al c (l : list (list T)) m, 0 < SS -> buffer_live SS al c ->
  if (length l =? c_rows c) && forallb (fun r => length r <=? c_cols c) l then
    exists m', c_construct_list SS T O al c l m = Ok m' /\
      (forall i j, i < c_rows c -> j < c_cols c -> m' (c_addr SS c i j) = nth j (nth i l []) (o0 O)) /\
      (forall a, c_alloc SS c a = true -> (forall i j, i < c_rows c -> j < c_cols c -> a <> c_addr SS c i j) -> m' a = o0 O) /\
      (forall a, c_alloc SS c a = false -> m' a = m a)
  else c_construct_list SS T O al c l m = Throw InvalidArgument.
Proof.
  intros SS T O al c l m HSS Hal. unfold c_construct_list.
  destruct (fill_n_ok SS HSS T al (c_base c) (c_capacity SS c) (o0 O) m) as (m1 & E1 & H1).
  { intros k Hk. apply Hal. apply c_alloc_base; auto. }
  assert (F : forall a, m1 a = if c_alloc SS c a then o0 O else m a) by exact H1.
  rewrite E1. cbn [bind].
  assert (EqB : negb (length l =? c_rows c) || (c_cols c <? determineColumns T l) =
                negb ((length l =? c_rows c) && forallb (fun r => length r <=? c_cols c) l)).
  { rewrite negb_andb. f_equal. apply eq_true_iff_eq. rewrite Nat.ltb_lt, negb_true_iff. split.
    - intros H. apply not_true_is_false. intros X. rewrite forallb_forall in X.
      assert (determineColumns T l <= c_cols c); [|lia]. apply (determineColumns_le SS HSS). intros r Hr. apply Nat.leb_le. auto.
    - intros H. destruct (Nat.lt_ge_cases (c_cols c) (determineColumns T l)) as [|G]; auto.
      pose proof (proj1 (determineColumns_le SS HSS T l (c_cols c)) G) as G'.
      assert (forallb (fun r => length r <=? c_cols c) l = true); [|congruence].
      apply forallb_forall. intros r Hr. apply Nat.leb_le. auto. }
  rewrite EqB. destruct ((length l =? c_rows c) && forallb (fun r => length r <=? c_cols c) l) eqn:E; cbn [negb]; auto.
  apply andb_true_iff in E. destruct E as [EL ER]. apply Nat.eqb_eq in EL. rewrite forallb_forall in ER.
  assert (ER' : forall r, In r l -> length r <= c_cols c) by (intros r Hr; apply Nat.leb_le; auto).
  destruct (init_rows_ok SS HSS T O al c l 0 m1 Hal ltac:(lia) ER') as (m' & E' & U1 & U2).
  exists m'. split; auto. split; [|split].
  - intros i j Hi Hj. destruct (Nat.lt_ge_cases j (length (nth i l []))) as [H|H].
    + rewrite U1; rewrite ?Nat.sub_0_r; auto. lia.
    + rewrite nth_overflow by auto. rewrite U2.
      * rewrite F, c_alloc_index by auto. reflexivity.
      * intros i' j' [Hi' Hj'] X. rewrite Nat.sub_0_r in Hj'.
        assert (length (nth i' l []) <= c_cols c) by (apply ER', nth_In; lia).
        apply c_addr_inj in X; auto; try lia. destruct X; subst. lia.
  - intros a Ha Hn. rewrite U2; [rewrite F, Ha; reflexivity|]. intros i' j' [Hi' Hj'] X. rewrite Nat.sub_0_r in Hj'.
    assert (length (nth i' l []) <= c_cols c) by (apply ER', nth_In; lia).
    apply (Hn i' j'); auto; lia.
  - intros a Ha. rewrite U2; [rewrite F, Ha; reflexivity|]. intros i' j' [Hi' Hj'] X. rewrite Nat.sub_0_r in Hj'.
    assert (length (nth i' l []) <= c_cols c) by (apply ER', nth_In; lia).
    subst a. rewrite c_alloc_index in Ha; auto; try discriminate; lia.
Qed.

(** Assigning a scalar sets the elements and nothing else (not even the padding). *)
Theorem C41_scalar_assignment : forall SS T (O : Ops T) al c v m, 0 < SS -> buffer_live SS al c ->
  exists m', c_fill SS T al c v m = Ok m' /\ updated (block (c_rows c) (c_cols c)) (c_addr SS c) (fun _ _ => v) m m'.
Proof. intros SS T O al c v m HSS Hal. apply c_fill_ok; auto. Qed.

(** reset() of dense matrices zeroes the buffer. *)
Theorem C41_dense_reset : forall SS T (O : Ops T) al c m, 0 < SS -> c_kind c = Dense -> buffer_live SS al c ->
  exists m', c_reset SS T O al c m = Ok m' /\
    (forall i j, i < c_rows c -> j < c_cols c -> m' (c_addr SS c i j) = o0 O) /\
    (forall a, m' a = if c_alloc SS c a then o0 O else m a).
Proof.
  intros SS T O al c m HSS Hk Hal.
  assert (E : c_reset SS T O al c m = c_construct SS T O al c m).
  { unfold c_reset, c_construct. rewrite Hk. destruct (c_static c); auto. f_equal.
    unfold c_capacity. rewrite Hk. destruct (c_so c); reflexivity. }
  rewrite E. apply C41_default_construction; auto.
Qed.

(** reset() of DynamicPanelMatrix fills one panel per column (columns and rows exchanged for row-major) instead of all
    panels.  It works exactly if the number of panels is at most n and the buffer has at least n panels. *)
Definition panels (SS n : nat) : nat := nextMultiple n SS / SS.
Lemma panels_mul : forall SS n, 0 < SS -> SS * panels SS n = nextMultiple n SS.
Proof.
  intros SS n H. unfold panels. destruct (nextMultiple_spec n SS H) as (_ & M & _). apply mod0_ex in M; auto. destruct M as [q Eq].
  rewrite Eq. rewrite (Nat.mul_comm SS q), Nat.div_mul by lia. lia.
Qed.
Theorem C41_panel_reset_correct_sizes : forall SS T (O : Ops T) c m, 0 < SS ->
  c_kind c = Panel -> c_static c = false ->
  let len := match c_so c with columnMajor => c_cols c | rowMajor => c_rows c end in
  let pan := panels SS match c_so c with columnMajor => c_rows c | rowMajor => c_cols c end in
  pan <= len <= SS * pan ->
  exists m', c_reset SS T O (c_alloc SS c) c m = Ok m' /\
    (forall i j, i < c_rows c -> j < c_cols c -> m' (c_addr SS c i j) = o0 O) /\
    (forall a, c_alloc SS c a = false -> m' a = m a).
Proof.
  intros SS T O c m HSS Hk Hs len pan H. unfold c_reset. rewrite Hk, Hs. fold len.
  assert (Cap : c_capacity SS c = c_spacing SS c * (SS * pan)).
  { unfold c_capacity, pan. rewrite Hk, Hs. destruct (c_so c); rewrite panels_mul; auto. }
  destruct (fill_n_ok SS HSS T (c_alloc SS c) (c_base c) (c_spacing SS c * len) (o0 O) m) as (m' & E & F).
  - intros k Hk'. apply (c_alloc_base SS HSS). rewrite Cap. assert (c_spacing SS c * len <= c_spacing SS c * (SS * pan)) by (apply Nat.mul_le_mono_l; lia). lia.
  - exists m'. split; auto. split.
    + intros i j Hi Hj. rewrite F. unfold c_addr.
      assert (B : c_index SS c i j < c_spacing SS c * len).
      { assert (c_index SS c i j < c_spacing SS c * pan).
        { unfold c_index, c_spacing, pan. rewrite Hk. 
          destruct (c_so c).
          - assert (J : j / SS < panels SS (c_cols c)).
            { apply Nat.div_lt_upper_bound; [lia|]. rewrite panels_mul by auto. destruct (nextMultiple_spec (c_cols c) SS HSS). lia. }
            pose proof (panel_index_bound SS HSS (c_rows c) (c_cols c) j i (panels SS (c_cols c)) Hi J Hj). lia.
          - assert (J : i / SS < panels SS (c_rows c)).
            { apply Nat.div_lt_upper_bound; [lia|]. rewrite panels_mul by auto. destruct (nextMultiple_spec (c_rows c) SS HSS). lia. }
            pose proof (panel_index_bound SS HSS (c_cols c) (c_rows c) i j (panels SS (c_rows c)) Hj J Hi). lia. }
        assert (c_spacing SS c * pan <= c_spacing SS c * len) by (apply Nat.mul_le_mono_l; lia). lia. }
      destruct (Nat.leb_spec (c_base c) (c_base c + c_index SS c i j)); destruct (Nat.ltb_spec (c_base c + c_index SS c i j) (c_base c + c_spacing SS c * len)); cbn; auto; lia.
    + intros a Ha. rewrite F. unfold c_alloc in Ha.
      assert (c_spacing SS c * len <= c_capacity SS c) by (rewrite Cap; apply Nat.mul_le_mono_l; lia).
      destruct (Nat.leb_spec (c_base c) a); destruct (Nat.ltb_spec a (c_base c + c_spacing SS c * len)); cbn; auto.
      destruct (Nat.leb_spec (c_base c) a); destruct (Nat.ltb_spec a (c_base c + c_capacity SS c)); cbn in Ha; try discriminate; lia.
Qed.
(** What it does for every size: with len the number of columns (row-major: rows) and pan the number of panels, it overruns the buffer if len > SS * pan;
    otherwise it clears the elements of the first len panels, leaves the others, and writes nothing outside the buffer. *)
Theorem C41_panel_reset : forall SS T (O : Ops T) c m, 0 < SS ->
  c_kind c = Panel -> c_static c = false ->
  let len := match c_so c with columnMajor => c_cols c | rowMajor => c_rows c end in
  let pan := panels SS match c_so c with columnMajor => c_rows c | rowMajor => c_cols c end in
  if SS * pan <? len then c_reset SS T O (c_alloc SS c) c m = UB
  else exists m', c_reset SS T O (c_alloc SS c) c m = Ok m' /\
    (forall i j, i < c_rows c -> j < c_cols c ->
       m' (c_addr SS c i j) = if match c_so c with columnMajor => i | rowMajor => j end / SS <? len then o0 O else m (c_addr SS c i j)) /\
    (forall a, c_alloc SS c a = false -> m' a = m a).
Proof.
  intros SS T O c m HSS Hk Hs len pan. unfold c_reset. rewrite Hk, Hs. fold len.
  assert (Cap : c_capacity SS c = c_spacing SS c * (SS * pan)).
  { unfold c_capacity, pan. rewrite Hk, Hs. destruct (c_so c); rewrite panels_mul; auto. }
  assert (Sp : c_spacing SS c = SS * len) by (unfold c_spacing, len; rewrite Hk; destruct (c_so c); reflexivity).
  destruct (Nat.ltb_spec (SS * pan) len) as [Big|Small].
  - apply (fill_n_overrun SS HSS) with (k := c_capacity SS c).
    + rewrite Cap, Sp. apply Nat.mul_lt_mono_pos_l; auto. apply Nat.mul_pos_pos; lia.
    + unfold c_alloc. apply andb_false_iff. right. apply Nat.ltb_ge. lia.
  - assert (In : c_spacing SS c * len <= c_capacity SS c) by (rewrite Cap; apply Nat.mul_le_mono_l; lia).
    destruct (fill_n_ok SS HSS T (c_alloc SS c) (c_base c) (c_spacing SS c * len) (o0 O) m) as (m' & E & F).
    { intros k Hk'. apply (c_alloc_base SS HSS). lia. }
    exists m'. split; auto. split.
    + intros i j Hi Hj. rewrite F. unfold c_addr.
      set (mj := match c_so c with columnMajor => i | rowMajor => j end).
      assert (Ix : exists r, c_index SS c i j = mj / SS * c_spacing SS c + r /\ r < c_spacing SS c).
      { unfold c_index. rewrite Hk. rewrite Sp. unfold mj, len.
        destruct (c_so c).
        - exists (j mod SS + i * SS). pose proof (Nat.mod_upper_bound j SS ltac:(lia)). split; [lia|nia].
        - exists (i mod SS + j * SS). pose proof (Nat.mod_upper_bound i SS ltac:(lia)). split; [lia|nia]. }
      destruct Ix as (r & -> & Hr).
      rewrite (proj2 (Nat.leb_le (c_base c) _)) by lia. cbn [andb].
      destruct (Nat.ltb_spec (mj / SS) len) as [Q|Q].
      * rewrite (proj2 (Nat.ltb_lt _ _)); [reflexivity|]. assert ((mj / SS + 1) * c_spacing SS c <= len * c_spacing SS c) by (apply Nat.mul_le_mono_r; lia). lia.
      * rewrite (proj2 (Nat.ltb_ge _ _)); [reflexivity|]. assert (len * c_spacing SS c <= mj / SS * c_spacing SS c) by (apply Nat.mul_le_mono_r; lia). lia.
    + intros a Ha. rewrite F. unfold c_alloc in Ha.
      destruct (Nat.leb_spec (c_base c) a); destruct (Nat.ltb_spec a (c_base c + c_spacing SS c * len)); cbn; auto.
      destruct (Nat.leb_spec (c_base c) a); destruct (Nat.ltb_spec a (c_base c + c_capacity SS c)); cbn in Ha; try discriminate; lia.
Qed.
(** Too many columns: it writes past the end of the buffer, for every matrix with n > nextMultiple(m, SS) > 0. *)
Theorem C41_panel_reset_overflow_refuted : forall SS T (O : Ops T) c m, 0 < SS ->
  c_kind c = Panel -> c_static c = false -> c_so c = columnMajor -> nextMultiple (c_rows c) SS < c_cols c ->
  c_reset SS T O (c_alloc SS c) c m = UB.
Proof.
  intros SS T O c m HSS Hk Hs So H. unfold c_reset. rewrite Hk, Hs, So.
  apply (fill_n_overrun SS HSS) with (k := c_capacity SS c).
  - unfold c_capacity, c_spacing. rewrite Hk, Hs, So. apply Nat.mul_lt_mono_pos_l; auto. apply Nat.mul_pos_pos; lia.
  - unfold c_alloc. apply andb_false_iff. right. apply Nat.ltb_ge. lia.
Qed.
(** Too few columns: some element keeps its old value. *)
Theorem C41_panel_reset_incomplete_refuted :
  let c := Cont Panel false columnMajor 8 1 0 in
  exists m', c_reset 4 Z zops (c_alloc 4 c) c (fun _ => 7%Z) = Ok m' /\ m' (c_addr 4 c 4 0) = 7%Z.
Proof. eexists. split; reflexivity. Qed.

(** StaticVector: construction from a list (missing elements are 0, extra ones ignored), from a value, and reset(). *)
Theorem C41_static_vector_list : forall SS T (O : Ops T) v (l : list T) m, 0 < SS ->
  exists m', sv_construct_list SS T O (sv_alloc SS v) v l m = Ok m' /\
    (forall i, i < sv_size v -> m' (sv_addr v i) = nth i l (o0 O)) /\
    (forall a, sv_alloc SS v a = true -> (forall i, i < sv_size v -> a <> sv_addr v i) -> m' a = o0 O) /\
    (forall a, sv_alloc SS v a = false -> m' a = m a).
Proof.
  intros SS T O v l m HSS. unfold sv_construct_list. set (k := min (length l) (sv_size v)).
  assert (Cap : sv_size v <= sv_capacity SS v) by apply (nextMultiple_spec (sv_size v) SS HSS).
  assert (Hal : forall i, i < sv_capacity SS v -> sv_alloc SS v (sv_base v + i) = true).
  { intros i Hi. unfold sv_alloc. apply andb_true_intro. split; [apply Nat.leb_le|apply Nat.ltb_lt]; lia. }
  destruct (for_inv (mem T) (fun i m' => (forall k', k' < i -> m' (sv_base v + k') = nth k' l (o0 O)) /\
      (forall a, (forall k', k' < i -> a <> sv_base v + k') -> m' a = m a)) 0 k
      (fun i m => wr (sv_alloc SS v) m (sv_base v + i) (nth i l (o0 O))) m) as (m1 & E1 & A1 & B1); try lia.
  - split; intros; auto; lia.
  - intros i m1 Hi [A B]. rewrite wr_ok by (apply Hal; lia). eexists; split; eauto. split.
    + intros k' Hk'. destruct (Nat.eq_dec k' i) as [->|]; [apply mupd_eq|]. rewrite mupd_neq by lia. apply A; lia.
    + intros a Ha. rewrite mupd_neq by (apply Ha; lia). apply B. intros; apply Ha; lia.
  - rewrite E1. cbn [bind].
    destruct (fill_n_ok SS HSS T (sv_alloc SS v) (sv_base v + k) (sv_capacity SS v - k) (o0 O) m1) as (m' & E & F).
    + intros k' Hk'. rewrite <- Nat.add_assoc. apply Hal. lia.
    + exists m'. split; auto. unfold sv_addr. split; [|split].
      * intros i Hi. rewrite F. destruct (Nat.leb_spec (sv_base v + k) (sv_base v + i)); cbn [andb].
        -- destruct (Nat.ltb_spec (sv_base v + i) (sv_base v + k + (sv_capacity SS v - k))); [|lia].
           symmetry. apply nth_overflow. unfold k in *. lia.
        -- apply A1. lia.
      * intros a Ha Hn. unfold sv_alloc in Ha. apply andb_true_iff in Ha. destruct Ha as [Ha1 Ha2]. apply Nat.leb_le in Ha1. apply Nat.ltb_lt in Ha2.
        rewrite F. destruct (Nat.leb_spec (sv_base v + k) a); cbn [andb].
        -- destruct (Nat.ltb_spec a (sv_base v + k + (sv_capacity SS v - k))); auto; lia.
        -- exfalso. apply (Hn (a - sv_base v)); unfold k in *; lia.
      * intros a Ha. rewrite F. unfold sv_alloc in Ha.
        destruct (Nat.leb_spec (sv_base v) a); destruct (Nat.ltb_spec a (sv_base v + sv_capacity SS v)); cbn in Ha; try discriminate.
        -- destruct (Nat.ltb_spec a (sv_base v + k + (sv_capacity SS v - k))); [lia|]. rewrite andb_false_r. apply B1. intros; lia.
        -- destruct (Nat.leb_spec (sv_base v + k) a); [lia|]. cbn [andb]. apply B1. intros; lia.
        -- destruct (Nat.leb_spec (sv_base v + k) a); [lia|]. cbn [andb]. apply B1. intros; lia.
Qed.
Theorem C41_static_vector_value : forall SS T (O : Ops T) v x m, 0 < SS ->
  exists m', sv_fill SS T (sv_alloc SS v) v x m = Ok m' /\
    (forall i, i < sv_size v -> m' (sv_addr v i) = x) /\ (forall a, sv_alloc SS v a = false -> m' a = m a).
Proof.
  intros SS T O v x m HSS. assert (Cap : sv_size v <= sv_capacity SS v) by apply (nextMultiple_spec (sv_size v) SS HSS).
  destruct (fill_n_ok SS HSS T (sv_alloc SS v) (sv_base v) (sv_capacity SS v) x m) as (m' & E & F).
  - intros k Hk. unfold sv_alloc. apply andb_true_intro. split; [apply Nat.leb_le|apply Nat.ltb_lt]; lia.
  - exists m'. split; auto. split.
    + intros i Hi. rewrite F. unfold sv_addr. destruct (Nat.leb_spec (sv_base v) (sv_base v + i)); destruct (Nat.ltb_spec (sv_base v + i) (sv_base v + sv_capacity SS v)); cbn; auto; lia.
    + intros a Ha. rewrite F. unfold sv_alloc in Ha. rewrite Ha. reflexivity.
Qed.

Example C41_example : (* {{1,2},{3},{4,5}} as a 3-by-2 panel matrix, SS = 2 *)
  let c := Cont Panel true columnMajor 3 2 2 in
  match c_construct_list 2 Z zops (c_alloc 2 c) c [[1; 2]; [3]; [4; 5]]%Z (fun _ => 9%Z) with
  | Ok m' => map m' (seq 0 12) | _ => [] end = [9; 9; 1; 3; 2; 0; 4; 0; 5; 0; 9; 9]%Z.
Proof. vm_compute. reflexivity. Qed.
Example C41_example_reset : (* 4-by-4 panel matrices satisfy the condition of C41_panel_reset_correct_sizes *)
  let c := Cont Panel false columnMajor 4 4 0 in
  panels 4 4 <= 4 <= 4 * panels 4 4 /\
  match c_reset 4 Z zops (c_alloc 4 c) c (fun _ => 9%Z) with Ok m' => map m' (seq 62 4) | _ => [] end = [0; 0; 9; 9]%Z.
Proof. split; [cbn; lia|vm_compute; reflexivity]. Qed.
Example C41_example_overflow : nextMultiple 1 4 < 5. Proof. cbn. lia. Qed.

(** ** C46 *)
(** operator==(a, b): throws for different sizes, otherwise compares all elements; for a comparison that decides equality
    (no NaN) it is true exactly when the matrices are equal. *)
Theorem C46_matrix_comparison : forall SS T (O : Ops T) al m a b, 0 < SS ->
  window_ok SS a -> window_ok SS b -> buffer_live SS al (v_cont a) -> buffer_live SS al (v_cont b) ->
  if (v_m a =? v_m b) && (v_n a =? v_n b) then
    exists r, m_eq SS T O al m a b = Ok r /\
      (r = true <-> forall i j, i < v_m a -> j < v_n a -> oeqb O (m (v_addr SS a i j)) (m (v_addr SS b i j)) = true)
  else m_eq SS T O al m a b = Throw InvalidArgument.
Proof.
  intros SS T O al m a b HSS (_ & A1 & A2) (_ & B1 & B2) LA LB. unfold m_eq.
  destruct ((v_m a =? v_m b) && (v_n a =? v_n b)) eqn:E; cbn [negb]; auto.
  apply andb_true_iff in E. destruct E as [E1 E2]. apply Nat.eqb_eq in E1, E2.
  destruct (eq_rows_spec SS HSS T O al m (v_m a) (v_n a) 0 (v_addr SS a) (v_addr SS b)) as (r & Er & Hr).
  - intros k l Hk Hl. unfold v_addr. split; [apply LA|apply LB]; apply c_alloc_index; auto; lia.
  - exists r. split; auto. rewrite Hr. split; intros H i j; intros; apply H; lia.
Qed.
Theorem C46_matrix_comparison_exact : forall SS T (O : Ops T) al m a b, 0 < SS ->
  (forall x y, oeqb O x y = true <-> x = y) ->
  window_ok SS a -> window_ok SS b -> buffer_live SS al (v_cont a) -> buffer_live SS al (v_cont b) ->
  (m_eq SS T O al m a b = Ok true <->
   v_m a = v_m b /\ v_n a = v_n b /\ forall i j, i < v_m a -> j < v_n a -> m (v_addr SS a i j) = m (v_addr SS b i j)) /\
  (m_eq SS T O al m a b = Throw InvalidArgument <-> v_m a <> v_m b \/ v_n a <> v_n b).
Proof.
  intros SS T O al m a b HSS Eq WA WB LA LB. pose proof (C46_matrix_comparison SS T O al m a b HSS WA WB LA LB) as H.
  destruct (Nat.eqb_spec (v_m a) (v_m b)) as [E1|E1]; destruct (Nat.eqb_spec (v_n a) (v_n b)) as [E2|E2]; cbn [andb] in H.
  - destruct H as (r & Er & Hr). rewrite Er. split.
    + split.
      * intros X. injection X as ->. split; auto. split; auto. intros i j Hi Hj. apply Eq. apply (proj1 Hr); auto.
      * intros (_ & _ & X). f_equal. apply Hr. intros. apply Eq. auto.
    + split; [discriminate|]. intros [X|X]; contradiction.
  - rewrite H. split; [split; [discriminate|tauto]|split; auto].
  - rewrite H. split; [split; [discriminate|tauto]|split; auto].
  - rewrite H. split; [split; [discriminate|tauto]|split; auto].
Qed.
(** With NaN a matrix is not even equal to itself (IEEE semantics, as for built-in types). *)
Theorem C46_nan_not_equal : forall SS T (O : Ops T) al m a i j, 0 < SS -> window_ok SS a -> buffer_live SS al (v_cont a) ->
  i < v_m a -> j < v_n a -> oeqb O (m (v_addr SS a i j)) (m (v_addr SS a i j)) = false ->
  m_eq SS T O al m a a = Ok false.
Proof.
  intros SS T O al m a i j HSS WA LA Hi Hj N. pose proof (C46_matrix_comparison SS T O al m a a HSS WA WA LA LA) as H.
  rewrite !Nat.eqb_refl in H. cbn [andb] in H. destruct H as (r & Er & Hr). rewrite Er. destruct r; auto.
  rewrite (proj1 Hr eq_refl i j Hi Hj) in N. discriminate.
Qed.
(** A register matrix equals a matrix exactly when the sizes agree and all elements compare equal (no exception). *)
Theorem C46_register_comparison : forall SS T (O : Ops T) N RM r M' N' e,
  reg_eq SS T O N RM r M' N' e = true <->
  M' = RM * SS /\ N' = N /\ forall i j, i < M' -> j < N' -> oeqb O (reg_at SS T r i j) (e i j) = true.
Proof.
  intros. unfold reg_eq. destruct (Nat.eqb_spec M' (RM * SS)) as [->|E1]; destruct (Nat.eqb_spec N' N) as [->|E2]; cbn [andb negb];
    try (split; [discriminate|intros (X & Y & _); subst; contradiction]).
  rewrite forallb_forall. split.
  - intros H. split; auto. split; auto. intros i j Hi Hj. specialize (H i ltac:(apply in_seq; lia)). rewrite forallb_forall in H.
    apply H. apply in_seq. lia.
  - intros (_ & _ & H) i Hi. apply in_seq in Hi. apply forallb_forall. intros j Hj. apply in_seq in Hj. apply H; lia.
Qed.
Example C46_example : 
  m_eq 4 Z zops exal exm (whole exD) (whole exD) = Ok true /\ m_eq 4 Z zops exal exm (whole exD) (whole exD') = Ok false /\
  m_eq 4 Z zops exal exm (whole exD) (submatrix false exD 0 0 4 2) = Throw InvalidArgument.
Proof. vm_compute. auto. Qed.
