(** Properties_RowPtr.v -- C63: rows of matrices as vector arguments. *)
From Coq Require Import Arith Lia List Bool PeanoNat ZArith.
From Verif Require Scan_Proofs.
From Verif Require Import Base Base_Proofs Spec Instances Layout_Model Layout_Proofs Simd_Model Simd_Proofs Reg_Model Container_Model Container_Proofs Properties_Container
  Ger_Model Ger_Proofs LU_Model Properties_LU Properties_Strided RowPtr_Model.
Import ListNotations.

(** A pointer to a row addresses the elements of the row, one after the other. *)
Theorem C63_elements : forall SS af r k p, row_ptr SS af r k = Ok p ->
  forall q l, vaddr SS p l = v_addr SS (vr_v r) (vr_i r) (vr_j r + k + l) /\ vaddr SS (voff SS p q) l = v_addr SS (vr_v r) (vr_i r) (vr_j r + k + q + l).
Proof.
  intros SS af r k p H q l. unfold row_ptr, row_statically_spaced, row_spacing in H. destruct r as [v i j n [|]]; [discriminate H|]. destruct v as [c vi vj vm vn vaf vpf].
  cbn [vr_v v_cont row_is_vector vr_const negb] in H. unfold vrow_addr, v_addr, c_addr, c_index in *. cbn [vr_v vr_i vr_j v_cont v_i v_j] in *.
  destruct (c_kind c), (c_so c), (c_static c); cbv iota zeta in H; try discriminate; injection H as <-; cbn [vaddr voff]; split; lia.
Qed.
(** row(A, i), row(A, i, j, n) and subvector(row(A, i, j, n), j', n') are what their arguments say. *)
Theorem C63_row_parts : forall SS v i j n j' n' k,
  vrow_addr SS (vrow_of v i) k = v_addr SS v i k /\ vr_n (vrow_of v i) = v_n v /\
  vrow_addr SS (vrow_part v i j n) k = v_addr SS v i (j + k) /\ vr_n (vrow_part v i j n) = n /\
  vrow_addr SS (vrow_sub (vrow_part v i j n) j' n') k = v_addr SS v i (j + j' + k) /\ vr_n (vrow_sub (vrow_part v i j n) j' n') = n' /\
  vr_const (vrow_of v i) = false /\ vr_const (vrow_part v i j n) = false /\ vr_const (vrow_sub (vrow_part v i j n) j' n') = false.
Proof. intros. repeat split. Qed.
(** A row can be passed to the algorithms exactly if its matrix has a static size and is stored by rows or columns; a row of a dynamic matrix, and of a
    panel matrix, cannot (this is found at compile time). *)
Theorem C63_available : forall SS r, (exists p, row_ptr0 SS r = Ok p) <->
  c_kind (v_cont (vr_v r)) = Dense /\ c_static (v_cont (vr_v r)) = true /\ vr_const r = false.
Proof.
  intros SS r. unfold row_ptr0, row_ptr, row_is_vector, row_statically_spaced, row_spacing.
  destruct (vr_const r), (c_kind (v_cont (vr_v r))), (c_so (v_cont (vr_v r))), (c_static (v_cont (vr_v r))); cbn [negb];
    split; first [intros (p & X); (discriminate X || (split; [|split]; reflexivity))|intros (X & Y & Z); first [discriminate X|discriminate Y|discriminate Z|eauto]].
Qed.
(** With an explicit alignment (ptr<AF>(row, k)) a pointer also exists for rows of column-major panel matrices, whatever the kind of size. *)
Theorem C63_explicit_available : forall SS af r k, (exists p, row_ptr SS af r k = Ok p) <->
  match c_kind (v_cont (vr_v r)) with Dense => c_static (v_cont (vr_v r)) = true | Panel => c_so (v_cont (vr_v r)) = columnMajor end /\ vr_const r = false.
Proof.
  intros SS af r k. unfold row_ptr, row_is_vector, row_statically_spaced, row_spacing.
  destruct (vr_const r), (c_kind (v_cont (vr_v r))), (c_so (v_cont (vr_v r))), (c_static (v_cont (vr_v r))); cbn [negb];
    split; first [intros (p & X); (discriminate X || (split; reflexivity))|intros [X Y]; first [discriminate X|discriminate Y|eauto]].
Qed.
Theorem C63_never_fails_otherwise : forall SS r, row_ptr0 SS r = IllFormed \/ exists p, row_ptr0 SS r = Ok p.
Proof. intros SS r. unfold row_ptr0, row_ptr. destruct (negb (row_is_vector r)), (c_kind (v_cont (vr_v r))), (row_statically_spaced (vr_v r)), (row_spacing SS (vr_v r)); eauto. Qed.

(** The matrix is a whole container or a window. *)
Definition a_matrix (v : view) : Prop := v = whole (v_cont v) \/ v_pf v = false.
(** The row part lies inside the matrix. *)
Definition row_inside (r : vrow) : Prop := vr_i r < v_m (vr_v r) /\ vr_j r + vr_n r <= v_n (vr_v r).

Section Load.
Variables (SS : nat) (HSS : 0 < SS).
Lemma row_cell : forall r k, window_ok SS (vr_v r) -> row_inside r -> k < vr_n r -> c_alloc SS (v_cont (vr_v r)) (vrow_addr SS r k) = true.
Proof.
  intros r k (W1 & W2 & W3) [I1 I2] Hk. unfold vrow_addr, v_addr. apply c_alloc_index; auto; lia.
Qed.
Lemma whole_rm_aligned : forall c i j, c_base c mod SS = 0 -> c_kind c = Dense -> c_so c = rowMajor -> j mod SS = 0 -> c_addr SS c i j mod SS = 0.
Proof.
  intros c i j Hb Hk Hs Hj. unfold c_addr, c_index, c_spacing. rewrite Hk, Hs.
  pose proof (proj1 (proj2 (nextMultiple_spec (c_cols c) SS HSS))) as M. apply Nat.mod_divide in M; [|lia]. apply Nat.mod_divide in Hb, Hj; [|lia|lia]. apply Nat.mod_divide; [lia|].
  apply Nat.divide_add_r; auto. apply Nat.divide_add_r; auto. apply Nat.divide_mul_r; auto.
Qed.
End Load.

(** Loading from a pointer to a row reads the next elements of the row, when the row part starts at a multiple of the vector length (needed only for rows of whole row-major matrices). *)
Theorem C63_load : forall SS T (O : Ops T) al r p k m, 0 < SS ->
  a_matrix (vr_v r) -> window_ok SS (vr_v r) -> buffer_live SS al (v_cont (vr_v r)) -> row_inside r -> k + SS <= vr_n r ->
  (v_pf (vr_v r) = true -> c_so (v_cont (vr_v r)) = rowMajor -> (vr_j r + k) mod SS = 0) ->
  row_ptr0 SS r = Ok p ->
  exists x, vload SS T O al (voff SS p k) m = Ok x /\ forall l, l < SS -> x l = m (v_addr SS (vr_v r) (vr_i r) (vr_j r + k + l)).
Proof.
  intros SS T O al r p k m HSS AM W L I Hk Hj E.
  assert (HD : c_kind (v_cont (vr_v r)) = Dense) by (apply (C63_available SS r); eauto).
  unfold row_ptr0 in E. rewrite HD in E. set (af := row_aligned (vr_v r)) in E.
  assert (EL : forall l, vaddr SS (voff SS p k) l = v_addr SS (vr_v r) (vr_i r) (vr_j r + k + l)).
  { intros l. pose proof (C63_elements SS af r 0 p E k l) as [_ X]. rewrite X. f_equal. lia. }
  assert (ST : exists s, p = VStat s af (vrow_addr SS r 0) /\ (s = 1 -> c_so (v_cont (vr_v r)) = rowMajor \/ SS = 1)).
  { unfold row_ptr in E. destruct (negb (row_is_vector r)); [discriminate|]. destruct (row_statically_spaced (vr_v r)); [|discriminate]. destruct (row_spacing SS (vr_v r)) eqn:RS; [|discriminate]. injection E as <-. eexists. split; eauto.
    intros ->. unfold row_spacing in RS. rewrite HD in RS. destruct (c_static (v_cont (vr_v r))) eqn:CS; [|discriminate]. destruct (c_so (v_cont (vr_v r))) eqn:SO; [left; auto|right].
    injection RS as RS. unfold c_spacing in RS. rewrite HD, SO in RS. pose proof (proj1 (proj2 (nextMultiple_spec (c_rows (v_cont (vr_v r))) SS HSS))) as M. rewrite RS in M.
    destruct (Nat.eq_dec SS 1); auto. rewrite Nat.mod_small in M by lia. lia. }
  destruct ST as (s & -> & HS1).
  destruct (C42_strided_load SS T O al (voff SS (VStat s af (vrow_addr SS r 0)) k) s m) as (x & Ex & Px); auto.
  - exists af, (vrow_addr SS r 0 + k * s). auto.
  - cbn [voff]. unfold aligned_ok. destruct s as [|[|s]]; auto. destruct af eqn:Eaf; auto.
    destruct (HS1 eq_refl) as [SO| ->]; [|apply Nat.mod_1_r].
    specialize (EL 0). cbn [voff vaddr] in EL. rewrite Nat.add_0_r in EL. rewrite EL. unfold v_addr.
    unfold af, row_aligned in Eaf. apply andb_prop in Eaf. destruct Eaf as [_ PF]. destruct AM as [AM|AM]; [|congruence]. rewrite AM. cbn [whole v_cont v_i v_j].
    apply whole_rm_aligned; auto; [apply W|]. rewrite Nat.add_0_l, Nat.add_0_r. auto.
  - intros l Hl. rewrite EL. apply L. rewrite <- Nat.add_assoc. apply (row_cell SS HSS r (k + l)); auto. lia.
  - exists x. split; auto. intros l Hl. rewrite Px, EL; auto.
Qed.
(** A masked load needs no alignment. *)
Theorem C63_masked_load : forall SS T (O : Ops T) al r p k mk m, 0 < SS ->
  window_ok SS (vr_v r) -> buffer_live SS al (v_cont (vr_v r)) -> row_inside r -> (forall l, l < SS -> mk l = true -> k + l < vr_n r) -> row_ptr0 SS r = Ok p ->
  exists x, vloadm SS T O al (voff SS p k) mk m = Ok x /\
    forall l, l < SS -> x l = if mk l then m (v_addr SS (vr_v r) (vr_i r) (vr_j r + k + l)) else o0 O.
Proof.
  intros SS T O al r p k mk m HSS W L I Hk E.
  assert (HD : c_kind (v_cont (vr_v r)) = Dense) by (apply (C63_available SS r); eauto).
  unfold row_ptr0 in E. rewrite HD in E. set (af := row_aligned (vr_v r)) in E.
  assert (EL : forall l, vaddr SS (voff SS p k) l = v_addr SS (vr_v r) (vr_i r) (vr_j r + k + l)).
  { intros l. pose proof (C63_elements SS af r 0 p E k l) as [_ X]. rewrite X. f_equal. lia. }
  assert (ST : exists s, p = VStat s af (vrow_addr SS r 0)).
  { unfold row_ptr in E. destruct (negb (row_is_vector r)); [discriminate|]. destruct (row_statically_spaced (vr_v r)); [|discriminate]. destruct (row_spacing SS (vr_v r)) eqn:RS; [|discriminate]. injection E as <-. eauto. }
  destruct ST as (s & ->).
  destruct (C42_strided_masked_load SS T O al (voff SS (VStat s af (vrow_addr SS r 0)) k) s mk m) as (x & Ex & Px); auto.
  - exists af, (vrow_addr SS r 0 + k * s). auto.
  - intros l Hl Hm. rewrite EL. apply L. rewrite <- Nat.add_assoc. apply (row_cell SS HSS r (k + l)); auto.
  - exists x. split; auto. intros l Hl. rewrite Px, EL; auto.
Qed.

(** The index of the largest magnitude in a row or row part, also when it is not aligned. *)
Theorem C63_iamax_row : forall SS T (O : Ops T) al r p m, 0 < SS -> 0 < vr_n r ->
  window_ok SS (vr_v r) -> buffer_live SS al (v_cont (vr_v r)) -> row_inside r -> row_ptr0 SS r = Ok p ->
  let row i := m (v_addr SS (vr_v r) (vr_i r) (vr_j r + i)) in
  exists q, iamax SS T O al (VArg (vr_n r) p) m = Ok q /\ q < vr_n r /\ (comparable O (vr_n r) row -> first_max O (vr_n r) row q).
Proof.
  intros SS T O al r p m HSS Hn W L I E row.
  assert (HD : c_kind (v_cont (vr_v r)) = Dense) by (apply (C63_available SS r); eauto).
  unfold row_ptr0 in E. rewrite HD in E.
  assert (EL : forall l, vaddr SS p l = v_addr SS (vr_v r) (vr_i r) (vr_j r + l)).
  { intros l. pose proof (C63_elements SS _ r 0 p E 0 l) as [X _]. rewrite X. f_equal. lia. }
  assert (VO : vec_ok SS p).
  { unfold row_ptr in E. destruct (negb (row_is_vector r)); [discriminate|]. destruct (row_statically_spaced (vr_v r)); [|discriminate]. destruct (row_spacing SS (vr_v r)); [|discriminate]. injection E as <-. exact Logic.I. }
  destruct (C32_iamax SS T O al (VArg (vr_n r) p) m HSS Hn VO) as (q & Eq & Hq & F).
  { cbn [x_size x_ptr]. intros i Hi. rewrite EL. apply L. apply (row_cell SS HSS r i); auto. }
  exists q. split; auto. split; auto. cbn [x_size x_ptr] in F. intros C.
  assert (X : forall i, m (vaddr SS p i) = row i) by (intros i; unfold row; rewrite EL; reflexivity).
  assert (C' : comparable O (vr_n r) (fun i => m (vaddr SS p i))).
  { destruct C as (C1 & C2 & C3). split; [|split]; cbv zeta beta in *; intros *; rewrite !X; auto; [apply C2|apply C3]. }
  destruct (proj2 F C') as (F1 & F2 & F3). split; auto. split; intros i Hi; [specialize (F2 i Hi)|specialize (F3 i Hi)]; rewrite !X in *; auto.
Qed.
(** Exchanging two different rows of a matrix through their pointers. *)
Theorem C63_swap_rows : forall SS T al v i i' p p' (m : mem T), 0 < SS -> window_ok SS v -> buffer_live SS al (v_cont v) ->
  i < v_m v -> i' < v_m v -> i <> i' -> row_ptr0 SS (vrow_of v i) = Ok p -> row_ptr0 SS (vrow_of v i') = Ok p' ->
  exists m', swap_ptr SS T al (v_n v) p p' m = Ok m' /\
    (forall j, j < v_n v -> m' (v_addr SS v i j) = m (v_addr SS v i' j) /\ m' (v_addr SS v i' j) = m (v_addr SS v i j)) /\
    (forall a, (forall j, j < v_n v -> a <> v_addr SS v i j /\ a <> v_addr SS v i' j) -> m' a = m a).
Proof.
  intros SS T al v i i' p p' m HSS W L Hi Hi' Hne E E'.
  assert (G : forall i p, row_ptr0 SS (vrow_of v i) = Ok p -> (forall l, vaddr SS p l = v_addr SS v i l) /\ vec_ok SS p).
  { clear - HSS. intros i p E. assert (HD : c_kind (v_cont v) = Dense) by (apply (C63_available SS (vrow_of v i)); eauto).
    unfold row_ptr0 in E. cbn [vrow_of vr_v] in E. rewrite HD in E. split.
    - intros l. pose proof (C63_elements SS _ _ 0 p E 0 l) as [X _]. rewrite X. cbn [vrow_of vr_v vr_i vr_j]. f_equal.
    - unfold row_ptr in E. cbn [vrow_of vr_v row_is_vector vr_const negb] in E. destruct (row_statically_spaced v); [|discriminate]. destruct (row_spacing SS v); [|discriminate]. injection E as <-. exact I. }
  destruct (G i p E) as [EL VO]. destruct (G i' p' E') as [EL' VO'].
  assert (IN : forall i j, i < v_m v -> j < v_n v -> v_i v + i < c_rows (v_cont v) /\ v_j v + j < c_cols (v_cont v)) by (intros; destruct W as (_ & W2 & W3); lia).
  assert (INJ : forall a b c d, a < v_m v -> b < v_n v -> c < v_m v -> d < v_n v -> v_addr SS v a b = v_addr SS v c d -> a = c /\ b = d).
  { intros a b c d Ha Hb Hc Hd X. unfold v_addr in X. destruct (IN a b), (IN c d); auto. apply c_addr_inj in X; auto. lia. }
  destruct (C33_swap SS T al (v_n v) p p' m) as (m' & Em & H1 & H2); auto.
  - intros j Hj. rewrite EL. apply L. unfold v_addr. destruct (IN i j); auto. apply c_alloc_index; auto.
  - intros j Hj. rewrite EL'. apply L. unfold v_addr. destruct (IN i' j); auto. apply c_alloc_index; auto.
  - intros a b Ha Hb X. rewrite !EL in X. apply INJ in X; tauto.
  - intros a b Ha Hb X. rewrite !EL' in X. apply INJ in X; tauto.
  - intros a b Ha Hb X. rewrite EL, EL' in X. apply INJ in X; tauto.
  - exists m'. split; auto. split.
    + intros j Hj. specialize (H1 j Hj). rewrite !EL, !EL' in H1. auto.
    + intros a Ha. apply H2. intros j Hj. rewrite EL, EL'. auto.
Qed.

(** The pointer of a row part that does not start at a multiple of the vector length still promises alignment: the load it offers is undefined behaviour, although
    the four elements exist. *)
Theorem C63_part_alignment_refuted :
  let c := Cont Dense true rowMajor 2 8 0 in let r := vrow_sub (vrow_of (whole c) 1) 1 7 in
  exists p, row_ptr0 4 r = Ok p /\ vload 4 Z zops (c_alloc 4 c) p (fun a => Z.of_nat a) = UB /\
    (forall l, l < 4 -> c_alloc 4 c (vaddr 4 p l) = true) /\ row_inside r.
Proof.
  eexists. split; [reflexivity|]. split; [reflexivity|]. split; [|split; cbn; lia]. intros l Hl. do 4 (destruct l as [|l]; [reflexivity|]). lia.
Qed.
(** Rows of a dynamic matrix have no pointer. *)
Theorem C63_dynamic_row_refuted : forall SS so m n b i, row_ptr0 SS (vrow_of (whole (Cont Dense false so m n b)) i) = IllFormed.
Proof. intros. destruct so; reflexivity. Qed.

(** Rows of const matrices, and parts of a row that has a name (even of one that could be written): element-wise reading only.  They are no vector arguments, neither for ptr nor for the
    algorithms, and cannot be written.  A part of a temporary row of a matrix that is not const has no such restriction. *)
Theorem C63_const_rows_refuted : forall SS T al v i r j n af k (x : T) m,
  (forall c, In c [vrow_of_const v i; vrow_sub (vrow_of_const v i) j n; vrow_sub_named r j n; vrow_sub (vrow_sub_named r j n) j n] ->
    row_ptr0 SS c = IllFormed /\ row_ptr SS af c k = IllFormed /\ row_set SS al c k x m = IllFormed) /\
  (forall l, vrow_addr SS (vrow_sub_named r j n) l = vrow_addr SS r (j + l) /\ vrow_addr SS (vrow_of_const v i) l = v_addr SS v i l) /\
  (vr_const r = false -> row_ptr0 SS (vrow_sub r j n) = IllFormed -> row_ptr0 SS r = IllFormed).
Proof.
  intros SS T al v i r j n af k x m. split; [|split].
  - intros c [<-|[<-|[<-|[<-|[]]]]]; unfold row_ptr0, row_ptr, row_set, row_is_vector; cbn; repeat split; destruct (c_kind _); reflexivity.
  - intros l. unfold vrow_addr. cbn. split; [f_equal; lia|reflexivity].
  - intros C H. destruct (C63_never_fails_otherwise SS r) as [E|E]; auto. exfalso. apply C63_available in E.
    destruct (proj2 (C63_available SS (vrow_sub r j n))) as [p Ep]; [exact E|congruence].
Qed.
(** Writing one element of a row of a matrix that is not const changes that element only; a row as a whole cannot be assigned. *)
Theorem C63_set : forall SS T al r k (x : T) m, vr_const r = false -> window_ok SS (vr_v r) -> buffer_live SS al (v_cont (vr_v r)) -> row_inside r -> 0 < SS -> k < vr_n r ->
  exists m', row_set SS al r k x m = Ok m' /\ m' (v_addr SS (vr_v r) (vr_i r) (vr_j r + k)) = x /\ (forall a, a <> v_addr SS (vr_v r) (vr_i r) (vr_j r + k) -> m' a = m a).
Proof.
  intros SS T al r k x m C W L I HSS Hk. unfold row_set. rewrite C. fold (vrow_addr SS r k).
  assert (A : al (vrow_addr SS r k) = true) by (apply L, (row_cell SS HSS r k); auto).
  rewrite Scan_Proofs.wr_ok by auto. eexists. split; [reflexivity|]. split; [apply Scan_Proofs.mupd_eq|]. intros a Ha. apply Scan_Proofs.mupd_neq. auto.
Qed.
Theorem C63_assign_refuted : forall T r (rhs : nat -> T) m, row_assign r rhs m = IllFormed.
Proof. reflexivity. Qed.

Example C63_example : let c := Cont Dense true rowMajor 2 8 0 in let d := Cont Dense true columnMajor 3 8 0 in
  row_inside (vrow_of (whole c) 1) /\ a_matrix (whole c) /\ window_ok 4 (whole c) /\
  (exists p, row_ptr0 4 (vrow_of (whole c) 1) = Ok p /\ match vload 4 Z zops (c_alloc 4 c) (voff 4 p 4) (fun a => Z.of_nat a) with Ok x => map x [0; 1; 2; 3] | _ => [] end = [12; 13; 14; 15]%Z) /\
  (exists p, row_ptr0 4 (vrow_sub (vrow_of (whole d) 1) 1 7) = Ok p /\ match vload 4 Z zops (c_alloc 4 d) p (fun a => Z.of_nat a) with Ok x => map x [0; 1; 2; 3] | _ => [] end = [5; 9; 13; 17]%Z).
Proof. cbv zeta. split; [split; cbn; lia|]. split; [left; reflexivity|]. split; [unfold window_ok; cbn; repeat split; try lia|]. split; eexists; split; reflexivity. Qed.
