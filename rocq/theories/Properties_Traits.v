(** Properties_Traits.v -- C69: which views can be operands, and that the traits of a view type tell the truth about its objects. *)
From Coq Require Import List Bool Arith PeanoNat Lia.
From Verif Require Import Base Base_Proofs Spec Layout_Model Layout_Proofs Gemm_Model Traits_Model.
Import ListNotations.

(** The container under a view, and whether a view shows all of it (possibly transposed) *)
Fixpoint container_of (v : mval) : container :=
  match v with VC c => c | VSub _ _ w _ _ _ _ | VPSub _ w _ _ _ _ => container_of w | VTr w => container_of w end.
Fixpoint whole_object (v : mval) : bool := match v with VC _ => true | VTr w => whole_object w | _ => false end.
Definition a_transpose (v : mval) : Prop := exists w, v = VTr w.

(** The views that can be operands: containers; submatrices of a NON-CONST column- or row-major object which is not itself a transpose; transposes of operands *)
Fixpoint usable (v : mval) : Prop :=
  match v with
  | VC _ => True
  | VSub _ cst w _ _ _ _ => cst = false /\ usable w /\ c_kind (container_of w) = Dense /\ ~ a_transpose w
  | VPSub _ _ _ _ _ _ => False
  | VTr w => usable w
  end.

Section S.
Variable SS : nat.
Hypothesis HSS : 0 < SS.

Lemma type_facts : forall v, usable v ->
  is_dense (type_of v) = match c_kind (container_of v) with Dense => true | Panel => false end /\
  is_panel (type_of v) = match c_kind (container_of v) with Dense => false | Panel => true end /\
  is_static (type_of v) = c_static (container_of v) /\
  storage_order (type_of v) <> None /\
  is_padded (type_of v) = whole_object v /\
  (forall s, spacing_v SS (type_of v) = Some s -> s = mv_spacing SS v) /\
  (is_static (type_of v) = true -> spacing_v SS (type_of v) <> None) /\
  mv_spacing SS v = c_spacing SS (container_of v) /\
  (exists d, mv_data SS v = Ok d).
Proof.
  induction v as [c|af cst v IH i j m n|cst v IH i j m n|v IH]; intros U; cbn [usable] in U.
  - cbn. destruct c as [k st so r cc b]; cbn. destruct st, k; cbn; repeat split; try discriminate; eauto; intros s E; injection E as <-; reflexivity.
  - destruct U as (-> & U & K & NT). destruct (IH U) as (A1 & A2 & A3 & A4 & A5 & A6 & A7 & A8 & d & A9).
    cbn [type_of is_dense is_panel is_static storage_order is_padded spacing_v mv_spacing container_of whole_object mv_data].
    rewrite K in *. rewrite A9. cbn [bind]. repeat split; auto.
    destruct v; try (eexists; reflexivity). exfalso. apply NT. eexists; reflexivity.
  - contradiction.
  - destruct (IH U) as (A1 & A2 & A3 & A4 & A5 & A6 & A7 & A8 & d & A9).
    cbn [type_of is_dense is_panel is_static storage_order is_padded spacing_v mv_spacing container_of whole_object mv_data].
    repeat split; auto.
    + destruct (storage_order (type_of v)); [discriminate|contradiction].
    + eauto.
Qed.

Lemma offset_flip : forall k so af b sp i j, ptr_offset SS k (order_neg so) af b sp i j = ptr_offset SS k so af b sp j i.
Proof. intros k so af b sp i j. unfold ptr_offset. destruct k, so; cbn [order_neg]; try reflexivity; lia. Qed.

(** Index arithmetic: an object of a usable type shows a window of its container, transposed or not. *)
Lemma window_of : forall v, usable v -> exists tr : bool, exists i0 j0,
  (forall i j, mv_addr SS v i j = if tr then c_addr SS (container_of v) (i0 + j) (j0 + i) else c_addr SS (container_of v) (i0 + i) (j0 + j)) /\
  storage_order (type_of v) = Some (if tr then order_neg (c_so (container_of v)) else c_so (container_of v)) /\
  mv_data SS v = Ok (c_addr SS (container_of v) i0 j0) /\
  (c_kind (container_of v) = Panel -> i0 = 0 /\ j0 = 0).
Proof.
  induction v as [c|af cst v IH i j m n|cst v IH i j m n|v IH]; intros U; cbn [usable] in U.
  - exists false, 0, 0. cbn [mv_addr container_of mv_data type_of]. repeat split; intros; auto.
    + destruct (c_static c); reflexivity.
    + unfold c_addr, c_index. destruct (c_kind c), (c_so c); rewrite ?Nat.div_0_l, ?Nat.mod_0_l by lia; f_equal; lia.
  - destruct U as (-> & U & K & NT). destruct (IH U) as (tr & i0 & j0 & E & SO & D & _).
    exists tr, (if tr then i0 + j else i0 + i), (if tr then j0 + i else j0 + j).
    cbn [mv_addr container_of type_of storage_order mv_data]. split; [|split; [|split]].
    + intros i' j'. rewrite E. destruct tr; f_equal; lia.
    + exact SO.
    + rewrite D. cbn [bind]. destruct v; try (rewrite E; destruct tr; reflexivity). exfalso. apply NT. eexists; reflexivity.
    + intros X. rewrite K in X. discriminate.
  - contradiction.
  - destruct (IH U) as (tr & i0 & j0 & E & SO & D & P). exists (negb tr), i0, j0.
    cbn [mv_addr container_of type_of storage_order mv_data]. split; [|split; [|split]]; auto.
    + intros i j. rewrite E. destruct tr; reflexivity.
    + rewrite SO. cbn. destruct tr, (c_so (container_of v)); reflexivity.
Qed.
End S.

(** *** A pointer exists exactly for the usable objects. *)
Theorem C69_operands : forall SS v, (exists p, mv_ptr0 SS v = Ok p) <-> usable v.
Proof.
  intros SS v. split.
  - intros (p & E). unfold mv_ptr0, mv_ptr in E. apply bind_ok_inv in E. destruct E as (t & T & E). apply bind_ok_inv in E. destruct E as (d & D & _). clear p.
    revert T D. generalize (is_aligned (type_of v)). intros af T D.
    assert (G : forall w d, mv_data SS w = Ok d -> (is_dense (type_of w) = true \/ is_panel (type_of w) = true /\ storage_order (type_of w) <> None) ->
      usable w /\ (is_dense (type_of w) = true -> c_kind (container_of w) = Dense)).
    { clear. induction w as [c|af cst w IH i j m n|cst w IH i j m n|w IH]; intros d D H; cbn [type_of is_dense is_panel storage_order mv_data usable container_of] in *.
      - split; [exact I|]. destruct (c_static c), (c_kind c); cbn; congruence.
      - destruct H as [H|[H _]]; [|discriminate H]. destruct cst; cbn in H; [discriminate|].
        apply bind_ok_inv in D. destruct D as (d' & D & D2). destruct (IH _ D (or_introl H)) as [U K]. split; [|intros _; auto].
        repeat split; auto. intros (x & ->). discriminate D2.
      - destruct H as [H|[_ H]]; [discriminate H|contradiction].
      - destruct (IH _ D) as [U K]; [|split; auto]. destruct H as [H|[H1 H2]]; [left; exact H|right; split; auto]. intros E. rewrite E in H2. cbn in H2. contradiction. }
    assert (T' : is_dense (type_of v) = true \/ is_panel (type_of v) = true /\ storage_order (type_of v) <> None).
    { unfold ptr_type in T. destruct (is_dense (unconst (type_of v))) eqn:A.
      - left. destruct v as [c| | |]; cbn in *; auto.
        destruct (c_static c); cbn in *; auto.
      - destruct (is_panel (unconst (type_of v))) eqn:B; [|discriminate T]. right.
        assert (X : unconst (type_of v) = type_of v) by (destruct v as [c| | |]; cbn; auto; destruct (c_static c); reflexivity).
        rewrite X in *. split; auto. intros Z. rewrite Z in T. discriminate T. }
    exact (proj1 (G v d D T')).
  - intros U. destruct (type_facts SS v U) as (A1 & A2 & A3 & A4 & A5 & A6 & A7 & A8 & d & A9).
    unfold mv_ptr0, mv_ptr, ptr_type.
    assert (X : unconst (type_of v) = type_of v) by (destruct v as [c| | |]; cbn; auto; destruct (c_static c); reflexivity).
    rewrite X, A1, A2, A9. destruct (c_kind (container_of v)), (storage_order (type_of v)); try contradiction;
      (destruct (is_static (type_of v)); [destruct (spacing_v SS (type_of v)); [|exfalso; apply A7; auto]|]; eexists; reflexivity).
Qed.

(** *** The pointer of a usable object addresses the elements of the object, with the storage order its type announces; a type that announces a spacing at compile
    time announces the run-time spacing; only views of whole containers are called padded.  For panel matrices and an aligned pointer the offset along the panels
    must be a multiple of the panel size. *)
Theorem C69_pointer : forall SS v af i j, 0 < SS -> usable v -> c_base (container_of v) mod SS = 0 ->
  (c_kind (container_of v) = Panel -> af = true ->
     match storage_order (type_of v) with Some columnMajor => i mod SS = 0 | _ => j mod SS = 0 end) ->
  exists p, mv_ptr SS af v i j = Ok p /\
    (forall k l, addr SS p k l = mv_addr SS v (i + k) (j + l)) /\
    mp_kind p = c_kind (container_of v) /\ storage_order (type_of v) = Some (mp_so p) /\ mp_af p = af /\ mp_pf p = whole_object v /\
    mp_sp p = c_spacing SS (container_of v) /\
    (forall s, spacing_v SS (type_of v) = Some s -> s = mp_sp p).
Proof.
  intros SS v af i j HSS U Hb Ha. destruct (type_facts SS v U) as (A1 & A2 & A3 & A4 & A5 & A6 & A7 & A8 & d & A9).
  destruct (window_of SS HSS v U) as (tr & i0 & j0 & E & SO & D & P).
  assert (X : unconst (type_of v) = type_of v) by (destruct v as [c| | |]; cbn; auto; destruct (c_static c); reflexivity).
  set (so := if tr then order_neg (c_so (container_of v)) else c_so (container_of v)) in *.
  assert (PT : exists s, ptr_type SS af (type_of v) = Ok (PType (c_kind (container_of v)) so af (whole_object v) s) /\ match s with Some s => s = mv_spacing SS v | None => True end).
  { unfold ptr_type. rewrite X, A1, A2, SO, A5. destruct (is_static (type_of v)) eqn:ST.
    - destruct (spacing_v SS (type_of v)) as [s|] eqn:SP; [|exfalso; apply A7; auto]. exists (Some s). split; [destruct (c_kind (container_of v)); reflexivity|auto].
    - exists None. split; [destruct (c_kind (container_of v)); reflexivity|exact I]. }
  destruct PT as (s & PT & Es). unfold mv_ptr. rewrite PT, D. cbn [bind p_sp p_kind p_so p_af p_pf].
  assert (SP : match s with Some s => s | None => mv_spacing SS v end = c_spacing SS (container_of v)) by (destruct s; congruence). rewrite SP.
  eexists. split; [reflexivity|]. cbn [mp_kind mp_so mp_af mp_pf mp_sp]. split; [|repeat split; auto; intros z Z; rewrite <- A8; auto].
  intros k l. rewrite E.
  set (c := container_of v) in *.
  destruct tr.
  - (* transposed: the pointer of the container window with the order flipped *)
    pose proof (v_ptr_addr SS HSS af (View c i0 j0 0 0 af (whole_object v)) j i l k) as W. unfold cont_wf in W. cbn [v_cont v_i v_j] in W.
    specialize (W Hb). unfold v_addr in W. cbn [v_cont v_i v_j] in W. rewrite <- W.
    + unfold v_ptr, addr. cbn [v_cont v_pf mp_kind mp_so mp_af mp_base mp_sp]. unfold so. unfold v_data; cbn [v_cont v_i v_j].
      rewrite !offset_flip by auto. reflexivity.
    + intros K AF. destruct (P K) as [-> ->]. split; [destruct (c_so c); apply Nat.mod_0_l; lia|].
      specialize (Ha K AF). rewrite SO in Ha. unfold so in Ha. destruct (c_so c); cbn [order_neg] in Ha; exact Ha.
  - pose proof (v_ptr_addr SS HSS af (View c i0 j0 0 0 af (whole_object v)) i j k l) as W. unfold cont_wf in W. cbn [v_cont v_i v_j] in W.
    specialize (W Hb). unfold v_addr in W. cbn [v_cont v_i v_j] in W. rewrite <- W.
    + unfold v_ptr, addr. cbn [v_cont v_pf mp_kind mp_so mp_af mp_base mp_sp]. unfold so, v_data. cbn [v_cont v_i v_j]. reflexivity.
    + intros K AF. destruct (P K) as [-> ->]. split; [destruct (c_so c); apply Nat.mod_0_l; lia|].
      specialize (Ha K AF). rewrite SO in Ha. unfold so in Ha. destruct (c_so c); exact Ha.
Qed.

(** *** The storage order of the type is the direction in which the elements are contiguous (column- or row-major objects). *)
Theorem C69_storage_order : forall SS v i j, 0 < SS -> usable v -> c_kind (container_of v) = Dense ->
  match storage_order (type_of v) with
  | Some columnMajor => mv_addr SS v (i + 1) j = mv_addr SS v i j + 1 /\ mv_addr SS v i (j + 1) = mv_addr SS v i j + mv_spacing SS v
  | Some rowMajor => mv_addr SS v i (j + 1) = mv_addr SS v i j + 1 /\ mv_addr SS v (i + 1) j = mv_addr SS v i j + mv_spacing SS v
  | None => False
  end.
Proof.
  intros SS v i j HSS U K. destruct (window_of SS HSS v U) as (tr & i0 & j0 & E & SO & D & P). rewrite SO.
  destruct (type_facts SS v U) as (_ & _ & _ & _ & _ & _ & _ & A8 & _). rewrite A8.
  assert (Ix : forall i j, c_addr SS (container_of v) i j = c_base (container_of v) + match c_so (container_of v) with columnMajor => i + j * c_spacing SS (container_of v) | rowMajor => i * c_spacing SS (container_of v) + j end)
    by (intros; unfold c_addr, c_index; rewrite K; destruct (c_so (container_of v)); reflexivity).
  rewrite !E, !Ix. destruct tr, (c_so (container_of v)); cbn [order_neg]; split; lia.
Qed.

(** *** submatrix(): its rows, columns and elements, whatever the viewed object; a submatrix of a submatrix views the same container and does not nest *)
Theorem C69_submatrix : forall SS af cst v i j m n, let s := make_sub af cst v i j m n in
  mv_rows s = m /\ mv_cols s = n /\ (forall k l, mv_addr SS s k l = mv_addr SS v (i + k) (j + l)) /\
  container_of s = container_of v /\ is_aligned (type_of s) = af /\ is_padded (type_of s) = false /\
  storage_order (type_of s) = storage_order (type_of v) /\
  (usable s <-> match v with
                | VC c => cst = false /\ c_kind c = Dense
                | VSub _ _ _ _ _ _ _ => cst = false /\ usable v
                | _ => False
                end).
Proof.
  intros SS af cst v i j m n s.
  assert (G : mv_rows s = m /\ mv_cols s = n /\ (forall k l, mv_addr SS s k l = mv_addr SS v (i + k) (j + l)) /\
    container_of s = container_of v /\ is_aligned (type_of s) = af /\ is_padded (type_of s) = false /\ storage_order (type_of s) = storage_order (type_of v)).
  { unfold s. destruct v as [c|af0 cst0 w i0 j0 m0 n0|cst0 w i0 j0 m0 n0|w]; cbn [make_sub mv_rows mv_cols mv_addr container_of type_of is_aligned is_padded storage_order];
      repeat split; auto; try (destruct cst; reflexivity); try (destruct cst, cst0; reflexivity); intros; f_equal; lia. }
  destruct G as (G1 & G2 & G3 & G4 & G5 & G6 & G7). repeat (split; [assumption|]). unfold s. clear.
  destruct v as [c|af0 cst0 w i0 j0 m0 n0|cst0 w i0 j0 m0 n0|w]; cbn [make_sub usable container_of].
  - split; [intros (A & _ & B & _); auto|intros (A & B); repeat split; auto; intros (x & E); discriminate E].
  - split.
    + intros (A & B & C & D). apply orb_false_elim in A. destruct A as [-> ->]. repeat split; auto.
    + intros (-> & -> & A). repeat split; apply A.
  - split; [intros (_ & F & _); exact F|contradiction].
  - split; [intros (_ & _ & _ & F); apply F; eexists; reflexivity|contradiction].
Qed.

(** *** trans(): swaps rows and columns, flips the storage order, and undoes itself *)
Theorem C69_trans : forall SS v, let t := make_trans v in
  mv_rows t = mv_cols v /\ mv_cols t = mv_rows v /\ (forall i j, mv_addr SS t i j = mv_addr SS v j i) /\
  (usable t <-> usable v) /\ is_aligned (type_of t) = is_aligned (type_of v) /\ is_padded (type_of t) = is_padded (type_of v) /\
  storage_order (type_of t) = option_map order_neg (storage_order (type_of v)) /\
  (~ (exists w, v = VTr (VTr w)) -> make_trans t = v).
Proof.
  intros SS v t.
  assert (U : usable t <-> usable v) by (unfold t; destruct v; reflexivity).
  split; [destruct v; reflexivity|]. split; [destruct v; reflexivity|]. split; [destruct v; reflexivity|]. split; [exact U|].
  split; [destruct v; reflexivity|]. split; [destruct v; reflexivity|]. split.
  - unfold t. destruct v; try reflexivity. cbn [make_trans type_of storage_order]. destruct (storage_order (type_of v)) as [[]|]; reflexivity.
  - intros H. unfold t. destruct v; try reflexivity. cbn [make_trans]. destruct v; try reflexivity. exfalso. apply H. eexists; reflexivity.
Qed.

(** *** The operands of the theorems on algorithms: the pointer of such a view is the pointer of the corresponding argument of Gemm_Model. *)
Theorem C69_arguments : forall SS c af i j m n, 0 < SS -> c_base c mod SS = 0 ->
  mv_ptr0 SS (VC c) = Ok (g_ptr SS (MArg (whole c) false)) /\
  mv_ptr0 SS (make_trans (VC c)) = Ok (g_ptr SS (MArg (whole c) true)) /\
  (c_kind c = Dense ->
     mv_ptr0 SS (make_sub af false (VC c) i j m n) = Ok (g_ptr SS (MArg (submatrix af c i j m n) false)) /\
     mv_ptr0 SS (make_trans (make_sub af false (VC c) i j m n)) = Ok (g_ptr SS (MArg (submatrix af c i j m n) true))).
Proof.
  intros SS c af i j m n HSS Hb.
  assert (Z : c_addr SS c 0 0 = c_base c).
  { unfold c_addr, c_index. destruct (c_kind c), (c_so c); rewrite ?Nat.div_0_l, ?Nat.mod_0_l by lia; lia. }
  destruct c as [k st so r cc b]. cbn [c_base c_kind] in *.
  split; [|split; [|intros ->; split]].
  - unfold mv_ptr0, mv_ptr, g_ptr, v_ptr0, v_ptr, v_data, whole. cbn [g_trans g_view v_af v_pf v_cont v_i v_j]. rewrite Z.
    destruct st, k; reflexivity.
  - unfold mv_ptr0, mv_ptr, g_ptr, t_ptr, v_data, whole. cbn [g_trans g_view v_af v_pf v_cont v_i v_j t_op]. rewrite Z.
    destruct st, k; reflexivity.
  - destruct st; reflexivity.
  - destruct st; reflexivity.
Qed.

(** *** Refuted: "a submatrix view is accepted wherever the matrix is".  A submatrix of a const matrix, of a temporary submatrix and of a panel matrix, and a panel
    submatrix, have no pointer, so no algorithm that takes matrices accepts them (their elements are still accessible). *)
Theorem C69_views_refuted : forall SS c af af' i j m n i' j' m' n', c_kind c = Dense ->
  mv_ptr0 SS (make_sub af true (VC c) i j m n) = IllFormed /\
  mv_ptr0 SS (make_sub af' true (make_sub af false (VC c) i j m n) i' j' m' n') = IllFormed /\
  (exists p, mv_ptr0 SS (make_sub af' false (make_sub af false (VC c) i j m n) i' j' m' n') = Ok p) /\
  (forall q, c_kind q = Panel -> mv_ptr0 SS (make_sub af false (VC q) i j m n) = IllFormed /\ mv_ptr0 SS (VPSub false (VC q) i j m n) = IllFormed).
Proof.
  intros SS [k st so r cc b] af af' i j m n i' j' m' n' K. cbn [c_kind] in K. subst k. repeat split.
  - destruct st; eexists; reflexivity.
  - destruct q as [k' st' so' r' cc' b']. cbn [c_kind] in H. subst k'. destruct st'; reflexivity.
Qed.
(** A panel submatrix, whatever it views: it counts as a panel matrix, not aligned, not padded, without static sizes; the reason no pointer exists is that no storage
    order is defined for its type.  Its transpose neither. *)
Theorem C69_panel_submatrix : forall SS cst v i j m n, let s := VPSub cst v i j m n in
  is_panel (type_of s) = true /\ is_dense (type_of s) = false /\ is_aligned (type_of s) = false /\ is_padded (type_of s) = false /\ is_static (type_of s) = false /\
  storage_order (type_of s) = None /\ spacing_v SS (type_of s) = None /\ (forall af k l, mv_ptr SS af s k l = IllFormed /\ mv_ptr SS af (make_trans s) k l = IllFormed) /\
  (forall k l, mv_addr SS s k l = mv_addr SS v (i + k) (j + l)) /\ mv_rows s = m /\ mv_cols s = n /\
  (forall c, v = VC c -> mv_data SS s = Ok (mv_addr SS v i j)) /\
  type_of s = TPanelSub (match cst with true => TConst (type_of v) | false => type_of v end).
Proof.
  intros SS cst v i j m n s. repeat (split; [reflexivity|]). split; [intros; split; reflexivity|]. split; [reflexivity|]. split; [reflexivity|]. split; [reflexivity|].
  split; [|reflexivity]. intros c ->. reflexivity.
Qed.
(** The same type with const: storage order, alignment, padding and static sizes are the same, and so is the class of the pointer to a const object; but it does not count as a
    dense matrix, has no static spacing, and it counts as a panel matrix only if it is not a transpose expression. *)
Theorem C69_const_types : forall SS af t, (forall u, t <> TConst u) ->
  storage_order (TConst t) = storage_order t /\ is_aligned (TConst t) = is_aligned t /\ is_padded (TConst t) = is_padded t /\ is_static (TConst t) = is_static t /\
  ptr_type SS af (TConst t) = ptr_type SS af t /\
  is_dense (TConst t) = false /\ spacing_v SS (TConst t) = None /\
  (is_panel (TConst t) = true <-> is_panel t = true /\ forall u, t <> TTrans u).
Proof.
  intros SS af t H. repeat (split; [reflexivity|]). split; [destruct t; try reflexivity; exfalso; eapply H; reflexivity|]. split; [reflexivity|]. split; [reflexivity|].
  split.
  - intros E. destruct t; try (split; [exact E|discriminate]). discriminate E.
  - intros (E & N). destruct t; try exact E. exfalso. eapply N. reflexivity.
Qed.
(** Refuted: "a static matrix type has sizes known at compile time": two submatrices of the same type, called static, of different sizes. *)
Theorem C69_static_refuted : exists v w, is_static (type_of v) = true /\ type_of v = type_of w /\ mv_rows v <> mv_rows w.
Proof.
  exists (make_sub true false (VC (Cont Dense true columnMajor 5 5 0)) 0 0 1 1), (make_sub true false (VC (Cont Dense true columnMajor 5 5 0)) 0 0 2 1).
  repeat split. discriminate.
Qed.

(** A transposed submatrix of a static column-major 5x7 matrix: its type is row-major with spacing 8, unpadded and unaligned; element (2, 1) is element (1+1, 3+2). *)
Example C69_example :
  let c := Cont Dense true columnMajor 5 7 16 in let v := make_trans (make_sub false false (VC c) 1 3 3 4) in
  usable v /\ type_of v = TTrans (TSub (TStatic Dense columnMajor 5 7) false) /\ mv_rows v = 4 /\ mv_cols v = 3 /\
  mv_ptr0 4 v = Ok (MPtr Dense rowMajor false false 41 8) /\ mv_addr 4 v 2 1 = 16 + 2 + 5 * 8 /\ addr 4 (MPtr Dense rowMajor false false 41 8) 2 1 = 16 + 2 + 5 * 8.
Proof. cbn. repeat split; auto. intros (w & E). discriminate E. Qed.
