(** Properties_AssignOp.v -- C40: which function an assignment between panel and dense matrices runs, and what the operators do. *)
From Coq Require Import Arith Lia List Bool PeanoNat ZArith.
From Verif Require Import Base Base_Proofs Spec Instances Layout_Model Layout_Proofs Simd_Model Scan_Proofs Gemm_Model Arg_Proofs Container_Model Container_Proofs
  Properties_Container Assign_Model Properties_Assign AssignOp_Model.
Import ListNotations.

(** assign(a, b) runs the generic element-wise copy exactly if both expressions have the static type of the matrices themselves; it runs one of the vectorised copies exactly if
    one side is a panel and the other a Blaze dense matrix and at least one of the expressions is a reference to the base class PanelMatrix<..> or blaze::DenseMatrix<..>. *)
Theorem C40_which_assign : forall ta tb,
  (selected ta tb = Some GenericAssign <-> o_type ta = OwnClass /\ o_type tb = OwnClass) /\
  (selected ta tb = Some PanelFromDense <-> o_family ta = PanelFamily /\ o_family tb = BlazeDenseFamily /\ o_type ta <> RootBase /\ o_type tb <> RootBase /\
     (o_type ta = MiddleBase \/ o_type tb = MiddleBase)) /\
  (selected ta tb = Some DenseFromPanel <-> o_family ta = BlazeDenseFamily /\ o_family tb = PanelFamily /\ o_type ta <> RootBase /\ o_type tb <> RootBase /\
     (o_type ta = MiddleBase \/ o_type tb = MiddleBase)).
Proof.
  intros [[] []] [[] []]; cbn; repeat match goal with |- _ /\ _ => split | |- _ <-> _ => split end; intros H; try discriminate H; auto;
   try (split; [reflexivity|]); repeat match goal with H : _ /\ _ |- _ => destruct H end; try congruence;
   try match goal with H : _ \/ _ |- _ => destruct H; discriminate end; repeat split; auto; discriminate.
Qed.

(** In all other cases with two operands derived from blaze::Matrix, Blaze's own assign is selected (and its instantiation fails, see the model); the call is ambiguous or has no candidate
    exactly if one of the library's own dense matrices meets a reference to a base class. *)
Theorem C40_which_assign_rest : forall ta tb,
  (selected ta tb = None <-> (o_family ta = BlastFamily \/ o_family tb = BlastFamily) /\ (o_type ta <> OwnClass \/ o_type tb <> OwnClass)) /\
  (selected ta tb = Some BlazeAssign <-> o_family ta <> BlastFamily /\ o_family tb <> BlastFamily /\
     (o_type ta = RootBase \/ o_type tb = RootBase \/ (o_family ta = o_family tb /\ (o_type ta = MiddleBase \/ o_type tb = MiddleBase)))).
Proof.
  intros [fa sa] [fb sb]. cbn [o_family o_type]. split.
  - destruct fa, sa, fb, sb; vm_compute; (split; [intros H; try discriminate H; split; auto; try (left; discriminate); right; discriminate | intros [[H|H] [G|G]]; try discriminate H; try (exfalso; apply G; reflexivity); reflexivity]).
  - destruct fa, sa, fb, sb; vm_compute; (split; [intros H; try discriminate H; repeat split; try discriminate; auto 6 | intros (H1 & H2 & H3); try (exfalso; apply H1; reflexivity); try (exfalso; apply H2; reflexivity); try reflexivity; exfalso; destruct H3 as [H3|[H3|[H3 [H4|H4]]]]; discriminate]).
Qed.

(** panel = rhs checks the sizes ... *)
Theorem C40_operator_throws : forall SS T (O : Ops T) al tb a b m, o_family tb <> BlastFamily -> v_m b <> v_m a \/ v_n b <> v_n a ->
  panel_operator_assign SS T O al tb a b m = Throw InvalidArgument.
Proof.
  intros SS T O al [[] []] a b m F H; cbn in F; try congruence; unfold panel_operator_assign, assign_call; cbn [conversion o_family o_type];
   change (selected _ _) with (Some GenericAssign); cbn beta iota; apply C48_assign_throws; cbn; auto.
Qed.
(** ... and copies the elements if they agree: any storage orders, any windows -- aligned or not -- of panel and of Blaze dense matrices; nothing else changes. *)
Lemma elementwise : forall SS T al a b (m : mem T), 0 < SS -> window_ok SS a -> window_ok SS b -> v_m b = v_m a -> v_n b = v_n a ->
  buffer_live SS al (v_cont a) -> buffer_live SS al (v_cont b) -> buffers_apart SS (v_cont a) (v_cont b) ->
  exists m', m_assign SS T al (MArg a false) (MArg b false) m = Ok m' /\ updated (block (v_m a) (v_n a)) (v_addr SS a) (fun i j => m (v_addr SS b i j)) m m'.
Proof.
  intros SS T al [c i0 j0 M N af pf] b m HSS (W1 & W2 & W3) (V1 & V2 & V3) E1 E2 La Lb AP. cbn in *.
  set (a' := MArg (View c i0 j0 M N false pf) false).
  assert (AL : forall i j, block M N i j -> c_alloc SS c (v_addr SS (g_view a') i j) = true) by (intros i j (Hi & Hj); unfold v_addr; cbn; apply c_alloc_index; auto; lia).
  assert (BL : forall i j, block M N i j -> c_alloc SS (v_cont b) (v_addr SS b i j) = true) by (intros i j (Hi & Hj); unfold v_addr; apply c_alloc_index; auto; lia).
  apply (C48_assign SS T al a' (MArg b false) m HSS); auto.
  - unfold arg_ok. cbn. repeat split; auto. discriminate.
  - intros i j Hi Hj. apply La. apply (AL i j). split; auto.
  - intros i j Hi Hj. apply Lb. apply (BL i j). split; auto.
  - intros i j i' j' Hb Hb' _ Q. apply (AP (g_addr SS a' i j)); [apply (AL i j); auto|]. rewrite Q. apply (BL i' j'); auto.
Qed.
Theorem C40_operator_copies : forall SS T (O : Ops T) al tb a b m, 0 < SS -> o_family tb <> BlastFamily ->
  window_ok SS a -> window_ok SS b -> v_m b = v_m a -> v_n b = v_n a ->
  buffer_live SS al (v_cont a) -> buffer_live SS al (v_cont b) -> buffers_apart SS (v_cont a) (v_cont b) ->
  exists m', panel_operator_assign SS T O al tb a b m = Ok m' /\ updated (block (v_m a) (v_n a)) (v_addr SS a) (fun i j => m (v_addr SS b i j)) m m'.
Proof.
  intros SS T O al [[] []] a b m HSS F WA WB E1 E2 La Lb AP; cbn in F; try congruence; unfold panel_operator_assign, assign_call; cbn [conversion o_family o_type];
   change (selected _ _) with (Some GenericAssign); cbn beta iota; apply elementwise; auto.
Qed.
(** The library's own dense matrices, their windows and transposes cannot be assigned to a panel matrix with =, only with assign(a, b). *)
Theorem C40_operator_blast_dense : forall SS T (O : Ops T) al t a b m, panel_operator_assign SS T O al (Operand BlastFamily t) a b m = IllFormed.
Proof. reflexivity. Qed.
Theorem C40_assign_function : forall SS T (O : Ops T) al fa fb a b m,
  assign_call SS T O al (Operand fa OwnClass) (Operand fb OwnClass) a b m = m_assign SS T al (MArg a false) (MArg b false) m.
Proof. intros SS T O al [] [] a b m; reflexivity. Qed.

(** panel = dense; dense' = panel: dense' gets the elements of dense, which is unchanged. *)
Theorem C40_operator_round_trip : forall SS T (O : Ops T) al D P D' m, 0 < SS ->
  window_ok SS D -> window_ok SS P -> window_ok SS D' -> v_m P = v_m D -> v_n P = v_n D -> v_m D' = v_m D -> v_n D' = v_n D ->
  buffer_live SS al (v_cont D) -> buffer_live SS al (v_cont P) -> buffer_live SS al (v_cont D') ->
  buffers_apart SS (v_cont P) (v_cont D) -> buffers_apart SS (v_cont D') (v_cont P) -> buffers_apart SS (v_cont D') (v_cont D) ->
  exists m', bind (panel_operator_assign SS T O al (Operand BlazeDenseFamily OwnClass) P D m) (blaze_operator_assign SS T O al D' P) = Ok m' /\
    forall i j, i < v_m D -> j < v_n D -> m' (v_addr SS D' i j) = m (v_addr SS D i j) /\ m' (v_addr SS D i j) = m (v_addr SS D i j).
Proof.
  intros SS T O al D P D' m HSS WD WP WD' E1 E2 E3 E4 LD LP LD' S1 S2 S3.
  destruct (C40_operator_copies SS T O al (Operand BlazeDenseFamily OwnClass) P D m) as (m1 & R1 & U1a & U1b); auto; [discriminate|].
  assert (X : exists m2, m_assign SS T al (MArg D' false) (MArg P false) m1 = Ok m2 /\
     updated (block (v_m D') (v_n D')) (v_addr SS D') (fun i j => m1 (v_addr SS P i j)) m1 m2).
  { apply elementwise; auto; congruence. }
  destruct X as (m2 & R2 & U2a & U2b). rewrite R1. cbn [bind]. exists m2. split; [exact R2|]. intros i j Hi Hj.
  assert (ID : c_alloc SS (v_cont D) (v_addr SS D i j) = true).
  { unfold v_addr. destruct WD as (_ & W1 & W2). apply c_alloc_index; auto; lia. }
  split.
  - rewrite U2a by (split; lia). apply U1a. split; lia.
  - rewrite U2b, U1b; auto.
    + intros i' j' [Hi' Hj'] X. apply (S1 (v_addr SS D i j)); auto. rewrite X. destruct WP as (_ & W1 & W2). apply c_alloc_index; auto; lia.
    + intros i' j' [Hi' Hj'] X. apply (S3 (v_addr SS D i j)); auto. rewrite X. destruct WD' as (_ & W1 & W2). apply c_alloc_index; auto; lia.
Qed.

(** The same 5-by-1 panel matrix and 1-by-1 dense matrix: the operator throws, the call with references to the base classes writes outside the buffer; and an unaligned window is
    fine for the operator although it is not for the vectorised copy. *)
Example C40_operator_example :
  let L := Cont Dense true columnMajor 1 1 0 in let R := Cont Panel true columnMajor 5 1 8 in let al := fun a => c_alloc 4 L a || c_alloc 4 R a in
  blaze_operator_assign 4 Z zops al (whole L) (whole R) (fun _ => 0%Z) = Throw InvalidArgument /\
  assign_call 4 Z zops al (Operand BlazeDenseFamily MiddleBase) (Operand PanelFamily MiddleBase) (whole L) (whole R) (fun _ => 0%Z) = UB.
Proof. split; vm_compute; reflexivity. Qed.
Example C40_operator_unaligned_example :
  let D := Cont Dense true columnMajor 8 1 0 in let P := Cont Panel true columnMajor 4 1 8 in let al := fun a => c_alloc 4 D a || c_alloc 4 P a in
  window_ok 4 (submatrix false D 1 0 4 1) /\ window_ok 4 (whole P) /\ buffers_apart 4 P D /\
  match panel_operator_assign 4 Z zops al (Operand BlazeDenseFamily OwnClass) (whole P) (submatrix false D 1 0 4 1) Z.of_nat with
  | Ok m' => map (fun k => m' (8 + k)) [0; 1; 2; 3] = [1; 2; 3; 4]%Z | _ => False end.
Proof.
  split; [repeat split; cbn; lia|]. split; [repeat split; cbn; lia|]. split; [|vm_compute; reflexivity].
  intros x H1 H2. unfold c_alloc in *. apply andb_prop in H1, H2. destruct H1 as (H1 & _), H2 as (_ & H2). apply Nat.leb_le in H1. apply Nat.ltb_lt in H2. cbn in H1, H2. lia.
Qed.
