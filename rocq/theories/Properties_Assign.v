(** Properties_Assign.v -- C48: element-wise assignment; C08: checked windows of panel matrices. *)
From Coq Require Import Arith Lia List Bool PeanoNat ZArith.
From Verif Require Import Base Base_Proofs Spec Layout_Model Layout_Proofs Gemm_Model Arg_Proofs Scan_Proofs Assign_Model.
Import ListNotations.

(** Element (i, j) is visited before element (i', j'): rows outside, columns inside. *)
Definition visited_before (i j i' j' : nat) : Prop := i < i' \/ (i = i' /\ j < j').

(** Assignment copies every element as it was before, provided no element of the source is overwritten before it is read. *)
Theorem C48_assign : forall SS T al a b (m : mem T), 0 < SS -> arg_ok SS a -> g_rows b = g_rows a -> g_cols b = g_cols a ->
  allocated al (g_rows a) (g_cols a) (g_addr SS a) -> allocated al (g_rows a) (g_cols a) (g_addr SS b) ->
  (forall i j i' j', block (g_rows a) (g_cols a) i j -> block (g_rows a) (g_cols a) i' j' ->
     visited_before i j i' j' -> g_addr SS a i j <> g_addr SS b i' j') ->
  exists m', m_assign SS T al a b m = Ok m' /\
    updated (block (g_rows a) (g_cols a)) (g_addr SS a) (fun i j => m (g_addr SS b i j)) m m'.
Proof.
  intros SS T al a b m HSS Ha R1 R2 A1 A2 SEP. unfold m_assign. rewrite R1, R2, !Nat.eqb_refl. cbn [negb orb].
  apply (scan2_ok T al).
  - intros i j i' j' Hi Hj Hi' Hj'. apply (g_distinct SS HSS a Ha); auto.
  - intros i j m1 Hi Hj (_ & U). rewrite rd_ok by auto. cbn [bind]. rewrite wr_ok by auto. f_equal. f_equal.
    apply U. intros i' j' Hb. apply not_eq_sym. apply SEP; unfold before, block, visited_before in *; lia.
Qed.
(** Different sizes: invalid_argument, nothing is written. *)
Theorem C48_assign_throws : forall SS T al a b (m : mem T), g_rows b <> g_rows a \/ g_cols b <> g_cols a ->
  m_assign SS T al a b m = Throw InvalidArgument.
Proof.
  intros SS T al a b m H. unfold m_assign. destruct (Nat.eqb_spec (g_rows a) (g_rows b)), (Nat.eqb_spec (g_cols a) (g_cols b)); cbn; auto. lia.
Qed.
(** Assigning a matrix to itself changes nothing. *)
Theorem C48_self_assign : forall SS T al a (m : mem T), 0 < SS -> arg_ok SS a -> allocated al (g_rows a) (g_cols a) (g_addr SS a) ->
  exists m', m_assign SS T al a a m = Ok m' /\ forall x, m' x = m x.
Proof.
  intros SS T al a m HSS Ha A1. destruct (C48_assign SS T al a a m HSS Ha) as (m' & E & U1 & U2); auto.
  { intros i j i' j' (Hi & Hj) (Hi' & Hj') V Q. apply (g_distinct SS HSS a Ha) in Q; auto. unfold visited_before in V. lia. }
  exists m'. split; auto. intros x.
  assert (D : (exists i j, block (g_rows a) (g_cols a) i j /\ x = g_addr SS a i j) \/
              (forall i j, block (g_rows a) (g_cols a) i j -> x <> g_addr SS a i j)).
  { clear -HSS. generalize (g_addr SS a) as f, (g_rows a) as M, (g_cols a) as N. intros f M N.
    induction M as [|M IH]; [right; unfold block; lia|].
    destruct IH as [(i & j & (Hi & Hj) & E)|IH]; [left; exists i, j; unfold block; auto|].
    assert (C : (exists j, j < N /\ x = f M j) \/ forall j, j < N -> x <> f M j).
    { clear IH. induction N as [|N IH]; [right; lia|]. destruct IH as [(j & Hj & E)|IH]; [left; exists j; auto|].
      destruct (Nat.eq_dec x (f M N)); [left; exists N; auto|]. right. intros j Hj. destruct (Nat.eq_dec j N) as [->|]; auto. apply IH. lia. }
    destruct C as [(j & Hj & E)|C]; [left; exists M, j; unfold block; auto|]. right. intros i j (Hi & Hj).
    destruct (Nat.eq_dec i M) as [->|]; auto. apply IH. unfold block. lia. }
  destruct D as [(i & j & Hb & ->)|D]; [apply U1; auto|apply U2; auto].
Qed.
(** Overlapping windows of one matrix: elements can be moved up or to the left ... *)
Theorem C48_assign_shift : forall SS T al c af af' r s r' s' M N (m : mem T), 0 < SS -> c_base c mod SS = 0 ->
  (forall x, c_alloc SS c x = true -> al x = true) -> r + M <= c_rows c -> s + N <= c_cols c -> r' + M <= c_rows c -> s' + N <= c_cols c ->
  (af = true -> major_of (c_so c) r s mod SS = 0) ->
  r < r' \/ (r = r' /\ s <= s') ->
  let a := MArg (submatrix af c r s M N) false in let b := MArg (submatrix af' c r' s' M N) false in
  exists m', m_assign SS T al a b m = Ok m' /\ updated (block M N) (g_addr SS a) (fun i j => m (g_addr SS b i j)) m m'.
Proof.
  intros SS T al c af af' r s r' s' M N m HSS Hb HL H1 H2 H3 H4 HA OR a b.
  assert (Oa : arg_ok SS a) by (unfold arg_ok; cbn; auto).
  apply (C48_assign SS T al a b m HSS Oa); auto.
  - intros i j Hi Hj. apply (g_allocated SS HSS al a Oa HL); auto.
  - intros i j Hi Hj. assert (Ob : arg_ok SS (MArg (submatrix false c r' s' M N) false)) by (unfold arg_ok; cbn; repeat split; auto; discriminate).
    apply (g_allocated SS HSS al _ Ob HL); auto.
  - cbn. intros i j i' j' (Hi & Hj) (Hi' & Hj') V Q. unfold v_addr, c_addr in Q. cbn in Q. apply Nat.add_cancel_l in Q.
    cbn in *. apply (c_index_inj SS HSS c) in Q; unfold visited_before in V; try lia.
Qed.
(** ... but not down or to the right: the value of the first row is repeated. *)
Theorem C48_overlap_refuted : exists al a b (m : mem Z), arg_ok 4 a /\ arg_ok 4 b /\ g_rows b = g_rows a /\ g_cols b = g_cols a /\
  (forall x, c_alloc 4 (v_cont (g_view a)) x = true -> al x = true) /\ v_cont (g_view b) = v_cont (g_view a) /\
  match m_assign 4 Z al a b m with Ok m' => exists i j, block (g_rows a) (g_cols a) i j /\ m' (g_addr 4 a i j) <> m (g_addr 4 b i j) | _ => False end.
Proof.
  set (c := Cont Dense false columnMajor 3 1 0).
  exists (fun x => x <? 4), (MArg (submatrix false c 1 0 2 1) false), (MArg (submatrix false c 0 0 2 1) false), Z.of_nat.
  split; [unfold arg_ok; cbn; repeat split; auto; discriminate|]. split; [unfold arg_ok; cbn; repeat split; auto; discriminate|].
  split; [auto|]. split; [auto|]. split; [intros x H; apply andb_prop in H; exact (proj2 H)|]. split; [reflexivity|].
  vm_compute. exists 1, 0. split; [split; lia|]. discriminate.
Qed.
(** A matrix cannot be transposed in place by assigning its transpose: the result is the symmetric matrix of its upper part. *)
Theorem C48_transpose_in_place_refuted : exists al c (m : mem Z), (forall x, c_alloc 4 c x = true -> al x = true) /\
  match m_assign 4 Z al (MArg (whole c) false) (MArg (whole c) true) m with
  | Ok m' => exists i j, block (c_rows c) (c_cols c) i j /\ m' (c_addr 4 c i j) <> m (c_addr 4 c j i)
  | _ => False end.
Proof.
  set (c := Cont Dense false columnMajor 2 2 0). exists (fun x => x <? 8), c, Z.of_nat.
  split; [intros x H; apply andb_prop in H; exact (proj2 H)|]. vm_compute. exists 1, 0. split; [split; lia|]. discriminate.
Qed.
(** A concrete case: a window of a panel matrix gets the transpose of a dense row-major matrix. *)
Definition asC := Cont Panel true columnMajor 6 5 0.
Definition asD := Cont Dense false rowMajor 3 4 64.
Example C48_ex :
  let a := MArg (submatrix false asC 1 2 4 3) false in let b := MArg (whole asD) true in
  arg_ok 4 a /\ (forall i j i' j', block 4 3 i j -> block 4 3 i' j' -> visited_before i j i' j' -> g_addr 4 a i j <> g_addr 4 b i' j') /\
  match m_assign 4 Z (fun x => x <? 128) a b Z.of_nat with Ok m' => m' (c_addr 4 asC 4 3) = Z.of_nat (c_addr 4 asD 1 3) | _ => False end.
Proof.
  split; [unfold arg_ok; cbn; repeat split; auto; discriminate|]. split; [|vm_compute; reflexivity].
  intros i j i' j' (Hi & Hj) (Hi' & Hj') _.
  assert (B : c_index 4 asC (1 + i) (2 + j) < c_capacity 4 asC) by (apply c_index_bound; cbn; lia).
  change (c_capacity 4 asC) with 40 in B.
  change (g_addr 4 (MArg (submatrix false asC 1 2 4 3) false) i j) with (0 + c_index 4 asC (1 + i) (2 + j)).
  change (g_addr 4 (MArg (whole asD) true) i' j') with (64 + c_index 4 asD (0 + j') (0 + i')). lia.
Qed.

(* ------------------------------------------------------------------ C08: submatrices of panel matrices *)
(** The checked constructor accepts exactly the windows inside the matrix that start at a panel boundary, and then refers to
    exactly this window. *)
Theorem C08_panel_submatrix : forall SS c r cl m n,
  panel_submatrix SS c r cl m n =
    if (r + m <=? c_rows c) && (cl + n <=? c_cols c)
    then if major_of (c_so c) r cl mod SS =? 0 then Ok (View c r cl m n true false) else Throw LogicError
    else Throw InvalidArgument.
Proof.
  intros SS c r cl m n. unfold panel_submatrix, major_of.
  destruct (Nat.ltb_spec (c_rows c) (r + m)), (Nat.leb_spec (r + m) (c_rows c)); try lia; auto.
  destruct (Nat.ltb_spec (c_cols c) (cl + n)), (Nat.leb_spec (cl + n) (c_cols c)); try lia; auto. cbn [orb andb].
  destruct (c_so c);
    match goal with |- context [?x mod SS =? 0] => destruct (Nat.ltb_spec 0 (x mod SS)), (Nat.eqb_spec (x mod SS) 0) end; auto; lia.
Qed.
Theorem C08_panel_submatrix_ok : forall SS c r cl m n v, c_base c mod SS = 0 -> panel_submatrix SS c r cl m n = Ok v ->
  arg_ok SS (MArg v false) /\ at_panel SS (MArg v false) /\ v_m v = m /\ v_n v = n /\
  forall i j, v_addr SS v i j = c_addr SS c (r + i) (cl + j).
Proof.
  intros SS c r cl m n v Hb E. rewrite C08_panel_submatrix in E.
  destruct (Nat.leb_spec (r + m) (c_rows c)), (Nat.leb_spec (cl + n) (c_cols c)); cbn [andb] in E; try discriminate.
  destruct (Nat.eqb_spec (major_of (c_so c) r cl mod SS) 0); try discriminate. injection E as <-.
  unfold arg_ok, at_panel; cbn. auto 10.
Qed.
(** offset() is documented as the offset of the first element from the start of its panel, which is 0 for checked windows.
    It returns 1 for every checked window of a row-major matrix whose first row is a multiple of the panel size. *)
Theorem C08_panel_offset_refuted : forall SS c cl m n v, c_so c = rowMajor -> 0 < SS -> panel_submatrix SS c 0 cl m n = Ok v ->
  major_of (c_so (v_cont v)) (v_i v) (v_j v) mod SS = 0 /\ panel_submatrix_offset SS v = 1.
Proof.
  intros SS c cl m n v So HSS E. rewrite C08_panel_submatrix in E.
  destruct ((0 + m <=? c_rows c) && (cl + n <=? c_cols c)); try discriminate.
  destruct (Nat.eqb_spec (major_of (c_so c) 0 cl mod SS) 0); try discriminate. injection E as <-.
  split; auto. unfold panel_submatrix_offset. cbn [v_cont v_i]. rewrite So, Nat.mod_0_l by lia. reflexivity.
Qed.
(** For the other storage order, and more generally, the result is the truth value of a comparison: 1 if the first row is congruent to the
    number of the storage order (0 row-major, 1 column-major), otherwise 0.  For checked column-major windows it is right. *)
Theorem C08_panel_offset : forall SS c r cl m n v, 0 < SS -> panel_submatrix SS c r cl m n = Ok v ->
  panel_submatrix_offset SS v = match c_so c with columnMajor => 0 | rowMajor => if r mod SS =? 0 then 1 else 0 end.
Proof.
  intros SS c r cl m n v HSS E. rewrite C08_panel_submatrix in E.
  destruct ((r + m <=? c_rows c) && (cl + n <=? c_cols c)); try discriminate.
  destruct (Nat.eqb_spec (major_of (c_so c) r cl mod SS) 0) as [Z|]; try discriminate. injection E as <-.
  unfold panel_submatrix_offset. cbn [v_cont v_i]. unfold major_of in Z. destruct (c_so c); [|rewrite Z]; auto.
  rewrite (Nat.eqb_sym 0). reflexivity.
Qed.
(** For unchecked windows of a column-major matrix offset() is the documented value exactly if that is 0 or 1. *)
Theorem C08_panel_offset_unchecked : forall SS c r cl m n, c_so c = columnMajor -> 0 < SS ->
  (panel_submatrix_offset SS (View c r cl m n true false) = r mod SS <-> r mod SS <= 1).
Proof.
  intros SS c r cl m n So HSS. unfold panel_submatrix_offset. cbn [v_cont v_i]. rewrite So. destruct (Nat.eqb_spec 1 (r mod SS)); lia.
Qed.
Example C08_panel_ex : panel_submatrix 4 asC 4 1 2 3 = Ok (View asC 4 1 2 3 true false) /\ panel_submatrix 4 asC 2 1 2 3 = Throw LogicError /\
  panel_submatrix 4 asC 4 1 3 3 = Throw InvalidArgument.
Proof. repeat split. Qed.
