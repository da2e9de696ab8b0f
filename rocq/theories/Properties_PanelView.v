(** Properties_PanelView.v -- C59: checked views of panel matrices. *)
From Coq Require Import Arith NArith ZArith Lia List Bool PeanoNat.
From Verif Require Import Base Base_Proofs Spec Layout_Model Layout_Proofs Arg_Proofs Container_Model Container_Proofs Instances Properties_Assign PanelView_Model.
Import ListNotations.
Local Open Scope nat_scope.

Lemma word_add_small : forall a b, (a + b < 2 ^ 64)%N -> word_add a b = (a + b)%N.
Proof. intros a b H. unfold word_add. apply N.mod_small. exact H. Qed.

(** If i + m and j + n do not exceed the range of std::size_t, the constructor accepts exactly the windows inside the matrix that begin
    at a panel boundary: invalid_argument for other windows, logic_error for other positions. *)
Theorem C59_submatrix : forall SS c i j m n, 0 < SS -> (i + m < 2 ^ 64)%N -> (j + n < 2 ^ 64)%N ->
  let inside := N.to_nat i + N.to_nat m <= c_rows c /\ N.to_nat j + N.to_nat n <= c_cols c in
  let major := match c_so c with columnMajor => N.to_nat i | rowMajor => N.to_nat j end in
  (~ inside -> panel_sub SS c i j m n = Throw InvalidArgument) /\
  (inside -> major mod SS <> 0 -> panel_sub SS c i j m n = Throw LogicError) /\
  (inside -> major mod SS = 0 -> exists v, panel_sub SS c i j m n = Ok v /\ v_m v = N.to_nat m /\ v_n v = N.to_nat n /\
     (forall k l, v_addr SS v k l = c_addr SS c (N.to_nat i + k) (N.to_nat j + l)) /\
     (c_kind c = Panel -> forall k l, k < v_m v -> l < v_n v -> c_alloc SS c (v_addr SS v k l) = true)).
Proof.
  intros SS c i j m n HSS Hi Hj inside major. unfold panel_sub. rewrite !word_add_small by auto.
  assert (NSS : N.of_nat SS <> 0%N) by lia.
  assert (D : forall x, (0 <? x mod N.of_nat SS)%N = negb (N.to_nat x mod SS =? 0)).
  { intros x. assert (E : (x mod N.of_nat SS)%N = N.of_nat (N.to_nat x mod SS)).
    { rewrite <- (N2Nat.id x) at 1. rewrite Nat2N.inj_mod. reflexivity. }
    rewrite E. destruct (N.ltb_spec 0 (N.of_nat (N.to_nat x mod SS))), (Nat.eqb_spec (N.to_nat x mod SS) 0); auto; lia. }
  rewrite !D.
  destruct (N.ltb_spec (N.of_nat (c_rows c)) (i + m)%N) as [H1|H1]; [|destruct (N.ltb_spec (N.of_nat (c_cols c)) (j + n)%N) as [H2|H2]]; cbn [orb].
  - repeat split; auto; intros [X1 X2]; lia.
  - repeat split; auto; intros [X1 X2]; lia.
  - assert (I : inside) by (unfold inside; lia). split; [intros X; contradiction|]. unfold major.
    assert (FIN : exists v, Ok (View c (N.to_nat i) (N.to_nat j) (N.to_nat m) (N.to_nat n) true false) = Ok v /\ v_m v = N.to_nat m /\ v_n v = N.to_nat n /\
     (forall k l, v_addr SS v k l = c_addr SS c (N.to_nat i + k) (N.to_nat j + l)) /\
     (c_kind c = Panel -> forall k l, k < v_m v -> l < v_n v -> c_alloc SS c (v_addr SS v k l) = true)).
    { eexists. split; [reflexivity|]. cbn [v_m v_n]. split; auto. split; auto. split; auto.
      intros _ k l Hk Hl. unfold v_addr. cbn [v_cont v_i v_j]. apply (c_alloc_index SS HSS); unfold inside in I; lia. }
    destruct (c_so c);
    destruct (Nat.eqb_spec (N.to_nat i mod SS) 0), (Nat.eqb_spec (N.to_nat j mod SS) 0); cbn [negb]; split; intros; try contradiction; auto.
Qed.

(** The sums wrap around: an empty-looking window far outside of the matrix is accepted. *)
Theorem C59_submatrix_wraps_refuted : forall c n, (n <= N.of_nat (c_cols c))%N -> c_so c = columnMajor ->
  let i := (2 ^ 64 - 4)%N in
  exists v, panel_sub 4 c i 0 4 n = Ok v /\ v_m v = 4 /\ v_n v = N.to_nat n /\ forall k l, v_addr 4 v k l = c_addr 4 c (N.to_nat i + k) l.
Proof.
  intros c n Hn So i. eexists. split.
  - unfold panel_sub. rewrite So. replace (word_add i 4) with 0%N by reflexivity.
    assert (W' : (N.of_nat (c_cols c) <? word_add 0 n)%N = false).
    { apply N.ltb_ge. unfold word_add. etransitivity; [apply N.mod_le; discriminate|]. lia. }
    rewrite W'. replace (N.of_nat (c_rows c) <? 0)%N with false by (symmetry; apply N.ltb_ge; lia).
    replace (0 <? i mod N.of_nat 4)%N with false by reflexivity. cbn [orb]. reflexivity.
  - repeat split.
Qed.

(** A submatrix of a submatrix: the window of the matrix with the sum of the offsets; if it is inside the outer view, element (k,l) of the
    inner view is element (i+k, j+l) of the outer view. *)
Theorem C59_nested : forall SS v i j m n, 0 < SS -> v_i v + v_m v <= c_rows (v_cont v) -> v_j v + v_n v <= c_cols (v_cont v) ->
  (N.of_nat (c_rows (v_cont v)) < 2 ^ 64)%N -> (N.of_nat (c_cols (v_cont v)) < 2 ^ 64)%N ->
  N.to_nat i + N.to_nat m <= v_m v -> N.to_nat j + N.to_nat n <= v_n v ->
  match c_so (v_cont v) with columnMajor => v_i v + N.to_nat i | rowMajor => v_j v + N.to_nat j end mod SS = 0 ->
  exists w, panel_subsub SS v i j m n = Ok w /\ v_m w = N.to_nat m /\ v_n w = N.to_nat n /\
    forall k l, v_addr SS w k l = v_addr SS v (N.to_nat i + k) (N.to_nat j + l).
Proof.
  intros SS v i j m n HSS Vi Vj Wr Wc Hi Hj Hm. unfold panel_subsub.
  rewrite !word_add_small by lia.
  destruct (C59_submatrix SS (v_cont v) (N.of_nat (v_i v) + i) (N.of_nat (v_j v) + j) m n HSS) as (_ & _ & H); [lia|lia|].
  rewrite !N2Nat.inj_add, !Nat2N.id in H. destruct H as (w & E & E1 & E2 & E3 & _); [lia|exact Hm|].
  exists w. split; auto. split; auto. split; auto. intros k l. rewrite E3. unfold v_addr. f_equal; lia.
Qed.
(** But only the bounds of the whole matrix are checked: a window larger than the outer view is accepted. *)
Theorem C59_nested_unchecked_refuted : let c := Cont Panel false columnMajor 8 8 0 in let v := View c 0 0 4 4 true false in
  panel_sub 4 c 0 0 4 4 = Ok v /\
  exists w, panel_subsub 4 v 4 0 4 8 = Ok w /\ forall k l, k < v_m w -> l < v_n w -> forall k' l', k' < v_m v -> l' < v_n v -> v_addr 4 w k l <> v_addr 4 v k' l'.
Proof.
  split; [reflexivity|]. eexists. split; [reflexivity|]. intros k l Hk Hl k' l' Hk' Hl'. cbn in Hk, Hl, Hk', Hl'.
  intros E. unfold v_addr in E. cbn [v_cont v_i v_j] in E.
  change (N.to_nat (word_add (N.of_nat 0) 4)) with 4 in E. change (N.to_nat (word_add (N.of_nat 0) 0)) with 0 in E.
  change (Pos.to_nat 4) with 4 in Hk. change (Pos.to_nat 8) with 8 in Hl.
  apply (c_addr_inj 4 ltac:(lia)) in E; cbn [c_rows c_cols]; lia.
Qed.

(** Checked access: out_of_range exactly for positions outside of the view, otherwise the element operator() refers to. *)
Theorem C59_at : forall SS v i j, (i < v_m v /\ j < v_n v -> panel_at SS v i j = Ok (v_addr SS v i j)) /\
  (~ (i < v_m v /\ j < v_n v) -> panel_at SS v i j = Throw OutOfRange).
Proof.
  intros SS v i j. unfold panel_at. destruct (Nat.leb_spec (v_m v) i), (Nat.leb_spec (v_n v) j); split; intros; auto; lia.
Qed.
Theorem C59_trans_at : forall SS v i j, let t := TransExpr v in
  (i < v_n v /\ j < v_m v -> trans_at SS t i j = Ok (v_addr SS v j i)) /\ (~ (i < v_n v /\ j < v_m v) -> trans_at SS t i j = Throw OutOfRange).
Proof.
  intros SS v i j t. unfold trans_at, t, t_addr. cbn [t_op]. destruct (Nat.leb_spec (v_n v) i), (Nat.leb_spec (v_m v) j); split; intros; auto; lia.
Qed.

(** offset(), documented as the distance of the first element from the start of its panel, in rows for column-major and in columns for row-major matrices: because of the alignment
    check that distance is always 0.  Column-major views report it; row-major ones report 1 exactly if their first row is a multiple of the panel size - also the view of the whole matrix. *)
Theorem C59_offset : forall SS c i j m n v, panel_sub SS c i j m n = Ok v -> c_so c = columnMajor -> ps_offset SS v = N.to_nat i mod SS.
Proof.
  intros SS c i j m n v E So. unfold panel_sub in E. rewrite So in E. destruct (_ || _); [discriminate|].
  destruct (N.ltb_spec 0 (i mod N.of_nat SS)) as [|H]; [discriminate|]. injection E as <-. unfold ps_offset. cbn [v_cont v_i]. rewrite So. cbn [order_number].
  assert (X : N.to_nat i mod SS = 0).
  { apply N.le_0_r in H. replace SS with (N.to_nat (N.of_nat SS)) by apply Nnat.Nat2N.id. rewrite <- Nnat.N2Nat.inj_mod. rewrite H. reflexivity. }
  rewrite X. reflexivity.
Qed.
Theorem C59_offset_row_major_refuted : forall SS c i j m n v, 0 < SS -> panel_sub SS c i j m n = Ok v -> c_so c = rowMajor ->
  N.to_nat j mod SS = 0 /\ (N.to_nat i mod SS = 0 -> ps_offset SS v = 1) /\ (N.to_nat i mod SS <> 0 -> ps_offset SS v = 0).
Proof.
  intros SS c i j m n v HSS E So. unfold panel_sub in E. rewrite So in E. destruct (_ || _); [discriminate|].
  destruct (N.ltb_spec 0 (j mod N.of_nat SS)) as [|H]; [discriminate|]. injection E as <-. unfold ps_offset. cbn [v_cont v_i]. rewrite So. cbn [order_number].
  split; [|split; intros X].
  - apply N.le_0_r in H. replace SS with (N.to_nat (N.of_nat SS)) by apply Nnat.Nat2N.id. rewrite <- Nnat.N2Nat.inj_mod. rewrite H. reflexivity.
  - rewrite X. reflexivity.
  - destruct (Nat.eqb_spec 0 (N.to_nat i mod SS)); [congruence|reflexivity].
Qed.

(** Rows: invalid_argument exactly if the matrix has no such row; row(A, i)[j] is A(i, j), the rows are disjoint and together the matrix. *)
Theorem C59_row : forall SS c i, (c_rows c <= i -> panel_row c i = Throw InvalidArgument) /\
  (i < c_rows c -> exists r, panel_row c i = Ok r /\ pr_size r = c_cols c /\
     (forall j, pr_addr SS r j = c_addr SS c i j) /\ (0 < SS -> forall j, j < pr_size r -> c_alloc SS c (pr_addr SS r j) = true)).
Proof.
  intros SS c i. unfold panel_row. destruct (Nat.leb_spec (c_rows c) i); split; intros; auto; try lia.
  eexists. split; [reflexivity|]. split; auto. split; auto. intros HSS j Hj. apply (c_alloc_index SS HSS); auto.
Qed.
Theorem C59_rows_disjoint : forall SS c i i' r r' j j', 0 < SS -> panel_row c i = Ok r -> panel_row c i' = Ok r' -> j < pr_size r -> j' < pr_size r' ->
  pr_addr SS r j = pr_addr SS r' j' -> i = i' /\ j = j'.
Proof.
  intros SS c i i' r r' j j' HSS. unfold panel_row. destruct (Nat.leb_spec (c_rows c) i), (Nat.leb_spec (c_rows c) i'); try discriminate.
  intros [= <-] [= <-] Hj Hj' E. apply (c_addr_inj SS HSS) in E; auto.
Qed.
(** No valid use of a row's at() or load() exists, nor of offset() for dynamic matrices. *)
Theorem C59_row_access_refuted : forall c i r j, panel_row c i = Ok r -> j < pr_size r ->
  pr_at r j = IllFormed /\ pr_load r j = IllFormed /\ (c_static c = false -> pr_offset r = IllFormed).
Proof.
  intros c i r j E _. unfold panel_row in E. destruct (c_rows c <=? i); [discriminate|]. injection E as <-. repeat split; auto.
  intros S. unfold pr_offset. cbn [pr_cont]. rewrite S. reflexivity.
Qed.
(** A row of a static matrix reports the offset 0. *)
Theorem C59_row_offset : forall c i r, panel_row c i = Ok r -> c_static c = true -> pr_offset r = Ok 0.
Proof.
  intros c i r E S. unfold panel_row in E. destruct (c_rows c <=? i); [discriminate|]. injection E as <-. unfold pr_offset. cbn [pr_cont]. rewrite S. reflexivity.
Qed.

(** ** Examples *)
Definition pvC : container := Cont Panel false columnMajor 8 5 0.
Example C59_example : panel_sub 4 pvC 4 1 3 2 = Ok (View pvC 4 1 3 2 true false) /\ panel_sub 4 pvC 5 1 3 2 = Throw LogicError /\
  panel_sub 4 pvC 4 1 5 2 = Throw InvalidArgument /\ panel_subsub 4 (View pvC 4 1 3 2 true false) 0 1 3 1 = Ok (View pvC 4 2 3 1 true false) /\
  panel_at 4 (View pvC 4 1 3 2 true false) 2 1 = Ok (20 + 2 + 2 * 4) /\ panel_at 4 (View pvC 4 1 3 2 true false) 3 1 = Throw OutOfRange /\
  panel_row pvC 7 = Ok (PRow pvC 7) /\ panel_row pvC 8 = Throw InvalidArgument /\ map (pr_addr 4 (PRow pvC 7)) (seq 0 5) = [23; 27; 31; 35; 39].
Proof. repeat split. Qed.
