(** Properties_Layout.v -- C01-C08 and C42: storage, pointers, views. *)
From Coq Require Import Arith Lia List Bool PeanoNat NArith.
From Verif Require Import Base Base_Proofs Spec Layout_Model Layout_Proofs Simd_Model.
Import ListNotations.

(* ------------------------------------------------------------------ C01 *)
Theorem C01_nextMultiple_least : forall value factor, 0 < factor ->
  value <= nextMultiple value factor /\
  (exists k, nextMultiple value factor = k * factor) /\
  (forall k, value <= k * factor -> nextMultiple value factor <= k * factor).
Proof.
  intros v f Hf. destruct (nextMultiple_spec v f Hf) as (A & B & C). split; [exact A|split].
  - apply mod0_ex in B; auto. destruct B as [q Eq]. exists q. lia.
  - intros k Hk. apply nextMultiple_least; auto. apply Nat.mod_mul. lia.
Qed.

Theorem C01_nextMultiple_64bit : forall value factor : N,
  (0 < factor < 2 ^ 64)%N -> (value < 2 ^ 64)%N ->
  (exists k, value <= k * factor < 2 ^ 64)%N ->
  let r := nextMultiple64 value factor in
  (value <= r < 2 ^ 64)%N /\ (exists k, r = k * factor)%N /\ (forall k, value <= k * factor -> r <= k * factor)%N.
Proof.
  intros v f [Hf Hf2] Hv (k & Hk1 & Hk2) r. change (2 ^ 64)%N with W64 in *.
  set (n := nextMultiple (N.to_nat v) (N.to_nat f)).
  assert (Hf' : 0 < N.to_nat f) by lia.
  destruct (nextMultiple_spec (N.to_nat v) (N.to_nat f) Hf') as (A & B & C). fold n in A, B, C.
  assert (L : forall q, (v <= q * f)%N -> n <= N.to_nat q * N.to_nat f).
  { intros q Hq. apply nextMultiple_least; auto.
    - rewrite <- N2Nat.inj_mul. lia.
    - apply Nat.mod_mul. lia. }
  assert (Hn : (N.of_nat n < W64)%N).
  { pose proof (L k Hk1) as X. rewrite <- N2Nat.inj_mul in X. lia. }
  assert (E : r = N.of_nat n).
  { unfold r, nextMultiple64.
    assert (Hr : (v mod f < f)%N) by (apply N.mod_lt; lia).
    replace (f + W64 - v mod f)%N with ((f - v mod f) + 1 * W64)%N by lia.
    rewrite N.mod_add by (intro X; vm_compute in X; discriminate X).
    rewrite (N.mod_small (f - v mod f) W64)
      by (apply N.le_lt_trans with f; [apply N.le_sub_l | assumption]).
    assert (En : (v + (f - v mod f) mod f)%N = N.of_nat n).
    { unfold n, nextMultiple. rewrite Nat2N.inj_add, N2Nat.id. f_equal.
      apply N2Nat.inj. rewrite Nat2N.id.
      rewrite !N2Nat.inj_mod, N2Nat.inj_sub, N2Nat.inj_mod by lia. reflexivity. }
    rewrite En. apply N.mod_small. exact Hn. }
  rewrite E. split; [lia|split].
  - apply mod0_ex in B; auto. destruct B as [q Eq]. exists (N.of_nat q). rewrite Eq. lia.
  - intros q Hq. pose proof (L q Hq) as X. rewrite <- N2Nat.inj_mul in X. lia.
Qed.

Example C01_example : nextMultiple 13 4 = 16 /\ nextMultiple 0 8 = 0 /\
  nextMultiple64 (2 ^ 64 - 7) 8 = 0%N /\ nextMultiple64 (2 ^ 64 - 9) 4 = (2 ^ 64 - 8)%N.
Proof. vm_compute. auto. Qed.

(* ------------------------------------------------------------------ C02 *)
(** Distinct addresses inside the buffer; in the contiguous direction every SIMD block that starts at a
    multiple of the SIMD size below the size is aligned, allocated and meets no element of another column. *)
Theorem C02_dense_storage : forall SS c, 0 < SS -> c_kind c = Dense -> c_base c mod SS = 0 ->
  distinct (c_rows c) (c_cols c) (c_addr SS c) /\
  allocated (c_alloc SS c) (c_rows c) (c_cols c) (c_addr SS c) /\
  match c_so c with
  | columnMajor => forall i j, i mod SS = 0 -> i < c_rows c -> j < c_cols c ->
      c_addr SS c i j mod SS = 0 /\
      (forall l, l < SS -> c_alloc SS c (c_addr SS c i j + l) = true /\
         (i + l < c_rows c -> c_addr SS c i j + l = c_addr SS c (i + l) j) /\
         (forall i' j', i' < c_rows c -> j' < c_cols c -> j' <> j -> c_addr SS c i j + l <> c_addr SS c i' j'))
  | rowMajor => forall i j, j mod SS = 0 -> i < c_rows c -> j < c_cols c ->
      c_addr SS c i j mod SS = 0 /\
      (forall l, l < SS -> c_alloc SS c (c_addr SS c i j + l) = true /\
         (j + l < c_cols c -> c_addr SS c i j + l = c_addr SS c i (j + l)) /\
         (forall i' j', i' < c_rows c -> j' < c_cols c -> i' <> i -> c_addr SS c i j + l <> c_addr SS c i' j'))
  end.
Proof.
  intros SS c HSS K Hb.
  assert (AL : forall i j, c_index SS c i j < c_capacity SS c -> c_alloc SS c (c_addr SS c i j) = true).
  { intros i j H. unfold c_alloc, c_addr. apply andb_true_intro. split; [apply Nat.leb_le|apply Nat.ltb_lt]; lia. }
  split; [|split].
  - intros i j i' j' Hi Hj Hi' Hj' E. apply (c_index_inj SS HSS c); auto. unfold c_addr in E. lia.
  - intros i j Hi Hj. apply AL. apply c_index_bound; auto.
  - pose proof (c_spacing_mod SS HSS c) as Hs.
    assert (Ix : forall i j, c_index SS c i j = match c_so c with columnMajor => i + j * c_spacing SS c | rowMajor => i * c_spacing SS c + j end)
      by (intros; unfold c_index; rewrite K; destruct (c_so c); reflexivity).
    pose proof (c_index_bound_pad SS HSS c) as BP.
    assert (Sp : c_spacing SS c = match c_so c with columnMajor => nextMultiple (c_rows c) SS | rowMajor => nextMultiple (c_cols c) SS end)
      by (unfold c_spacing; rewrite K; destruct (c_so c); reflexivity).
    assert (UP : forall n i l, i mod SS = 0 -> i < n -> l < SS -> i + l < nextMultiple n SS).
    { intros n i l H1 H2 H3. destruct (nextMultiple_spec n SS HSS) as (A & B & C).
      apply mod0_ex in H1; auto. apply mod0_ex in B; auto. destruct H1 as [q ->]. destruct B as [q' Eq]. rewrite Eq. rewrite Eq in A. assert (q < q') by nia. nia. }
    apply mod0_ex in Hs; auto. destruct Hs as [qs Es]. apply mod0_ex in Hb; auto. destruct Hb as [qb Eb].
    destruct (c_so c) eqn:SO.
    + intros i j Hj Hi Hjn. split.
      * unfold c_addr. rewrite Ix, Es, Eb. apply mod0_ex in Hj; auto. destruct Hj as [qj ->].
        apply ex_mod0 with (qb + i * qs + qj); lia.
      * intros l Hl. pose proof (UP _ _ _ Hj Hjn Hl) as U. split; [|split].
        -- replace (c_addr SS c i j + l) with (c_addr SS c i (j + l)) by (unfold c_addr; rewrite !Ix; lia).
           apply AL, BP. split; auto.
        -- intros _. unfold c_addr. rewrite !Ix. lia.
        -- intros i' j' Hi' Hj' N E. unfold c_addr in E. rewrite !Ix in E. rewrite Sp in E.
           destruct (nextMultiple_spec (c_cols c) SS HSS) as (A & _ & _).
           destruct (Nat.lt_gt_cases i' i) as [D _]. destruct (D N); nia.
    + intros i j Hj Hi Hjn. split.
      * unfold c_addr. rewrite Ix, Es, Eb. apply mod0_ex in Hj; auto. destruct Hj as [qj ->].
        apply ex_mod0 with (qb + j * qs + qj); lia.
      * intros l Hl. pose proof (UP _ _ _ Hj Hi Hl) as U. split; [|split].
        -- replace (c_addr SS c i j + l) with (c_addr SS c (i + l) j) by (unfold c_addr; rewrite !Ix; lia).
           apply AL, BP. split; auto.
        -- intros _. unfold c_addr. rewrite !Ix. lia.
        -- intros i' j' Hi' Hj' N E. unfold c_addr in E. rewrite !Ix in E. rewrite Sp in E.
           destruct (nextMultiple_spec (c_rows c) SS HSS) as (A & _ & _).
           destruct (Nat.lt_gt_cases j' j) as [D _]. destruct (D N); nia.
Qed.

Example C02_example : let c := Cont Dense false columnMajor 5 3 8 in
  c_base c mod 4 = 0 /\ c_capacity 4 c = 24 /\ c_addr 4 c 4 2 = 28 /\ c_alloc 4 c 31 = true /\ c_alloc 4 c 32 = false.
Proof. vm_compute. auto. Qed.

(* ------------------------------------------------------------------ C03 *)
(** Distinct addresses inside the buffer; each column of each panel is one aligned, allocated SIMD vector. *)
Theorem C03_panel_storage : forall SS c, 0 < SS -> c_kind c = Panel -> c_base c mod SS = 0 ->
  distinct (c_rows c) (c_cols c) (c_addr SS c) /\
  allocated (c_alloc SS c) (c_rows c) (c_cols c) (c_addr SS c) /\
  match c_so c with
  | columnMajor => forall q j, q * SS < c_rows c -> j < c_cols c ->
      c_addr SS c (q * SS) j mod SS = 0 /\
      forall l, l < SS -> c_addr SS c (q * SS + l) j = c_addr SS c (q * SS) j + l /\
                          c_alloc SS c (c_addr SS c (q * SS) j + l) = true
  | rowMajor => forall i q, i < c_rows c -> q * SS < c_cols c ->
      c_addr SS c i (q * SS) mod SS = 0 /\
      forall l, l < SS -> c_addr SS c i (q * SS + l) = c_addr SS c i (q * SS) + l /\
                          c_alloc SS c (c_addr SS c i (q * SS) + l) = true
  end.
Proof.
  intros SS c HSS K Hb.
  assert (AL : forall i j, c_index SS c i j < c_capacity SS c -> c_alloc SS c (c_addr SS c i j) = true).
  { intros i j H. unfold c_alloc, c_addr. apply andb_true_intro. split; [apply Nat.leb_le|apply Nat.ltb_lt]; lia. }
  split; [|split].
  - intros i j i' j' Hi Hj Hi' Hj' E. apply (c_index_inj SS HSS c); auto. unfold c_addr in E. lia.
  - intros i j Hi Hj. apply AL. apply c_index_bound; auto.
  - pose proof (c_spacing_mod SS HSS c) as Hs.
    assert (Ix : forall i j, c_index SS c i j = match c_so c with
       | columnMajor => i / SS * c_spacing SS c + i mod SS + j * SS
       | rowMajor => j / SS * c_spacing SS c + j mod SS + i * SS end)
      by (intros; unfold c_index; rewrite K; destruct (c_so c); reflexivity).
    pose proof (c_index_bound_pad SS HSS c) as BP.
    assert (UP : forall n q l, q * SS < n -> l < SS -> q * SS + l < nextMultiple n SS).
    { intros n q l H2 H3. destruct (nextMultiple_spec n SS HSS) as (A & B & C).
      apply mod0_ex in B; auto. destruct B as [q' Eq]. rewrite Eq. rewrite Eq in A. assert (q < q') by nia. nia. }
    apply mod0_ex in Hs; auto. destruct Hs as [qs Es]. apply mod0_ex in Hb; auto. destruct Hb as [qb Eb].
    assert (D : forall q l, l < SS -> (q * SS + l) / SS = q /\ (q * SS + l) mod SS = l).
    { intros q l Hl. rewrite (Nat.mul_comm q SS). rewrite div_q, mod_q; auto. }
    assert (D0 : forall q, q * SS / SS = q /\ (q * SS) mod SS = 0).
    { intros q. destruct (D q 0 HSS). rewrite Nat.add_0_r in *. auto. }
    destruct (c_so c) eqn:SO.
    + intros i q Hi Hj.
      destruct (D0 q) as [X Y].
      split.
      * unfold c_addr. rewrite Ix, X, Y, Es, Eb. apply ex_mod0 with (qb + q * qs + i); lia.
      * intros l Hl. destruct (D q l Hl) as [X' Y'].
        assert (E : c_addr SS c i (q * SS + l) = c_addr SS c i (q * SS) + l)
          by (unfold c_addr; rewrite !Ix, X, Y, X', Y'; lia).
        split; auto. rewrite <- E. apply AL, BP. split; auto.
    + intros q j Hi Hj.
      destruct (D0 q) as [X Y].
      split.
      * unfold c_addr. rewrite Ix, X, Y, Es, Eb. apply ex_mod0 with (qb + q * qs + j); lia.
      * intros l Hl. destruct (D q l Hl) as [X' Y'].
        assert (E : c_addr SS c (q * SS + l) j = c_addr SS c (q * SS) j + l)
          by (unfold c_addr; rewrite !Ix, X, Y, X', Y'; lia).
        split; auto. rewrite <- E. apply AL, BP. split; auto.
Qed.

Example C03_example : let c := Cont Panel true columnMajor 5 3 8 in
  c_base c mod 4 = 0 /\ c_capacity 4 c = 24 /\ c_addr 4 c 4 2 = 28 /\ c_addr 4 c 3 2 = 19 /\ c_alloc 4 c 31 = true.
Proof. vm_compute. auto. Qed.

(* ------------------------------------------------------------------ C04 *)
Theorem C04_element_write_local : forall SS T c (m : mem T) i j v, 0 < SS ->
  i < c_rows c -> j < c_cols c ->
  exists m', c_set SS (c_alloc SS c) c m i j v = Ok m' /\
    c_get SS (c_alloc SS c) c m' i j = Ok v /\
    (forall i' j', i' < c_rows c -> j' < c_cols c -> (i', j') <> (i, j) ->
       c_get SS (c_alloc SS c) c m' i' j' = c_get SS (c_alloc SS c) c m i' j') /\
    (forall a, a <> c_addr SS c i j -> m' a = m a).
Proof.
  intros SS T c m i j v HSS Hi Hj.
  assert (AL : c_alloc SS c (c_addr SS c i j) = true).
  { pose proof (c_index_bound SS HSS c i j Hi Hj). unfold c_alloc, c_addr.
    apply andb_true_intro. split; [apply Nat.leb_le|apply Nat.ltb_lt]; lia. }
  exists (mupd m (c_addr SS c i j) v). unfold c_set, c_get, wr, rd. rewrite AL.
  split; [reflexivity|]. split; [unfold mupd; rewrite Nat.eqb_refl; reflexivity|]. split.
  - intros i' j' Hi' Hj' N. unfold mupd.
    destruct (Nat.eqb_spec (c_addr SS c i' j') (c_addr SS c i j)) as [E|E]; auto.
    exfalso. apply N. unfold c_addr in E. destruct (c_index_inj SS HSS c i' j' i j) as [-> ->]; auto. lia.
  - intros a N. unfold mupd. destruct (Nat.eqb_spec a (c_addr SS c i j)); auto; contradiction.
Qed.

Example C04_example : let c := Cont Panel false rowMajor 3 6 0 in 2 < c_rows c /\ 5 < c_cols c /\
  c_get 4 (c_alloc 4 c) c (fun a => a) 2 5 = Ok 21.
Proof. vm_compute. auto. Qed.

(* ------------------------------------------------------------------ C05 *)
(** "The index along the contiguous direction": rows for column-major, columns for row-major. *)
Definition major (so : order) (i j : nat) : nat := match so with columnMajor => i | rowMajor => j end.

(** Condition on an access through ptr<AF>(view, i, j)(k, l): none for dense matrices nor for unaligned pointers;
    aligned panel pointers need an origin, base and offset that are multiples of the panel size. *)
Definition aligned_use (SS : nat) (af : bool) (v : view) (x y : nat) : Prop :=
  c_kind (v_cont v) = Panel -> af = true ->
  major (c_so (v_cont v)) (v_i v) (v_j v) mod SS = 0 /\ major (c_so (v_cont v)) x y mod SS = 0.

(** The pointer ptr<AF>(view, i, j) reads element (i+k, j+l) of the view at offset (k, l); so does the
    pointer moved in two steps, and its unaligned version. *)
Theorem C05_pointer_offsets : forall SS af v i j, 0 < SS -> c_base (v_cont v) mod SS = 0 ->
  (af = true -> major (c_so (v_cont v)) (v_i v) (v_j v) mod SS = 0 /\ major (c_so (v_cont v)) i j mod SS = 0) ->
  let p := v_ptr SS af v i j in
  (forall k l, addr SS p k l = v_addr SS v (i + k) (j + l)) /\
  (forall k l k' l', aligned_use SS af v k l ->
     addr SS (poff SS p k l) k' l' = v_addr SS v (i + k + k') (j + l + l')) /\
  (forall k l, addr SS (punalign SS p) k l = v_addr SS v (i + k) (j + l)).
Proof.
  intros SS af v i j HSS Hb Ha p.
  assert (Hwf : mptr_wf SS p).
  { apply v_ptr_wf; auto. intros A. destruct (Ha A) as [A1 A2]. unfold major in *. destruct (c_so (v_cont v)); split; auto.
    - rewrite Nat.add_mod by lia. rewrite A1, A2. apply Nat.mod_0_l. lia.
    - rewrite Nat.add_mod by lia. rewrite A1, A2. apply Nat.mod_0_l. lia. }
  assert (B : forall k l, addr SS p k l = v_addr SS v (i + k) (j + l)).
  { intros k l. apply v_ptr_addr; auto. }
  split; [exact B|split].
  - intros k l k' l' Hu. rewrite addr_poff; auto.
    + rewrite B. f_equal; lia.
    + intros K A. cbn [p v_ptr mp_kind mp_af mp_so] in *. apply Hu; auto.
  - intros k l. rewrite addr_punalign by auto. apply B.
Qed.

Example C05_example : let v := submatrix true (Cont Panel false columnMajor 9 7 16) 4 3 5 4 in
  c_base (v_cont v) mod 4 = 0 /\ major columnMajor (v_i v) (v_j v) mod 4 = 0 /\
  addr 4 (v_ptr 4 true v 0 2) 4 1 = v_addr 4 v 4 3 /\ addr 4 (v_ptr 4 false v 3 2) 1 1 = v_addr 4 v 4 3.
Proof. vm_compute. auto. Qed.

(* ------------------------------------------------------------------ C06 *)
Theorem C06_transpose_pointer : forall SS p i j, 0 < SS ->
  addr SS (ptrans SS p) i j = addr SS p j i /\ ptrans SS (ptrans SS p) = p.
Proof.
  intros SS p i j HSS. split; [apply addr_ptrans; auto|].
  destruct p as [k so af pf b sp]. unfold ptrans. cbn [mp_kind mp_so mp_af mp_base mp_sp mp_pf].
  rewrite !ptr_offset_00 by auto. f_equal. destruct so; reflexivity.
Qed.

(** trans(M): element (i,j) is element (j,i) of M, sizes are exchanged, and the pointer obtained from the
    expression addresses exactly these elements. *)
Theorem C06_transpose_expression : forall SS t af i j k l, 0 < SS -> c_base (v_cont (t_op t)) mod SS = 0 ->
  t_addr SS t i j = v_addr SS (t_op t) j i /\ t_rows t = v_n (t_op t) /\ t_cols t = v_m (t_op t) /\
  (aligned_use SS af (t_op t) j i -> addr SS (t_ptr SS af t i j) k l = v_addr SS (t_op t) (j + l) (i + k)).
Proof.
  intros SS t af i j k l HSS Hb. repeat split. intros H. rewrite t_ptr_addr; auto.
Qed.

Example C06_example : let t := TransExpr (whole (Cont Panel true rowMajor 5 6 0)) in
  addr 4 (t_ptr 4 true t 4 2) 1 3 = v_addr 4 (t_op t) 5 5 /\ t_rows t = 6.
Proof. vm_compute. auto. Qed.

(* ------------------------------------------------------------------ C07 *)
Theorem C07_moves_are_offsets : forall SS p d, 0 < SS -> (mp_kind p = Panel -> mp_base p mod SS = 0) ->
  hmove SS p d = poff SS p 0 d /\ vmove SS p d = poff SS p d 0.
Proof. intros SS p d HSS H. split; [apply hmove_eq|apply vmove_eq]; auto. Qed.

(** The moves that do not run along the panel are right for every pointer. *)
Theorem C07_moves_across : forall SS p d, 0 < SS ->
  (mp_so p = columnMajor -> hmove SS p d = poff SS p 0 d) /\ (mp_so p = rowMajor -> vmove SS p d = poff SS p d 0).
Proof. intros SS p d HSS. split; intros H; [apply hmove_cm|apply vmove_rm]; auto. Qed.

(** An unaligned panel pointer at row 1 of a panel of 4 rows moved down by 3 rows should reach row 4 (the next
    panel); the code moves it to row 0 of the next column instead. *)
Theorem C07_unaligned_panel_move_refuted : exists p d,
  mptr_wf 4 p /\ mp_kind p = Panel /\ mp_af p = false /\
  mp_base (vmove 4 p d) <> addr 4 p d 0 /\ mp_base (vmove 4 p d) = addr 4 (MPtr Panel columnMajor false true 0 20) 0 1 /\
  addr 4 p d 0 = addr 4 (MPtr Panel columnMajor false true 0 20) 4 0.
Proof.
  exists (MPtr Panel columnMajor false true 1 20), 3. repeat split; try discriminate; reflexivity.
Qed.

Example C07_example : hmove 4 (MPtr Panel rowMajor true true 16 24) 5 = poff 4 (MPtr Panel rowMajor true true 16 24) 0 5.
Proof. reflexivity. Qed.

(* ------------------------------------------------------------------ C08 *)
(** The window of a view lies inside its container. *)
Definition inside (v : view) : Prop := v_i v + v_m v <= c_rows (v_cont v) /\ v_j v + v_n v <= c_cols (v_cont v).

Theorem C08_submatrix : forall SS c r cl m n af i j,
  v_addr SS (submatrix af c r cl m n) i j = c_addr SS c (r + i) (cl + j).
Proof. reflexivity. Qed.

(** Any nesting of submatrix(...) is the submatrix at the summed offsets. *)
Theorem C08_nested_submatrix : forall SS af l v i j,
  let w := fold_left (fun v s => let '(r, cl, m, n) := s in subsubmatrix af v r cl m n) l v in
  let off f := fold_right (fun s acc => f s + acc) 0 l in
  v_addr SS w i j = c_addr SS (v_cont v)
     (v_i v + off (fun s => fst (fst (fst s))) + i) (v_j v + off (fun s => snd (fst (fst s))) + j).
Proof.
  intros SS af l. induction l as [|[[[r cl] m] n] l IH]; intros v i j; cbn [fold_left fold_right].
  - unfold v_addr. f_equal; lia.
  - cbn zeta in *. rewrite IH. cbn [subsubmatrix v_cont v_i v_j fst snd]. f_equal; lia.
Qed.

(** Writing view(i,j) changes exactly element (v_i+i, v_j+j) of the viewed container. *)
Theorem C08_view_write : forall SS T v (mm : mem T) i j x, 0 < SS -> inside v -> i < v_m v -> j < v_n v ->
  let c := v_cont v in
  exists mm', v_set SS (c_alloc SS c) v mm i j x = Ok mm' /\
    c_get SS (c_alloc SS c) c mm' (v_i v + i) (v_j v + j) = Ok x /\
    (forall i' j', i' < c_rows c -> j' < c_cols c -> (i', j') <> (v_i v + i, v_j v + j) ->
       c_get SS (c_alloc SS c) c mm' i' j' = c_get SS (c_alloc SS c) c mm i' j').
Proof.
  intros SS T v mm i j x HSS [H1 H2] Hi Hj c.
  destruct (C04_element_write_local SS T c mm (v_i v + i) (v_j v + j) x HSS) as (m' & E & A & B & _).
  - fold c in H1. lia.
  - fold c in H2. lia.
  - exists m'. split; [exact E|]. split; auto.
Qed.

Lemma nested_for : forall {T} al (ad : locations) (e : nat -> nat -> T) M N (m0 : mem T),
  distinct M N ad -> allocated al M N ad ->
  exists m', for_ 0 M (fun i m => for_ 0 N (fun j m => wr al m (ad i j) (e i j)) m) m0 = Ok m' /\
    updated (block M N) ad e m0 m'.
Proof.
  intros T al ad e M N m0 Hd Ha.
  destruct (for_inv (mem T) (fun k m => updated (block k N) ad e m0 m) 0 M
    (fun i m => for_ 0 N (fun j m => wr al m (ad i j) (e i j)) m) m0) as (m' & E & H).
  - lia.
  - split; [intros i j [X _]; lia|auto].
  - intros i m1 Hi [A B].
    destruct (for_inv (mem T) (fun k m => updated (fun i' j' => block i N i' j' \/ (i' = i /\ j' < k)) ad e m0 m) 0 N
      (fun j m => wr al m (ad i j) (e i j)) m1) as (m2 & E2 & H2).
    + lia.
    + split.
      * intros i' j' [X|[_ X]]; [auto|lia].
      * intros a X. apply B. intros. apply X. auto.
    + intros j m2 Hj [A2 B2]. unfold wr. rewrite Ha by lia. eexists. split; [reflexivity|]. split.
      * intros i' j' X. unfold mupd. destruct (Nat.eqb_spec (ad i' j') (ad i j)) as [Ea|Ea].
        -- destruct (Hd i' j' i j) as [-> ->]; auto; try lia; destruct X as [[X Y]|[X Y]]; lia.
        -- apply A2. destruct X as [X|[-> X]]; auto. right. split; auto.
           assert (j' <> j) by (intros ->; contradiction). lia.
      * intros a X. unfold mupd. destruct (Nat.eqb_spec a (ad i j)) as [Ea|Ea].
        -- exfalso. apply (X i j); auto.
        -- apply B2. intros i' j' Y. apply X. destruct Y as [Y|[-> Y]]; auto.
    + exists m2. split; auto. destruct H2 as [A2 B2]. split.
      * intros i' j' [X Y]. apply A2. destruct (Nat.eq_dec i' i); [right|left]; [auto|split; lia].
      * intros a X. apply B2. intros i' j' Y. apply X. destruct Y as [[Y Z]|[-> Y]]; split; lia.
  - eauto.
Qed.

(** reset(view) zeroes exactly the window. *)
Theorem C08_view_reset : forall SS T (O : Ops T) v mm, 0 < SS -> inside v ->
  exists mm', v_reset SS (c_alloc SS (v_cont v)) O v mm = Ok mm' /\
    updated (block (v_m v) (v_n v)) (fun i j => c_addr SS (v_cont v) (v_i v + i) (v_j v + j)) (fun _ _ => o0 O) mm mm'.
Proof.
  intros SS T O v mm HSS [H1 H2].
  apply (nested_for (c_alloc SS (v_cont v)) (fun i j => c_addr SS (v_cont v) (v_i v + i) (v_j v + j)) (fun _ _ => o0 O)).
  - intros i j i' j' Hi Hj Hi' Hj' E. unfold c_addr in E.
    destruct (c_index_inj SS HSS (v_cont v) (v_i v + i) (v_j v + j) (v_i v + i') (v_j v + j')); lia.
  - intros i j Hi Hj. pose proof (c_index_bound SS HSS (v_cont v) (v_i v + i) (v_j v + j) ltac:(lia) ltac:(lia)).
    unfold c_alloc, c_addr. apply andb_true_intro. split; [apply Nat.leb_le|apply Nat.ltb_lt]; lia.
Qed.

(** row(M, i, c, n)[k] is M(i, c + k); subvector composes; reset(row) zeroes exactly the row part. *)
Theorem C08_row : forall SS c i j n k, r_addr SS (row_part c i j n) k = c_addr SS c i (j + k) /\
  r_addr SS (row_of c i) k = c_addr SS c i k /\
  (forall j' n', r_addr SS (subvector (row_part c i j n) j' n') k = c_addr SS c i (j + j' + k)).
Proof. intros. repeat split. Qed.

Theorem C08_row_reset : forall SS T (O : Ops T) r (mm : mem T), 0 < SS ->
  r_i r < c_rows (r_cont r) -> r_j r + r_n r <= c_cols (r_cont r) ->
  exists mm', r_reset SS (c_alloc SS (r_cont r)) O r mm = Ok mm' /\
    updated (block 1 (r_n r)) (fun _ k => c_addr SS (r_cont r) (r_i r) (r_j r + k)) (fun _ _ => o0 O) mm mm'.
Proof.
  intros SS T O r mm HSS H1 H2.
  destruct (nested_for (c_alloc SS (r_cont r)) (fun i k => c_addr SS (r_cont r) (r_i r + i) (r_j r + k)) (fun _ _ => o0 O) 1 (r_n r) mm)
    as (m' & E & [A B]).
  - intros i j i' j' Hi Hj Hi' Hj' E. unfold c_addr in E.
    destruct (c_index_inj SS HSS (r_cont r) (r_i r + i) (r_j r + j) (r_i r + i') (r_j r + j')); lia.
  - intros i j Hi Hj. pose proof (c_index_bound SS HSS (r_cont r) (r_i r + i) (r_j r + j) ltac:(lia) ltac:(lia)).
    unfold c_alloc, c_addr. apply andb_true_intro. split; [apply Nat.leb_le|apply Nat.ltb_lt]; lia.
  - exists m'. split.
    + unfold for_ in E at 1. cbn [Nat.sub loop] in E. unfold r_reset, r_addr.
      rewrite Nat.add_0_r in E. destruct (for_ 0 (r_n r) _ mm); cbn [bind] in E; exact E.
    + split.
      * intros i j [X Y]. specialize (A i j (conj X Y)). replace (r_i r + i) with (r_i r) in A by lia. exact A.
      * intros a X. apply B. intros i j [Y Z]. replace (r_i r + i) with (r_i r) by lia. apply (X i j). split; auto.
Qed.

Example C08_example : let v := submatrix false (Cont Dense false rowMajor 6 7 0) 1 2 4 3 in inside v /\ v_addr 4 v 3 2 = 36.
Proof. unfold inside. vm_compute. repeat split; lia. Qed.

(* ------------------------------------------------------------------ C42 *)
(** Strided pointers: offset i, element k is element i+k at distance (i+k)*spacing; row(p)/column(p) walk the
    matrix; the transposed and the unaligned vector pointers address the same elements. *)
Theorem C42_strided_vector_pointers : forall SS s af b i k,
  vaddr SS (voff SS (VStat s af b) i) k = b + (i + k) * s /\
  vaddr SS (voff SS (VDyn s b) i) k = b + (i + k) * s /\
  vaddr SS (vunalign SS (VStat s af b)) k = b + k * s /\
  vaddr SS (vtrans SS (VDyn s b)) k = b + k * s.
Proof. intros. cbn [vaddr voff vunalign vtrans]. repeat split; lia. Qed.

Theorem C42_row_column_vector_pointers : forall SS p i k, 0 < SS -> mptr_wf SS p ->
  ((mp_kind p = Panel -> mp_af p = true -> mp_so p = columnMajor -> i mod SS = 0) ->
     vaddr SS (voff SS (VMat columnVector p) i) k = addr SS p (i + k) 0) /\
  ((mp_kind p = Panel -> mp_af p = true -> mp_so p = rowMajor -> i mod SS = 0) ->
     vaddr SS (voff SS (VMat rowVector p) i) k = addr SS p 0 (i + k)) /\
  vaddr SS (vunalign SS (VMat columnVector p)) k = addr SS p k 0 /\
  vaddr SS (vunalign SS (VMat rowVector p)) k = addr SS p 0 k /\
  vaddr SS (vtrans SS (VMat columnVector p)) k = addr SS p k 0 /\
  vaddr SS (vtrans SS (VMat rowVector p)) k = addr SS p 0 k.
Proof.
  intros SS p i k HSS Hwf.
  cbn [vaddr voff vunalign vtrans tflag_neg].
  rewrite !addr_punalign, !addr_ptrans by auto. repeat split; auto.
  - intros H. rewrite addr_poff; auto. intros K A. destruct (mp_so p); auto. apply Nat.mod_0_l. lia.
  - intros H. rewrite addr_poff; auto. intros K A. destruct (mp_so p); auto. apply Nat.mod_0_l. lia.
Qed.

(** Through row(ptr(m)) and column(ptr(m)) of a view. *)
Theorem C42_view_rows_columns : forall SS v i j k, 0 < SS -> c_base (v_cont v) mod SS = 0 ->
  vaddr SS (VMat columnVector (v_ptr SS false v i j)) k = v_addr SS v (i + k) j /\
  vaddr SS (VMat rowVector (v_ptr SS false v i j)) k = v_addr SS v i (j + k).
Proof.
  intros SS v i j k HSS Hb. cbn [vaddr].
  rewrite !v_ptr_addr by (auto; discriminate). rewrite !Nat.add_0_r. auto.
Qed.

Example C42_example : let v := submatrix false (Cont Panel false columnMajor 9 7 16) 3 1 5 4 in
  c_base (v_cont v) mod 4 = 0 /\ vaddr 4 (VMat columnVector (v_ptr 4 false v 0 2)) 4 = v_addr 4 v 4 2.
Proof. vm_compute. auto. Qed.
