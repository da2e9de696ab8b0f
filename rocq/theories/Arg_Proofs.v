(** Arg_Proofs.v -- matrix arguments (containers, windows of containers, their transposes): preconditions in terms of
    the API and what they imply for the pointers the algorithms work with. *)
From Coq Require Import Arith Lia List Bool PeanoNat.
From Verif Require Import Base Spec Layout_Model Layout_Proofs Simd_Model Simd_Proofs Reg_Model Reg_Proofs Gemm_Model.
Import ListNotations.

(** Index along which the elements of a matrix are contiguous. *)
Definition major_of (so : order) (i j : nat) : nat := match so with columnMajor => i | rowMajor => j end.

(** A matrix argument: the container's buffer is aligned, the window lies inside the container, and a window declared
    aligned starts at a multiple of the SIMD size. *)
Definition arg_ok (SS : nat) (a : marg) : Prop :=
  let v := g_view a in let c := v_cont v in
  c_base c mod SS = 0 /\ v_i v + v_m v <= c_rows c /\ v_j v + v_n v <= c_cols c /\
  (v_af v = true -> major_of (c_so c) (v_i v) (v_j v) mod SS = 0).
(** The window starts at a multiple of the SIMD size. *)
Definition at_panel (SS : nat) (a : marg) : Prop :=
  let v := g_view a in major_of (c_so (v_cont v)) (v_i v) (v_j v) mod SS = 0.
Definition is_panel (a : marg) : Prop := c_kind (v_cont (g_view a)) = Panel.
(** The buffer of the argument's container is allocated. *)
Definition live (SS : nat) (al : alloc) (a : marg) : Prop :=
  forall x, c_alloc SS (v_cont (g_view a)) x = true -> al x = true.

Section Args.
Variable SS : nat.
Hypothesis HSS : 0 < SS.

Lemma g_ptr_so : forall a, mp_so (g_ptr SS a) = g_so a.
Proof. intros [v t]. unfold g_ptr, g_so. cbn. destruct t; reflexivity. Qed.
Lemma g_ptr_kind : forall a, mp_kind (g_ptr SS a) = c_kind (v_cont (g_view a)).
Proof. intros [v t]. unfold g_ptr. cbn. destruct t; reflexivity. Qed.
Lemma g_ptr_af : forall a, mp_af (g_ptr SS a) = v_af (g_view a).
Proof. intros [v t]. unfold g_ptr. cbn. destruct t; reflexivity. Qed.

Lemma t_ptr_eq : forall af v, t_ptr SS af (TransExpr v) 0 0 = ptrans SS (v_ptr SS af v 0 0).
Proof.
  intros. unfold t_ptr, ptrans, v_ptr. cbn [t_op mp_kind mp_so mp_af mp_pf mp_base mp_sp].
  rewrite !ptr_offset_00 by auto. reflexivity.
Qed.

Lemma g_ptr_wf : forall a, arg_ok SS a -> mptr_wf SS (g_ptr SS a).
Proof.
  intros [v t] (H1 & H2 & H3 & H4). cbn [g_view] in *. unfold g_ptr. cbn [g_view g_trans].
  assert (W : mptr_wf SS (v_ptr SS (v_af v) v 0 0)).
  { apply v_ptr_wf; auto. intros A. unfold major_of in H4. rewrite !Nat.add_0_r.
    destruct (c_so (v_cont v)); split; auto; apply Nat.mod_0_l; lia. }
  destruct t; [|exact W]. rewrite t_ptr_eq. apply ptrans_wf; auto.
Qed.

Lemma g_ptr_addr : forall a i j, arg_ok SS a -> addr SS (g_ptr SS a) i j = g_addr SS a i j.
Proof.
  intros [v t] i j (H1 & H2 & H3 & H4). cbn [g_view] in *. unfold g_ptr, g_addr. cbn [g_view g_trans].
  assert (W : forall i j, addr SS (v_ptr SS (v_af v) v 0 0) i j = v_addr SS v i j).
  { intros. rewrite (v_ptr_addr SS HSS (v_af v) v 0 0); auto. intros _ A. unfold major_of in H4.
    destruct (c_so (v_cont v)); split; auto; apply Nat.mod_0_l; lia. }
  destruct t; [|apply W]. rewrite t_ptr_eq, addr_ptrans by auto. apply W.
Qed.

Lemma g_ptr_lane : forall a, arg_ok SS a -> (is_panel a -> at_panel SS a) -> lane_ok SS (g_ptr SS a).
Proof.
  intros a Ha Hp K. rewrite g_ptr_kind in K. specialize (Hp K).
  rewrite <- (addr_00 SS HSS), g_ptr_addr by auto.
  destruct a as [v t]. destruct Ha as (H1 & H2 & H3 & H4). unfold is_panel, at_panel, major_of in *. cbn [g_view] in *.
  assert (X : v_addr SS v 0 0 mod SS = 0).
  { unfold v_addr, c_addr, c_index. rewrite K, !Nat.add_0_r. pose proof (c_spacing_mod SS HSS (v_cont v)) as Hs.
    apply mod0_ex in H1; auto. apply mod0_ex in Hs; auto. apply mod0_ex in Hp; auto.
    destruct H1 as [qb ->], Hs as [qs ->], Hp as [q E].
    destruct (c_so (v_cont v)) in E |- *.
    - replace (v_j v) with (SS * q + 0) by lia. rewrite (div_q SS q 0), (mod_q SS q 0) by lia. apply ex_mod0 with (qb + q * qs + v_i v); lia.
    - replace (v_i v) with (SS * q + 0) by lia. rewrite (div_q SS q 0), (mod_q SS q 0) by lia. apply ex_mod0 with (qb + q * qs + v_j v); lia. }
  unfold g_addr. cbn [g_view g_trans]. destruct t; exact X.
Qed.

Lemma g_ptr_store : forall a, (is_panel a -> v_af (g_view a) = true) -> store_ok (g_ptr SS a).
Proof. intros a H K. rewrite g_ptr_kind in K. rewrite g_ptr_af. auto. Qed.

Lemma g_distinct : forall a, arg_ok SS a -> distinct (g_rows a) (g_cols a) (g_addr SS a).
Proof.
  intros [v t] (H1 & H2 & H3 & H4) i j i' j' Hi Hj Hi' Hj' E. unfold g_rows, g_cols, g_addr in *. cbn [g_view g_trans] in *.
  destruct t; unfold v_addr, c_addr in E; apply Nat.add_cancel_l in E; apply (c_index_inj SS HSS) in E; lia.
Qed.

Lemma live_index : forall al a x y, live SS al a -> c_index SS (v_cont (g_view a)) x y < c_capacity SS (v_cont (g_view a)) ->
  al (c_addr SS (v_cont (g_view a)) x y) = true.
Proof.
  intros al a x y H B. apply H. unfold c_alloc, c_addr. apply andb_true_intro. split; [apply Nat.leb_le|apply Nat.ltb_lt]; lia.
Qed.

Lemma g_allocated : forall al a, arg_ok SS a -> live SS al a -> allocated al (g_rows a) (g_cols a) (g_addr SS a).
Proof.
  intros al [v t] (H1 & H2 & H3 & H4) HL i j Hi Hj. unfold g_rows, g_cols, g_addr in *. cbn [g_view g_trans] in *.
  destruct t; apply (live_index al (MArg v true) _ _ HL) || apply (live_index al (MArg v false) _ _ HL);
    cbn [g_view]; apply c_index_bound; auto; lia.
Qed.

(** The padding: a window starting at a multiple of the SIMD size may be accessed up to the next multiple of the
    SIMD size in the contiguous direction. *)
Lemma g_allocated_pad : forall al a, arg_ok SS a -> live SS al a -> at_panel SS a -> g_so a = columnMajor ->
  allocated al (nextMultiple (g_rows a) SS) (g_cols a) (g_addr SS a).
Proof.
  intros al [v t] (H1 & H2 & H3 & H4) HL Hp Hs i j Hi Hj. unfold g_rows, g_cols, g_addr, g_so, at_panel, major_of in *.
  cbn [g_view g_trans] in *.
  assert (UP : forall o n tot x, o mod SS = 0 -> o + n <= tot -> x < nextMultiple n SS -> o + x < nextMultiple tot SS).
  { intros o n tot x Ho Hn Hx. destruct (nextMultiple_spec tot SS HSS) as (A & B & C).
    apply mod0_ex in Ho; auto. apply mod0_ex in B; auto. destruct Ho as [q ->], B as [q' B].
    assert (nextMultiple n SS <= SS * (q' - q)) by (apply nextMultiple_least; [auto|nia|rewrite Nat.mul_comm; apply Nat.mod_mul; lia]).
    assert (q <= q') by nia. nia. }
  destruct t.
  - apply (live_index al (MArg v true) _ _ HL). cbn [g_view]. apply c_index_bound_pad; auto.
    destruct (c_so (v_cont v)); [|discriminate]. split; [lia|]. apply UP with (v_m v + v_n v - v_m v); auto; lia || idtac.
    replace (v_m v + v_n v - v_m v) with (v_n v) by lia. exact Hi.
  - apply (live_index al (MArg v false) _ _ HL). cbn [g_view]. apply c_index_bound_pad; auto.
    destruct (c_so (v_cont v)); [discriminate|]. split; [|lia]. apply UP with (v_m v); auto.
Qed.
End Args.
