(** Properties_Overlap.v -- C81: products that replace one of their factors; C73: the storage order matters to the last bit. *)
From Coq Require Import Arith Lia List Bool PeanoNat ZArith.
From Verif Require Import Base Base_Proofs Spec Algebra_Proofs Instances Layout_Model Layout_Proofs Simd_Model Simd_Proofs
  Reg_Model Reg_Proofs Tile_Model Tile_Proofs TileOrder_Proofs Gemm_Model Gemm_Proofs Arg_Proofs Properties_Gemm Properties_Compose.
Import ListNotations.

(** Operands of gemm that satisfy everything gemm_pre asks for except that D is apart from A and B. *)
Record gemm_pre_overlap (SS : nat) (al : alloc) (A B C D : marg) : Prop := {
  ov_A : arg_ok SS A; ov_B : arg_ok SS B; ov_C : arg_ok SS C; ov_D : arg_ok SS D;
  ov_soA : g_so A = columnMajor; ov_soC : g_so C = columnMajor; ov_soD : g_so D = columnMajor;
  ov_panA : is_panel A -> at_panel SS A; ov_panD : is_panel D -> v_af (g_view D) = true;
  ov_szB : g_rows B = g_cols A;
  ov_szC : g_rows C = g_rows A /\ g_cols C = g_cols B; ov_szD : g_rows D = g_rows A /\ g_cols D = g_cols B;
  ov_alA : allocated al (nextMultiple (g_rows A) SS) (g_cols A) (g_addr SS A);
  ov_alB : allocated al (g_rows B) (g_cols B) (g_addr SS B);
  ov_alC : allocated al (nextMultiple (g_rows A) SS) (g_cols B) (g_addr SS C);
  ov_alD : allocated al (g_rows A) (g_cols B) (g_addr SS D);
  ov_sepC : forall i j i' j', block (g_rows A) (g_cols B) i j -> block (g_rows A) (g_cols B) i' j' ->
              g_addr SS D i j = g_addr SS C i' j' -> i = i' /\ j = j'
}.

(** How D may overlap A: not at all, or, if there are at most four columns, so that no element of D comes in a row of A other than its own. *)
Definition may_replace_left (SS : nat) (A B D : marg) : Prop :=
  separate (g_rows A) (g_cols B) (g_addr SS D) (g_rows A) (g_cols A) (g_addr SS A) \/
  (g_cols B <= 4 /\ forall i j i' k, i < g_rows A -> j < g_cols B -> i' < g_rows A -> k < g_cols A -> g_addr SS D i j = g_addr SS A i' k -> i = i').
(** How D may overlap B: not at all, or, if the rows fit one register, so that no element of D comes in a column of B other than its own. *)
Definition may_replace_right (SS : nat) (A B D : marg) : Prop :=
  separate (g_rows A) (g_cols B) (g_addr SS D) (g_rows B) (g_cols B) (g_addr SS B) \/
  (g_rows A <= SS /\ forall i j k j', i < g_rows A -> j < g_cols B -> k < g_rows B -> j' < g_cols B -> g_addr SS D i j = g_addr SS B k j' -> j = j').

(** gemm then computes what it computes with the old contents of A, B and C. *)
Theorem C81_gemm_overlap : forall SS T (O : Ops T) al alpha A B beta C D m, 0 < SS -> gemm_pre_overlap SS al A B C D ->
  may_replace_left SS A B D -> may_replace_right SS A B D ->
  exists m', gemm SS T O al alpha A B beta C D m = Ok m' /\
    updated (block (g_rows A) (g_cols B)) (g_addr SS D)
      (fun i j => ofma O beta (m (g_addr SS C i j))
         (omul O (fma_chain O (g_cols A) (fun k => m (g_addr SS A i k)) (fun k => m (g_addr SS B k j)) (o0 O)) alpha)) m m'.
Proof.
  intros SS T O al alpha A B beta C D m HSS [hA hB hC hD sA sC sD pA pD zB [zC1 zC2] [zD1 zD2] aA aB aC aD xC] RA RB.
  unfold gemm, gemm_ptr. rewrite zB, zC1, zC2, zD1, zD2, !Nat.eqb_refl, g_ptr_so, sD. cbn [negb andb order_eqb].
  set (M := g_rows A) in *. set (N := g_cols B) in *. set (K := g_cols A) in *.
  destruct (tile_ok_disj_cover SS HSS TILE_STEP ltac:(unfold TILE_STEP; lia) (cachePreferredTraversal (g_ptr SS D)) M N) as (TA & TB & TC).
  apply (tiled_in_order call T _ _ in_call (block M N) (g_addr SS D)).
  - intros c i j Hc Hij. apply TA in Hc. unfold call_ok, in_call, block in *. lia.
  - intros i j [Hi Hj]. apply TC; auto.
  - intros i j i' j' [] [] X. apply (g_distinct SS HSS D hD); unfold M, N in *; try lia; auto.
  - eapply FOP_impl; [|exact TB]. intros c d X i j Y Z. apply (X i j); auto.
  - intros pre c post m1 El Hag.
    assert (Hc : In c (tile SS TILE_STEP (cachePreferredTraversal (g_ptr SS D)) M N)) by (rewrite El; apply in_or_app; right; left; reflexivity).
    assert (DJ : forall d i j, In d pre -> in_call d i j -> ~ in_call c i j).
    { intros d i j Hd H1 H2. destruct (FOP_split _ _ _ _ _ _ TB El) as [X _]. apply (X d Hd i j); auto. }
    assert (OKd : forall d, In d pre -> call_ok SS TILE_STEP M N d) by (intros d Hd; apply TA; rewrite El; apply in_or_app; auto).
    assert (Pre : forall d i j, In d pre -> in_call d i j -> i < M /\ j < N).
    { intros d i j Hd' Hij. assert (Id : In d (tile SS TILE_STEP (cachePreferredTraversal (g_ptr SS D)) M N)) by (rewrite El; apply in_or_app; auto).
      apply TA in Id. unfold call_ok, in_call in *. lia. }
    pose proof (TA c Hc) as (T1 & T2 & (q & T3) & (q' & T4) & T5 & T6 & T7 & T8 & T9 & T10 & T11).
    destruct (gemm_call_val SS HSS T O al M N K alpha (g_ptr SS A) (g_ptr SS B) beta (g_ptr SS C) (g_ptr SS D) m) with (c := c) (m := m1) as (m' & E & U1 & U2);
      auto using g_ptr_wf, g_ptr_lane, g_ptr_store; try (rewrite g_ptr_so; assumption).
    + intros i j Hi Hj. rewrite g_ptr_addr by auto. apply aA; auto.
    + intros i j Hi Hj. rewrite g_ptr_addr by auto. apply aB; auto. unfold K in *. lia.
    + intros i j Hi Hj. rewrite g_ptr_addr by auto. apply aC; auto.
    + intros i j Hi Hj. rewrite g_ptr_addr by auto. apply aD; auto.
    + intros i j i' j' Hi Hj Hi' Hj' X. rewrite !g_ptr_addr in X by auto. apply (g_distinct SS HSS D hD); unfold M, N in *; try lia; auto.
    + intros i k Hi Hk. rewrite g_ptr_addr by auto. apply Hag. intros d i' j' Hd Hij X. destruct (Pre d i' j' Hd Hij) as [P1 P2]. symmetry in X. destruct RA as [RA|[N4 RA]].
      * apply (RA i' j' i k) in X; auto. lia.
      * apply RA in X; auto; [|lia]. subst i'. destruct (OKd d Hd) as (_ & _ & _ & (r & R4) & _ & R6 & _ & R8 & _). unfold in_call in Hij.
        assert (q' = 0) by (unfold TILE_STEP in *; lia). assert (r = 0) by (unfold TILE_STEP in *; lia). subst q' r.
        apply (DJ d i 0 Hd); unfold in_call; lia.
    + intros k j Hj Hk. rewrite g_ptr_addr by auto. apply Hag. intros d i' j' Hd Hij X. destruct (Pre d i' j' Hd Hij) as [P1 P2]. symmetry in X. destruct RB as [RB|[M1 RB]].
      * apply (RB i' j' k j) in X; auto; unfold K in *; lia.
      * apply RB in X; auto; [|unfold K in *; lia|lia]. subst j'. destruct (OKd d Hd) as (_ & _ & (r & R3) & _ & R5 & _ & R7 & _). unfold in_call in Hij.
        assert (q = 0) by nia. assert (r = 0) by nia. subst q r. apply (DJ d 0 j Hd); unfold in_call; lia.
    + intros i j Hij. rewrite g_ptr_addr by auto. apply Hag. intros d i' j' Hd Hij' X. destruct (Pre d i' j' Hd Hij') as [P1 P2]. symmetry in X.
      apply xC in X; [|split; auto|unfold in_call in Hij; split; lia]. destruct X as [-> ->]. apply (DJ d i j Hd); auto.
    + exists m'. split; [exact E|]. split.
      * intros i j Hij. rewrite <- g_ptr_addr by auto. rewrite U1 by auto. unfold gemm_elem.
        rewrite g_ptr_addr by auto. f_equal. f_equal. apply fma_chain_ext; intros k Hk; rewrite g_ptr_addr; auto.
      * intros a Ha. apply U2. intros i j Hij. rewrite g_ptr_addr by auto. auto.
Qed.

(** In particular D may be A itself, for at most four columns, and B itself, for at most one register of rows. *)
Theorem C81_gemm_replaces_left : forall SS T (O : Ops T) al alpha A B beta C m, 0 < SS -> gemm_pre_overlap SS al A B C A -> g_cols B <= 4 ->
  separate (g_rows A) (g_cols B) (g_addr SS A) (g_rows B) (g_cols B) (g_addr SS B) ->
  exists m', gemm SS T O al alpha A B beta C A m = Ok m' /\
    updated (block (g_rows A) (g_cols A)) (g_addr SS A)
      (fun i j => ofma O beta (m (g_addr SS C i j))
         (omul O (fma_chain O (g_cols A) (fun k => m (g_addr SS A i k)) (fun k => m (g_addr SS B k j)) (o0 O)) alpha)) m m'.
Proof.
  intros SS T O al alpha A B beta C m HSS P N4 SB. pose proof (proj2 (ov_szD _ _ _ _ _ _ P)) as Z. replace (block (g_rows A) (g_cols A)) with (block (g_rows A) (g_cols B)) by (rewrite Z; reflexivity). apply C81_gemm_overlap; auto.
  - right. split; auto. intros i j i' k Hi Hj Hi' Hk X. apply (g_distinct SS HSS A (ov_A _ _ _ _ _ _ P)) in X; auto; [tauto|lia].
  - left. exact SB.
Qed.
Theorem C81_gemm_replaces_right : forall SS T (O : Ops T) al alpha A B beta C m, 0 < SS -> gemm_pre_overlap SS al A B C B -> g_rows A <= SS ->
  separate (g_rows A) (g_cols B) (g_addr SS B) (g_rows A) (g_cols A) (g_addr SS A) ->
  exists m', gemm SS T O al alpha A B beta C B m = Ok m' /\
    updated (block (g_rows B) (g_cols B)) (g_addr SS B)
      (fun i j => ofma O beta (m (g_addr SS C i j))
         (omul O (fma_chain O (g_cols A) (fun k => m (g_addr SS A i k)) (fun k => m (g_addr SS B k j)) (o0 O)) alpha)) m m'.
Proof.
  intros SS T O al alpha A B beta C m HSS P M1 SA. pose proof (proj1 (ov_szD _ _ _ _ _ _ P)) as Z. replace (block (g_rows B) (g_cols B)) with (block (g_rows A) (g_cols B)) by (rewrite Z; reflexivity). apply C81_gemm_overlap; auto.
  - left. exact SA.
  - right. split; auto. intros i j k j' Hi Hj Hk Hj' X. apply (g_distinct SS HSS B (ov_B _ _ _ _ _ _ P)) in X; auto; [tauto|lia].
Qed.


(** Beyond that the factor is overwritten while it is still needed. [5-by-5 and 2-by-5 products with four-column tiles; 5-by-2 with registers of four rows] *)
Definition o_mat (r c b : nat) : marg := MArg (whole (Cont Dense false columnMajor r c b)) false.
Definition o_val (x : nat) : Z := (1 + Z.of_nat x mod 7)%Z.
Definition o_exact (A B : marg) (i j : nat) : Z := fma_chain zops (g_cols A) (fun k => o_val (g_addr 4 A i k)) (fun k => o_val (g_addr 4 B k j)) 0%Z.
Theorem C81_gemm_overlap_refuted :
  (let A := o_mat 2 5 0 in let B := o_mat 5 5 32 in gemm_pre_overlap 4 (fun _ => true) A B A A /\
     match gemm 4 Z zops (fun _ => true) 1%Z A B 0%Z A A o_val with Ok m' => m' (g_addr 4 A 0 3) = o_exact A B 0 3 /\ m' (g_addr 4 A 0 4) <> o_exact A B 0 4 | _ => False end) /\
  (let A := o_mat 5 5 0 in let B := o_mat 5 2 64 in gemm_pre_overlap 4 (fun _ => true) A B B B /\
     match gemm 4 Z zops (fun _ => true) 1%Z A B 0%Z B B o_val with Ok m' => m' (g_addr 4 B 3 0) = o_exact A B 3 0 /\ m' (g_addr 4 B 4 0) <> o_exact A B 4 0 | _ => False end).
Proof. cbv zeta. split; (split; [check_pre|vm_compute; split; [reflexivity|discriminate]]). Qed.

(* ------------------------------------------------------------------ concrete cases *)
(** 6-by-4 times 4-by-4 into the left factor; 4-by-4 times 4-by-9 into the right factor. *)
Example C81_example :
  (let A := o_mat 6 4 0 in let B := o_mat 4 4 32 in gemm_pre_overlap 4 (fun _ => true) A B A A /\ separate (g_rows A) (g_cols B) (g_addr 4 A) (g_rows B) (g_cols B) (g_addr 4 B) /\
     match gemm 4 Z zops (fun _ => true) 1%Z A B 0%Z A A o_val with Ok m' => m' (g_addr 4 A 5 3) = 63%Z /\ o_exact A B 5 3 = 63%Z | _ => False end) /\
  (let A := o_mat 4 4 0 in let B := o_mat 4 9 32 in gemm_pre_overlap 4 (fun _ => true) A B B B /\ separate (g_rows A) (g_cols B) (g_addr 4 B) (g_rows A) (g_cols A) (g_addr 4 A) /\
     match gemm 4 Z zops (fun _ => true) 1%Z A B 0%Z B B o_val with Ok m' => m' (g_addr 4 B 3 8) = o_exact A B 3 8 | _ => False end).
Proof. cbv zeta. split; (split; [check_pre|split; [apply separate_check; vm_compute; reflexivity|vm_compute; auto]]). Qed.
