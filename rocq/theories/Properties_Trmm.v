(** Properties_Trmm.v -- C25, C26: triangular matrix products. *)
From Coq Require Import Arith Lia List Bool PeanoNat ZArith.
From Verif Require Import Base Base_Proofs Spec Algebra_Proofs Instances Layout_Model Layout_Proofs Simd_Model Simd_Proofs
  Reg_Model Reg_Proofs Vec_Proofs Tile_Model Tile_Proofs Gemm_Model Gemm_Proofs Arg_Proofs Ger_Model Ger_Proofs Trmm_Model Trmm_Proofs
  Properties_Gemm.
Import ListNotations.

(** A matrix whose rows the kernels can walk down one by one: dense, or stored row by row. *)
Definition row_walkable (a : marg) : Prop := c_kind (v_cont (g_view a)) = Dense \/ g_so a = rowMajor.

(** The result may replace B. *)
Definition in_place (SS : nat) (B C : marg) : Prop := forall i j, i < g_rows B -> j < g_cols B -> g_addr SS B i j = g_addr SS C i j.

(** Operands of trmm(alpha, A, upper, non-unit, B, C).  A is read up to the next multiple of the tile size below its last
    row.  If both sizes are multiples of the tile size, only the upper triangle of A has to be in allocated memory. *)
Record trmmL_pre (SS cc : nat) (al : alloc) (A B C : marg) : Prop := {
  lp_A : arg_ok SS A; lp_B : arg_ok SS B; lp_C : arg_ok SS C;
  lp_soA : g_so A = columnMajor; lp_soC : g_so C = columnMajor; lp_walk : row_walkable B;
  lp_panA : is_panel A -> at_panel SS A; lp_panC : is_panel C -> v_af (g_view C) = true;
  lp_szA : g_rows A = g_rows B /\ g_cols A = g_rows B; lp_szC : g_rows C = g_rows B /\ g_cols C = g_cols B;
  lp_alA : forall i k, i < nextMultiple (g_rows B) (cc * SS) -> k < g_rows B ->
             i <= k \/ g_rows B mod (cc * SS) <> 0 \/ g_cols B mod (cc * SS) <> 0 -> al (g_addr SS A i k) = true;
  lp_alB : allocated al (g_rows B) (g_cols B) (g_addr SS B); lp_alC : allocated al (g_rows B) (g_cols B) (g_addr SS C);
  lp_sepA : separate (g_rows B) (g_cols B) (g_addr SS C) (g_rows B) (g_rows B) (g_addr SS A);
  lp_sepB : separate (g_rows B) (g_cols B) (g_addr SS C) (g_rows B) (g_cols B) (g_addr SS B) \/ in_place SS B C
}.

(** Element (i, k) of the upper (lower) triangular matrix whose triangle is stored in [a]. *)
Definition upper_of {T} (O : Ops T) (a : nat -> nat -> T) (i k : nat) : T := if i <=? k then a i k else o0 O.
Definition lower_of {T} (O : Ops T) (a : nat -> nat -> T) (k j : nat) : T := if j <=? k then a k j else o0 O.

Section Left.
Variables (SS cc : nat) (T : Type) (O : Ops T) (al : alloc) (alpha : T) (A B C : marg) (m : mem T).
Hypothesis HSS : 0 < SS.
Hypothesis Hcc : 0 < cc.
Hypothesis HP : trmmL_pre SS cc al A B C.
Lemma left_run : exists m', trmmL SS cc T O al alpha A Upper false B C m = Ok m' /\
    updated (block (g_rows B) (g_cols B)) (g_addr SS C)
      (trmmL_val SS cc T O (g_rows B) (g_cols B) alpha (fun i k => m (g_addr SS A i k)) (fun k j => m (g_addr SS B k j))) m m'.
Proof.
  destruct HP as [hA hB hC sA sC wB pA pC [zA1 zA2] [zC1 zC2] aA aB aC xA xB].
  unfold trmmL. rewrite zA1, zA2, zC1, zC2, !Nat.eqb_refl. cbn [negb andb].
  destruct (trmmL_ptr_ok SS HSS cc Hcc T O al (g_rows B) (g_cols B) alpha (g_ptr SS A) (g_ptr SS B) (g_ptr SS C) m)
    as (m' & E & U1 & U2);
    auto using g_ptr_wf, g_ptr_lane, g_ptr_store; try (rewrite g_ptr_so; assumption).
  - unfold vmovable. rewrite g_ptr_kind, g_ptr_so. exact wB.
  - intros i k Hi Hk H. rewrite g_ptr_addr by auto. apply aA; auto.
  - intros i j Hi Hj. rewrite g_ptr_addr by auto. apply aB; auto.
  - intros i j Hi Hj. rewrite g_ptr_addr by auto. apply aC; auto.
  - intros i j i' j' Hi Hj Hi' Hj' X. rewrite !g_ptr_addr in X by auto. apply (g_distinct SS HSS C hC); lia.
  - intros i j i' j' Hi Hj Hi' Hj'. rewrite !g_ptr_addr by auto. apply xA; auto.
  - destruct xB as [xB|xB]; [left|right].
    + intros i j i' j' Hi Hj Hi' Hj'. rewrite !g_ptr_addr by auto. apply xB; auto.
    + intros i j Hi Hj. rewrite !g_ptr_addr by auto. apply xB; auto.
  - exists m'. split; auto. split.
    + intros i j Hij. rewrite <- g_ptr_addr by auto. rewrite U1 by auto. unfold trmmL_val.
      destruct (find _ _); auto. unfold trmmL_elem. destruct (k_full c).
      * apply fma_chain_ext; intros k Hk; [do 3 f_equal|f_equal]; apply g_ptr_addr; auto.
      * apply fma_chain_ext; intros k Hk; rewrite g_ptr_addr; auto.
    + intros a Ha. apply U2. intros i j Hij. rewrite g_ptr_addr by auto. auto.
Qed.
End Left.

(** Sizes that are multiples of the tile size: operation by operation, with s = SS * (i / SS) the row of the SIMD block of
    row i.  Elements of A below its diagonal are replaced by zero; they are not even read (see lp_alA). *)
Theorem C25_trmm_left_ops : forall SS cc T (O : Ops T) al alpha A B C m, 0 < SS -> 0 < cc -> trmmL_pre SS cc al A B C ->
  g_rows B mod (cc * SS) = 0 -> g_cols B mod (cc * SS) = 0 ->
  exists m', trmmL SS cc T O al alpha A Upper false B C m = Ok m' /\
    updated (block (g_rows B) (g_cols B)) (g_addr SS C)
      (fun i j => let s := SS * (i / SS) in
         fma_chain O (g_rows B - s) (fun k => omul O alpha (upper_of O (fun i k => m (g_addr SS A i k)) i (s + k)))
                   (fun k => m (g_addr SS B (s + k) j)) (o0 O)) m m'.
Proof.
  intros SS cc T O al alpha A B C m HSS Hcc P HM HN.
  destruct (left_run SS cc T O al alpha A B C m HSS Hcc P) as (m' & E & U1 & U2).
  exists m'. split; auto. split; auto. intros i j Hij. rewrite U1 by auto. unfold trmmL_val.
  pose proof (TS_pos SS HSS cc Hcc) as HT.
  destruct (tile_ok_disj_cover (TS SS cc) HT (TS SS cc) HT rowMajor (g_rows B) (g_cols B)) as (TA & TB & TC).
  destruct Hij as [Hi Hj]. destruct (TC i j Hi Hj) as (c & Hc & Hp). rewrite (find_call _ c) by auto.
  unfold trmmL_elem. rewrite (all_full SS HSS cc Hcc _ _ _ _ HM HN Hc). reflexivity.
Qed.

(** All sizes, over a commutative ring: C = alpha * A * B with A the upper triangular matrix, provided the sizes are
    multiples of the tile size or the elements stored below the diagonal are zero. *)
Theorem C25_trmm_left_ring : forall SS cc T (O : Ops T) al alpha A B C m, 0 < SS -> 0 < cc -> ring_laws O -> trmmL_pre SS cc al A B C ->
  (g_rows B mod (cc * SS) = 0 /\ g_cols B mod (cc * SS) = 0) \/ (forall i k, k < i < g_rows B -> m (g_addr SS A i k) = o0 O) ->
  exists m', trmmL SS cc T O al alpha A Upper false B C m = Ok m' /\
    updated (block (g_rows B) (g_cols B)) (g_addr SS C)
      (fun i j => omul O alpha (sum O (g_rows B) (fun k => omul O (upper_of O (fun i k => m (g_addr SS A i k)) i k) (m (g_addr SS B k j))))) m m'.
Proof.
  intros SS cc T O al alpha A B C m HSS Hcc RL P H.
  destruct (left_run SS cc T O al alpha A B C m HSS Hcc P) as (m' & E & U1 & U2).
  exists m'. split; auto. split; auto. intros i j Hij. rewrite U1 by auto. unfold trmmL_val.
  pose proof (TS_pos SS HSS cc Hcc) as HT.
  destruct (tile_ok_disj_cover (TS SS cc) HT (TS SS cc) HT rowMajor (g_rows B) (g_cols B)) as (TA & TB & TC).
  destruct Hij as [Hi Hj]. destruct (TC i j Hi Hj) as (c & Hc & Hp). rewrite (find_call _ c) by auto.
  set (M := g_rows B) in *. set (a := fun i k => m (g_addr SS A i k)).
  assert (G : forall s, s <= i -> forall f, (forall k, k < M - s -> f k = upper_of O a i (s + k)) ->
     fma_chain O (M - s) (fun k => omul O alpha (f k)) (fun k => m (g_addr SS B (s + k) j)) (o0 O) =
     omul O alpha (sum O M (fun k => omul O (upper_of O a i k) (m (g_addr SS B k j))))).
  { intros s Hs f Hf. rewrite fma_chain_sum, (rl_add_0 O RL) by auto.
    rewrite <- (sum_scale O RL). replace M with (s + (M - s)) at 2 by lia. rewrite (sum_split O RL).
    rewrite (sum_0 O RL s), (rl_add_0 O RL).
    - apply sum_ext. intros k Hk. rewrite Hf by auto. symmetry. apply (rl_mul_assoc O RL).
    - intros k Hk. unfold upper_of. destruct (Nat.leb_spec i k); [lia|]. rewrite (mul_0_l O RL). apply (mul_0_r O RL). }
  unfold trmmL_elem. destruct (k_full c) eqn:F.
  - apply (G (blk SS i) (blk_le SS HSS cc Hcc i) (fun k => upper_part T O i (blk SS i + k) (m (g_addr SS A i (blk SS i + k))))). reflexivity.
  - apply (G (k_i c)); [unfold in_call in Hp; lia|]. intros k Hk. unfold upper_of, a.
    destruct (Nat.leb_spec i (k_i c + k)) as [L|L]; auto.
    destruct H as [[H1 H2]|H]; [|apply H; lia]. pose proof (all_full SS HSS cc Hcc _ _ _ _ H1 H2 Hc). congruence.
Qed.

(** Without that proviso the claim is false: for a 2-by-2 A and a 2-by-1 B with tile size 4 the element A(1,0) below the
    diagonal contributes: A = [1 1; 5 1], B = [1; 1] gives C(1) = 6 instead of 1. *)
Definition lA2 : container := Cont Dense false columnMajor 2 2 0.
Definition lB2 : container := Cont Dense false columnMajor 2 1 8.
Definition lC2 : container := Cont Dense false columnMajor 2 1 16.
Definition l_al (x : nat) : bool := c_alloc 4 lA2 x || c_alloc 4 lB2 x || c_alloc 4 lC2 x.
Definition l_m (x : nat) : Z := if x =? c_addr 4 lA2 1 0 then 5%Z else 1%Z.
Theorem C25_trmm_left_ignored_triangle_refuted :
  l_m (g_addr 4 (MArg (whole lA2) false) 1 0) = 5%Z /\
  match trmmL 4 1 Z zops l_al 1%Z (MArg (whole lA2) false) Upper false (MArg (whole lB2) false) (MArg (whole lC2) false) l_m with
  | Ok m' => m' (g_addr 4 (MArg (whole lC2) false) 1 0) = 6%Z
  | _ => False
  end /\
  sum zops 2 (fun k => omul zops (upper_of zops (fun i k => l_m (g_addr 4 (MArg (whole lA2) false) i k)) 1 k)
      (l_m (g_addr 4 (MArg (whole lB2) false) k 0))) = 1%Z.
Proof. vm_compute. auto. Qed.

(** ... and for a column-major panel matrix B with a full tile of more than one panel it is false too: the pointer is moved
    down a row as if the first row of a panel followed the last row of the panel above in memory.
    A = I (8-by-8), B(k,j) = 10k + j. *)
Definition pA8 : container := Cont Panel false columnMajor 8 8 0.
Definition pB8 : container := Cont Panel false columnMajor 8 4 64.
Definition pC8 : container := Cont Panel false columnMajor 8 4 96.
Definition p8_al (x : nat) : bool := (x <? 128).
Definition p8_m (x : nat) : Z :=
  if x <? 64 then (if existsb (fun i => x =? c_addr 4 pA8 i i) (seq 0 8) then 1%Z else 0%Z)
  else if x <? 96 then Z.of_nat (10 * ((x - 64) / 16 * 4 + (x mod 4)) + ((x - 64) mod 16) / 4) else 0%Z.
Theorem C25_trmm_left_panel_rhs_refuted :
  p8_m (g_addr 4 (MArg (whole pB8) false) 5 2) = 52%Z /\
  match trmmL 4 1 Z zops p8_al 1%Z (MArg (whole pA8) false) Upper false (MArg (whole pB8) false) (MArg (whole pC8) false) p8_m with
  | Ok m' => m' (g_addr 4 (MArg (whole pC8) false) 5 2) = 13%Z
  | _ => False
  end.
Proof. vm_compute. auto. Qed.

(** Rejected calls throw before any access: wrong sizes, unit diagonal, lower triangular on the left. *)
Theorem C25_trmm_left_throws : forall SS cc T (O : Ops T) al alpha A ul unit B C m,
  (g_rows A <> g_rows B \/ g_cols A <> g_rows B \/ g_rows C <> g_rows B \/ g_cols C <> g_cols B ->
     trmmL SS cc T O al alpha A ul unit B C m = Throw InvalidArgument) /\
  (g_rows A = g_rows B -> g_cols A = g_rows B -> g_rows C = g_rows B -> g_cols C = g_cols B ->
   g_so A = columnMajor -> g_so C = columnMajor -> ul = Lower \/ unit = true ->
     trmmL SS cc T O al alpha A ul unit B C m = Throw LogicError).
Proof.
  intros SS cc T O al alpha A ul unit B C m. unfold trmmL. split.
  - intros H. destruct (Nat.eqb_spec (g_rows A) (g_rows B)), (Nat.eqb_spec (g_cols A) (g_rows B)),
      (Nat.eqb_spec (g_rows C) (g_rows B)), (Nat.eqb_spec (g_cols C) (g_cols B)); cbn [negb andb]; auto. tauto.
  - intros -> -> -> -> SA SC H. rewrite !Nat.eqb_refl. cbn [negb andb]. unfold trmmL_ptr. rewrite !g_ptr_so, SA, SC. cbn [order_eqb negb andb].
    destruct unit; auto. destruct H as [->|H]; [auto|discriminate].
Qed.

(* ------------------------------------------------------------------ right-hand side *)
(** Operands of trmm(alpha, B, A, lower, non-unit, C).  Only the lower triangle of A has to be in allocated memory. *)
Record trmmR_pre (SS cc : nat) (al : alloc) (B A C : marg) : Prop := {
  qp_A : arg_ok SS A; qp_B : arg_ok SS B; qp_C : arg_ok SS C;
  qp_soB : g_so B = columnMajor; qp_soC : g_so C = columnMajor; qp_walk : row_walkable A;
  qp_panB : is_panel B -> at_panel SS B; qp_panC : is_panel C -> v_af (g_view C) = true;
  qp_szA : g_rows A = g_cols B /\ g_cols A = g_cols B; qp_szC : g_rows C = g_rows B /\ g_cols C = g_cols B;
  qp_alB : allocated al (nextMultiple (g_rows B) (cc * SS)) (g_cols B) (g_addr SS B);
  qp_alA : forall k j, j <= k -> k < g_cols B -> al (g_addr SS A k j) = true;
  qp_alC : allocated al (g_rows B) (g_cols B) (g_addr SS C);
  qp_sepB : separate (g_rows B) (g_cols B) (g_addr SS C) (g_rows B) (g_cols B) (g_addr SS B) \/ in_place SS B C;
  qp_sepA : separate (g_rows B) (g_cols B) (g_addr SS C) (g_cols B) (g_cols B) (g_addr SS A)
}.

(** C(i,j) is the chain of fused multiply-adds over k = j, j+1, ..., N-1: no element of A above the diagonal is read and no
    zero terms are added. *)
Theorem C26_trmm_right_ops : forall SS cc T (O : Ops T) al alpha B A C m, 0 < SS -> 0 < cc -> trmmR_pre SS cc al B A C ->
  exists m', trmmR SS cc T O al alpha B A Lower false C m = Ok m' /\
    updated (block (g_rows B) (g_cols B)) (g_addr SS C)
      (fun i j => fma_chain O (g_cols B - j) (fun k => omul O alpha (m (g_addr SS B i (j + k))))
                            (fun k => m (g_addr SS A (j + k) j)) (o0 O)) m m'.
Proof.
  intros SS cc T O al alpha B A C m HSS Hcc [hA hB hC sB sC wA pB pC [zA1 zA2] [zC1 zC2] aB aA aC xB xA].
  unfold trmmR. rewrite zA1, zA2, zC1, zC2, !Nat.eqb_refl. cbn [negb andb].
  destruct (trmmR_ptr_ok SS HSS cc Hcc T O al (g_rows B) (g_cols B) alpha (g_ptr SS B) (g_ptr SS A) false (g_ptr SS C) m)
    as (m' & E & U1 & U2);
    auto using g_ptr_wf, g_ptr_lane, g_ptr_store; try (rewrite g_ptr_so; assumption); try discriminate.
  - unfold vmovable. rewrite g_ptr_kind, g_ptr_so. exact wA.
  - intros i j Hi Hj. rewrite g_ptr_addr by auto. apply aB; auto.
  - intros i k Hi Hk. rewrite g_ptr_addr by auto. apply aA; auto.
  - intros i j Hi Hj. rewrite g_ptr_addr by auto. apply aC; auto.
  - intros i j i' j' Hi Hj Hi' Hj' X. rewrite !g_ptr_addr in X by auto. apply (g_distinct SS HSS C hC); lia.
  - destruct xB as [xB|xB]; [left|right].
    + intros i j i' j' Hi Hj Hi' Hj'. rewrite !g_ptr_addr by auto. apply xB; auto.
    + intros i j Hi Hj. rewrite !g_ptr_addr by auto. apply xB; auto.
  - intros i j i' j' Hi Hj Hi' Hj'. rewrite !g_ptr_addr by auto. apply xA; auto.
  - exists m'. split; auto. split.
    + intros i j Hij. rewrite <- g_ptr_addr by auto. rewrite U1 by auto. unfold trmmR_val.
      apply fma_chain_ext; intros k Hk; rewrite g_ptr_addr; auto.
    + intros a Ha. apply U2. intros i j Hij. rewrite g_ptr_addr by auto. auto.
Qed.

(** Over a commutative ring: C = alpha * B * A with A the lower triangular matrix. *)
Theorem C26_trmm_right_ring : forall SS cc T (O : Ops T) al alpha B A C m, 0 < SS -> 0 < cc -> ring_laws O -> trmmR_pre SS cc al B A C ->
  exists m', trmmR SS cc T O al alpha B A Lower false C m = Ok m' /\
    updated (block (g_rows B) (g_cols B)) (g_addr SS C)
      (fun i j => omul O alpha (sum O (g_cols B) (fun k => omul O (m (g_addr SS B i k)) (lower_of O (fun k j => m (g_addr SS A k j)) k j)))) m m'.
Proof.
  intros SS cc T O al alpha B A C m HSS Hcc RL P.
  destruct (C26_trmm_right_ops SS cc T O al alpha B A C m HSS Hcc P) as (m' & E & U1 & U2).
  exists m'. split; auto. split; auto. intros i j [Hi Hj]. rewrite U1 by (split; auto).
  rewrite fma_chain_sum, (rl_add_0 O RL) by auto. rewrite <- (sum_scale O RL).
  replace (g_cols B) with (j + (g_cols B - j)) at 2 by lia. rewrite (sum_split O RL).
  rewrite (sum_0 O RL j), (rl_add_0 O RL).
  - apply sum_ext. intros k Hk. unfold lower_of. rewrite (proj2 (Nat.leb_le j (j + k))) by lia. symmetry. apply (rl_mul_assoc O RL).
  - intros k Hk. unfold lower_of. destruct (Nat.leb_spec j k); [lia|]. rewrite !(mul_0_r O RL). reflexivity.
Qed.

(** Rejected calls: wrong sizes and upper triangular on the right throw before any access. *)
Theorem C26_trmm_right_throws : forall SS cc T (O : Ops T) al alpha B A ul unit C m,
  (g_rows A <> g_cols B \/ g_cols A <> g_cols B \/ g_rows C <> g_rows B \/ g_cols C <> g_cols B ->
     trmmR SS cc T O al alpha B A ul unit C m = Throw InvalidArgument) /\
  (g_rows A = g_cols B -> g_cols A = g_cols B -> g_rows C = g_rows B -> g_cols C = g_cols B ->
   g_so B = columnMajor -> g_so C = columnMajor ->
     trmmR SS cc T O al alpha B A Upper unit C m = Throw LogicError).
Proof.
  intros SS cc T O al alpha B A ul unit C m. unfold trmmR. split.
  - intros H. destruct (Nat.eqb_spec (g_rows A) (g_cols B)), (Nat.eqb_spec (g_cols A) (g_cols B)),
      (Nat.eqb_spec (g_rows C) (g_rows B)), (Nat.eqb_spec (g_cols C) (g_cols B)); cbn [negb andb]; auto. tauto.
  - intros -> -> -> -> SB SC. rewrite !Nat.eqb_refl. cbn [negb andb]. unfold trmmR_ptr. rewrite !g_ptr_so, SB, SC. reflexivity.
Qed.

(** The unit-diagonal flag is not honoured: as soon as one tile is full the process is terminated (an exception leaves a
    noexcept kernel); when no tile is full the flag is ignored and the stored diagonal is used. *)
Theorem C26_trmm_right_unit_ignored_refuted : forall SS cc T (O : Ops T) al alpha B A C m, 0 < SS -> 0 < cc -> trmmR_pre SS cc al B A C ->
  g_rows B < cc * SS \/ g_cols B < cc * SS ->
  exists m', trmmR SS cc T O al alpha B A Lower true C m = Ok m' /\
    updated (block (g_rows B) (g_cols B)) (g_addr SS C)
      (fun i j => fma_chain O (g_cols B - j) (fun k => omul O alpha (m (g_addr SS B i (j + k))))
                            (fun k => m (g_addr SS A (j + k) j)) (o0 O)) m m'.
Proof.
  intros SS cc T O al alpha B A C m HSS Hcc [hA hB hC sB sC wA pB pC [zA1 zA2] [zC1 zC2] aB aA aC xB xA] Hsmall.
  unfold trmmR. rewrite zA1, zA2, zC1, zC2, !Nat.eqb_refl. cbn [negb andb].
  destruct (trmmR_ptr_ok SS HSS cc Hcc T O al (g_rows B) (g_cols B) alpha (g_ptr SS B) (g_ptr SS A) true (g_ptr SS C) m)
    as (m' & E & U1 & U2);
    auto using g_ptr_wf, g_ptr_lane, g_ptr_store; try (rewrite g_ptr_so; assumption); try discriminate.
  - unfold vmovable. rewrite g_ptr_kind, g_ptr_so. exact wA.
  - intros i j Hi Hj. rewrite g_ptr_addr by auto. apply aB; auto.
  - intros i k Hi Hk. rewrite g_ptr_addr by auto. apply aA; auto.
  - intros i j Hi Hj. rewrite g_ptr_addr by auto. apply aC; auto.
  - intros i j i' j' Hi Hj Hi' Hj' X. rewrite !g_ptr_addr in X by auto. apply (g_distinct SS HSS C hC); lia.
  - destruct xB as [xB|xB]; [left|right].
    + intros i j i' j' Hi Hj Hi' Hj'. rewrite !g_ptr_addr by auto. apply xB; auto.
    + intros i j Hi Hj. rewrite !g_ptr_addr by auto. apply xB; auto.
  - intros i j i' j' Hi Hj Hi' Hj'. rewrite !g_ptr_addr by auto. apply xA; auto.
  - exists m'. split; auto. split.
    + intros i j Hij. rewrite <- g_ptr_addr by auto. rewrite U1 by auto. unfold trmmR_val.
      apply fma_chain_ext; intros k Hk; rewrite g_ptr_addr; auto.
    + intros a Ha. apply U2. intros i j Hij. rewrite g_ptr_addr by auto. auto.
Qed.
(** A full tile exists: the very first kernel terminates the process, whatever the memory. *)
Theorem C26_trmm_right_unit_terminates_refuted : forall SS cc T (O : Ops T) al alpha B A C m, 0 < SS -> 0 < cc ->
  g_rows A = g_cols B -> g_cols A = g_cols B -> g_rows C = g_rows B -> g_cols C = g_cols B ->
  g_so B = columnMajor -> g_so C = columnMajor -> cc * SS <= g_rows B -> cc * SS <= g_cols B ->
  trmmR SS cc T O al alpha B A Lower true C m = Terminate.
Proof.
  intros SS cc T O al alpha B A C m HSS Hcc zA1 zA2 zC1 zC2 SB SC HM HN. unfold trmmR.
  rewrite zA1, zA2, zC1, zC2, !Nat.eqb_refl. cbn [negb andb]. unfold trmmR_ptr. rewrite !g_ptr_so, SB, SC. cbn [order_eqb negb andb].
  set (M := g_rows B) in *. set (N := g_cols B) in *. fold (TS SS cc) in *. pose proof (TS_pos SS HSS cc Hcc) as HT.
  assert (HEAD : exists c l, tile (TS SS cc) (TS SS cc) columnMajor M N = c :: l /\ k_full c = true).
  { unfold tile. cbv zeta. replace (N + 1) with (S N) by lia. cbn [steps]. rewrite (proj2 (Nat.leb_le (0 + TS SS cc) N)) by lia.
    cbn [fst map concat]. unfold tile_column at 1. cbv zeta. replace (M + 1) with (S M) by lia. cbn [steps].
    destruct ((0 + 3 * TS SS cc <=? M) && negb (0 + 4 * TS SS cc =? M)).
    - cbn [fst map app]. eexists. eexists. split; reflexivity.
    - cbn [fst snd map app]. destruct (0 + 2 * TS SS cc <=? M).
      + cbn [fst map app]. eexists. eexists. split; reflexivity.
      + cbn [fst snd map app]. rewrite (proj2 (Nat.leb_le (0 + 1 * TS SS cc) M)) by lia. cbn [fst map app]. eexists. eexists. split; reflexivity. }
  destruct HEAD as (c & l & -> & F). cbn [foldM]. unfold trmmR_call. rewrite F. unfold reg_trmm_right. rewrite cm_only_ok; [reflexivity|].
  rewrite <- SB, <- (g_ptr_so SS). reflexivity.
Qed.

(* ------------------------------------------------------------------ examples *)
Definition eA : container := Cont Dense false columnMajor 6 6 0.
Definition eB : container := Cont Dense false columnMajor 6 5 48.
Definition eC : container := Cont Dense false columnMajor 6 5 88.
Definition e_al (x : nat) : bool := x <? 128.
Lemma e_addr : forall c i j, i < c_rows c -> j < c_cols c -> c_kind c = Dense -> c_so c = columnMajor ->
  c_addr 4 c i j = c_base c + i + c_spacing 4 c * j.
Proof. intros c i j _ _ K S. unfold c_addr, c_index. rewrite K, S. lia. Qed.
Example C25_example : trmmL_pre 4 1 e_al (MArg (whole eA) false) (MArg (whole eB) false) (MArg (whole eC) false).
Proof.
  assert (A : forall i k, c_addr 4 eA i k = i + 8 * k) by (intros; cbn; lia).
  assert (B : forall i k, c_addr 4 eB i k = 48 + i + 8 * k) by (intros; cbn; lia).
  assert (C : forall i k, c_addr 4 eC i k = 88 + i + 8 * k) by (intros; cbn; lia).
  constructor; try (cbv; repeat split; auto; lia); try reflexivity; try discriminate; try (left; reflexivity).
  - intros i k Hi Hk _. unfold e_al. apply Nat.ltb_lt. change (nextMultiple (g_rows (MArg (whole eB) false)) (1 * 4)) with 8 in Hi.
    change (g_rows (MArg (whole eB) false)) with 6 in Hk. change (c_addr 4 eA i k < 128). rewrite A. lia.
  - intros i k Hi Hk. unfold e_al. apply Nat.ltb_lt. change (c_addr 4 eB i k < 128). cbn in Hi, Hk. rewrite B. lia.
  - intros i k Hi Hk. unfold e_al. apply Nat.ltb_lt. change (c_addr 4 eC i k < 128). cbn in Hi, Hk. rewrite C. lia.
  - intros i j i' j' Hi Hj Hi' Hj'. change (c_addr 4 eC i j <> c_addr 4 eA i' j'). cbn in Hi, Hj, Hi', Hj'. rewrite A, C. lia.
  - left. intros i j i' j' Hi Hj Hi' Hj'. change (c_addr 4 eC i j <> c_addr 4 eB i' j'). cbn in Hi, Hj, Hi', Hj'. rewrite B, C. lia.
Qed.
(** 6-by-6 A with ones on and above the diagonal and zeros below, B(k,j) = 1: C(i,j) = 2 * (6 - i). *)
Definition e_m (x : nat) : Z := if x <? 48 then (if x mod 8 <=? x / 8 then 1%Z else 0%Z) else 1%Z.
Example C25_example_run :
  match trmmL 4 1 Z zops e_al 2%Z (MArg (whole eA) false) Upper false (MArg (whole eB) false) (MArg (whole eC) false) e_m with
  | Ok m' => map (fun i => m' (g_addr 4 (MArg (whole eC) false) i 4)) (seq 0 6)
  | _ => [] end = [12; 10; 8; 6; 4; 2]%Z.
Proof. vm_compute. reflexivity. Qed.

(** B: 6-by-5 at 48, A: 5-by-5 at 0, C: 6-by-5 at 88. *)
Definition eA5 : container := Cont Dense false columnMajor 5 5 0.
Example C26_example : trmmR_pre 4 1 e_al (MArg (whole eB) false) (MArg (whole eA5) false) (MArg (whole eC) false).
Proof.
  assert (A : forall i k, c_addr 4 eA5 i k = i + 8 * k) by (intros; cbn; lia).
  assert (B : forall i k, c_addr 4 eB i k = 48 + i + 8 * k) by (intros; cbn; lia).
  assert (C : forall i k, c_addr 4 eC i k = 88 + i + 8 * k) by (intros; cbn; lia).
  constructor; try (cbv; repeat split; auto; lia); try reflexivity; try discriminate; try (left; reflexivity).
  - intros i k Hi Hk. unfold e_al. apply Nat.ltb_lt. change (c_addr 4 eB i k < 128).
    change (nextMultiple (g_rows (MArg (whole eB) false)) (1 * 4)) with 8 in Hi. cbn in Hk. rewrite B. lia.
  - intros i k Hi Hk. unfold e_al. apply Nat.ltb_lt. change (c_addr 4 eA5 i k < 128). cbn in Hk. rewrite A. lia.
  - intros i k Hi Hk. unfold e_al. apply Nat.ltb_lt. change (c_addr 4 eC i k < 128). cbn in Hi, Hk. rewrite C. lia.
  - left. intros i j i' j' Hi Hj Hi' Hj'. change (c_addr 4 eC i j <> c_addr 4 eB i' j'). cbn in Hi, Hj, Hi', Hj'. rewrite B, C. lia.
  - intros i j i' j' Hi Hj Hi' Hj'. change (c_addr 4 eC i j <> c_addr 4 eA5 i' j'). cbn in Hi, Hj, Hi', Hj'. rewrite A, C. lia.
Qed.
(** All elements 1 (the upper triangle of A included, which must not contribute): C(i,j) = 2 * (5 - j). *)
Example C26_example_run :
  match trmmR 4 1 Z zops e_al 2%Z (MArg (whole eB) false) (MArg (whole eA5) false) Lower false (MArg (whole eC) false) (fun _ => 1%Z) with
  | Ok m' => map (fun j => m' (g_addr 4 (MArg (whole eC) false) 5 j)) (seq 0 5)
  | _ => [] end = [10; 8; 6; 4; 2]%Z.
Proof. vm_compute. reflexivity. Qed.

(** The result may replace B (in_place): the theorems above then describe the new contents of B in terms of the old ones.
    Stated explicitly, over a ring, for B = C. *)
Theorem C25_trmm_left_in_place : forall SS cc T (O : Ops T) al alpha A B m, 0 < SS -> 0 < cc -> ring_laws O ->
  (g_rows B mod (cc * SS) = 0 /\ g_cols B mod (cc * SS) = 0) \/ (forall i k, k < i < g_rows B -> m (g_addr SS A i k) = o0 O) ->
  trmmL_pre SS cc al A B B ->
  exists m', trmmL SS cc T O al alpha A Upper false B B m = Ok m' /\
    updated (block (g_rows B) (g_cols B)) (g_addr SS B)
      (fun i j => omul O alpha (sum O (g_rows B) (fun k => omul O (upper_of O (fun i k => m (g_addr SS A i k)) i k) (m (g_addr SS B k j))))) m m'.
Proof. intros. apply C25_trmm_left_ring; auto. Qed.
Theorem C26_trmm_right_in_place : forall SS cc T (O : Ops T) al alpha B A m, 0 < SS -> 0 < cc -> ring_laws O -> trmmR_pre SS cc al B A B ->
  exists m', trmmR SS cc T O al alpha B A Lower false B m = Ok m' /\
    updated (block (g_rows B) (g_cols B)) (g_addr SS B)
      (fun i j => omul O alpha (sum O (g_cols B) (fun k => omul O (m (g_addr SS B i k)) (lower_of O (fun k j => m (g_addr SS A k j)) k j)))) m m'.
Proof. intros. apply C26_trmm_right_ring; auto. Qed.

Example C25_in_place_example : trmmL_pre 4 1 e_al (MArg (whole eA) false) (MArg (whole eB) false) (MArg (whole eB) false).
Proof.
  destruct C25_example as [hA hB hC sA sC wB pA pC zA zC aA aB aC xA xB]. constructor; auto; try discriminate.
  - intros i j i' j' Hi Hj Hi' Hj'. change (c_addr 4 eB i j <> c_addr 4 eA i' j'). cbn in Hi, Hj, Hi', Hj'. unfold c_addr, c_index. cbn. lia.
  - right. intros i j _ _. reflexivity.
Qed.
Example C25_in_place_run :
  match trmmL 4 1 Z zops e_al 2%Z (MArg (whole eA) false) Upper false (MArg (whole eB) false) (MArg (whole eB) false) e_m with
  | Ok m' => map (fun i => m' (g_addr 4 (MArg (whole eB) false) i 4)) (seq 0 6)
  | _ => [] end = [12; 10; 8; 6; 4; 2]%Z.
Proof. vm_compute. reflexivity. Qed.
Example C26_in_place_example : trmmR_pre 4 1 e_al (MArg (whole eB) false) (MArg (whole eA5) false) (MArg (whole eB) false).
Proof.
  destruct C26_example as [hA hB hC sA sC wB pA pC zA zC aA aB aC xA xB]. constructor; auto; try discriminate.
  - exact (lp_alB _ _ _ _ _ _ C25_in_place_example).
  - right. intros i j _ _. reflexivity.
  - intros i j i' j' Hi Hj Hi' Hj'. change (c_addr 4 eB i j <> c_addr 4 eA5 i' j'). cbn in Hi, Hj, Hi', Hj'. unfold c_addr, c_index. cbn. lia.
Qed.
Example C26_in_place_run :
  match trmmR 4 1 Z zops e_al 2%Z (MArg (whole eB) false) (MArg (whole eA5) false) Lower false (MArg (whole eB) false) (fun _ => 1%Z) with
  | Ok m' => map (fun j => m' (g_addr 4 (MArg (whole eB) false) 5 j)) (seq 0 5)
  | _ => [] end = [10; 8; 6; 4; 2]%Z.
Proof. vm_compute. reflexivity. Qed.
