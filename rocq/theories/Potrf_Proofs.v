(** Potrf_Proofs.v -- blocked Cholesky factorization. *)
From Coq Require Import Arith Lia List Bool PeanoNat ZArith.
From Verif Require Import Base Base_Proofs Spec Algebra_Proofs Layout_Model Layout_Proofs Simd_Model Simd_Proofs
  Reg_Model Reg_Proofs Reg_Proofs2 Vec_Proofs Tile_Model Tile_Proofs Gemm_Model Gemm_Proofs Ger_Model Ger_Proofs Potrf_Model.
Import ListNotations.

(** Executing "for (; cond(i); i += step) f(i)". *)
Lemma foldM_steps : forall St (P : nat -> St -> Prop) (f : nat -> St -> res St) cond step fuel i s,
  P i s -> (forall i s, P i s -> cond i = true -> exists s', f i s = Ok s' /\ P (i + step) s') ->
  exists s', foldM f (fst (steps fuel cond step i)) s = Ok s' /\ P (snd (steps fuel cond step i)) s'.
Proof.
  intros St P f cond step fuel. induction fuel as [|n IH]; intros i s Hi Hf; cbn [steps].
  - exists s. auto.
  - destruct (cond i) eqn:C; [|exists s; auto]. cbn [fst snd foldM].
    destruct (Hf i s Hi C) as (s' & E & Hs'). rewrite E. cbn [bind]. apply IH; auto.
Qed.

Lemma ptrans_poff : forall SS, 0 < SS -> forall p l, ptrans SS (poff SS p 0 l) = poff SS (ptrans SS p) l 0.
Proof.
  intros SS HSS p l. unfold poff at 2. rewrite addr_ptrans by auto. unfold ptrans, poff. cbn [mp_kind mp_so mp_af mp_pf mp_base mp_sp].
  rewrite ptr_offset_00 by auto. reflexivity.
Qed.

Section Potrf.
Variable SS : nat.
Hypothesis HSS : 0 < SS.
Variable cc : nat.
Hypothesis Hcc : 0 < cc.
Variable T : Type.
Variable O : Ops T.
Notation addr := (addr SS).
Notation poff := (poff SS).
Notation reg_at := (reg_at SS T).
Notation readable := (readable SS).
Notation TS := (TS SS cc).
Let HT : 0 < TS. Proof. apply TS_pos; auto. Qed.

(** A column-major view that starts at a SIMD boundary. *)
Definition aligned_cm (v : view) : Prop :=
  cont_wf SS (v_cont v) /\ c_so (v_cont v) = columnMajor /\ v_i v mod SS = 0.
Lemma aptr_wf : forall v i j, aligned_cm v -> i mod SS = 0 -> mptr_wf SS (v_ptr SS true v i j).
Proof.
  intros v i j (H1 & H3 & H4) Hi. apply v_ptr_wf; auto. rewrite H3. intros _. split; auto.
  rewrite Nat.add_mod, H4, Hi by lia. apply Nat.mod_0_l. lia.
Qed.
Lemma aptr_addr : forall v i j k l, aligned_cm v -> i mod SS = 0 -> addr (v_ptr SS true v i j) k l = v_addr SS v (i + k) (j + l).
Proof. intros v i j k l (H1 & H3 & H4) Hi. apply v_ptr_addr; auto. rewrite H3. auto. Qed.
Lemma aptr_so : forall v i j, aligned_cm v -> mp_so (v_ptr SS true v i j) = columnMajor.
Proof. intros v i j (H1 & H3 & H4). exact H3. Qed.
Lemma aptr_lane : forall v i j, aligned_cm v -> i mod SS = 0 -> lane_ok SS (v_ptr SS true v i j).
Proof. intros v i j H Hi. apply lane_af; auto. apply aptr_wf; auto. Qed.
Lemma aptr_store : forall v i j, store_ok (v_ptr SS true v i j).
Proof. intros v i j _. reflexivity. Qed.

Section Run.
Variables (al : alloc) (A L : view) (m0 : mem T) (ld : T -> T).
Let M := v_m A.
Let N := v_n A.
Let Mp := nextMultiple M TS.
Let Np := nextMultiple N TS.
Let aA := v_addr SS A.
Let aL := v_addr SS L.
Hypothesis HA : aligned_cm A.
Hypothesis HL : aligned_cm L.
Hypothesis HMN : N <= M.
Hypothesis RA : allocated al Mp Np aA.
Hypothesis RL : allocated al Mp Np aL.
Hypothesis DL : distinct Mp N aL.
Hypothesis SA : forall i j i' j', i < Mp -> j < N -> lower M N i' j' -> aL i j = aA i' j' -> i = i' /\ j = j'.
(** Cells that may be written. *)
Variable wr : nat -> nat -> Prop.

Lemma MpM : M <= Mp. Proof. destruct (nextMultiple_spec M TS HT). auto. Qed.
Lemma NpMp : Np <= Mp.
Proof.
  unfold Np, Mp. destruct (nextMultiple_spec M TS HT) as (X & Y & Z). apply nextMultiple_least; auto. lia.
Qed.
Lemma NNp : N <= Np. Proof. destruct (nextMultiple_spec N TS HT). auto. Qed.

(** Element (i, j) of the factor, in terms of the elements to its left and above the diagonal element. *)
Definition p_acc (m : mem T) (i j : nat) : T :=
  let k := TS * (j / TS) in
  fma_chain O k (fun l => omul O (om1 O) (m (aL i l))) (fun l => m (aL j l)) (ld (m0 (aA i j))).
Definition p_num (m : mem T) (i j : nat) : T :=
  let k := TS * (j / TS) in
  fnma_chain O (j - k) (fun l => m (aL j (k + l))) (fun l => m (aL i (k + l))) (p_acc m i j).
Definition p_good (m : mem T) (i j : nat) : Prop :=
  m (aL i j) = odiv O (p_num m i j) (if i <? TS * (j / TS) + 3 * TS then osqrt O (p_num m j j) else m (aL j j)).

Definition done (k i0 i j : nat) : Prop := j < k \/ (j < k + TS /\ i < i0).
Definition p_inv (k i0 : nat) (m : mem T) : Prop :=
  (forall a, (forall i j, wr i j -> i < Mp -> j < N -> done k i0 i j -> a <> aL i j) -> m a = m0 a) /\
  (forall i j, lower M N i j -> done k i0 i j -> p_good m i j).

(** The registers after the accumulation and the factorization / solve, read back from memory [m]. *)
Definition blk_acc (m : mem T) (k i0 u v : nat) : T :=
  fma_chain O k (fun l => omul O (om1 O) (m (aL (i0 + u) l))) (fun l => m (aL (k + v) l)) (ld (m (aA (i0 + u) (k + v)))).
Definition blk_res (m : mem T) (k i0 KM : nat) (r : nat -> nat -> T) : Prop :=
  forall u v, u < KM -> v < TS -> k + v <= i0 + u ->
    (i0 = k -> r u v = odiv O (fnma_chain O v (fun l => r v l) (fun l => r u l) (blk_acc m k i0 u v))
                       (osqrt O (fnma_chain O v (fun l => r v l) (fun l => r v l) (blk_acc m k i0 v v)))) /\
    (i0 <> k -> r u v = odiv O (fnma_chain O v (fun l => m (aL (k + v) (k + l))) (fun l => r u l) (blk_acc m k i0 u v)) (m (aL (k + v) (k + v)))).

Lemma advance : forall k i0 KM Q r m m', k mod TS = 0 -> i0 mod TS = 0 -> k <= i0 -> i0 + KM <= Mp ->
  KM <= 3 * TS -> (i0 <> k -> k + 3 * TS <= i0) ->
  p_inv k i0 m -> blk_res m k i0 KM r ->
  updated Q aL (fun i j => r (i - i0) (j - k)) m m' ->
  (forall i j, Q i j -> i0 <= i < i0 + KM /\ k <= j < k + TS /\ j < N /\ wr i j) ->
  (forall i j, lower M N i j -> i0 <= i < i0 + KM -> k <= j < k + TS -> Q i j) ->
  p_inv k (i0 + KM) m'.
Proof.
  intros k i0 KM Q r m m' Hk Hi0 Hki HKM HK3 Hfar [F V] B [U1 U2] Q1 Q2.
  pose proof MpM as HMp.
  assert (ORD : i0 <> k -> k + TS <= i0).
  { intros Ne. apply mod0_ex in Hk; auto. apply mod0_ex in Hi0; auto. destruct Hk as [x ->], Hi0 as [y ->]. assert (x < y) by nia. nia. }
  assert (KEEP : forall i j, i < Mp -> j < N -> ~ Q i j -> m' (aL i j) = m (aL i j)).
  { intros i j Hi Hj Hq. apply U2. intros i' j' Hq' E. destruct (Q1 _ _ Hq') as (X1 & X2 & X3 & X4).
    destruct (DL i j i' j') as [-> ->]; auto. lia. }
  assert (KJ : forall j, k <= j < k + TS -> TS * (j / TS) = k).
  { intros j Hj. apply mod0_ex in Hk; auto. destruct Hk as [q Eq]. replace j with (TS * q + (j - k)) by lia.
    rewrite (div_q TS q (j - k)) by lia. auto. }
  split.
  - intros a Ha. rewrite U2.
    + apply F. intros i j Hw Hi Hj Hd. apply Ha; auto. unfold done in *. lia.
    + intros i j Hq. destruct (Q1 _ _ Hq) as (X1 & X2 & X3 & X4). apply Ha; auto; unfold done; lia.
  - intros i j Hl Hd. destruct Hl as (Hji & HiM & HjN).
    assert (NEW : (done k i0 i j) \/ (k <= j < k + TS /\ i0 <= i < i0 + KM)) by (unfold done in *; lia).
    destruct NEW as [Old|[Hj Hi]].
    + assert (G : forall x l, (x = i \/ x = j) -> l <= j -> m' (aL x l) = m (aL x l)).
      { intros x l Hx Hlj. apply KEEP; [lia|lia|]. intros Hq. destruct (Q1 _ _ Hq) as (X1 & X2 & _). unfold done in Old. lia. }
      assert (HKj : TS * (j / TS) <= j) by (apply Nat.mul_div_le; lia).
      assert (GA : forall x, x = i \/ x = j -> p_acc m' x j = p_acc m x j).
      { intros x Hx. unfold p_acc. apply fma_chain_ext; intros l Hl; rewrite G by (auto; lia); reflexivity. }
      assert (GN : forall x, x = i \/ x = j -> p_num m' x j = p_num m x j).
      { intros x Hx. unfold p_num. rewrite GA by auto. apply fnma_chain_ext'; intros l Hl; rewrite G by (auto; lia); reflexivity. }
      unfold p_good. rewrite !GN, !G by auto. apply V; auto. unfold lower. auto.
    + assert (Hq : Q i j) by (apply Q2; auto; unfold lower; auto).
      pose proof (KJ j Hj) as EK.
      assert (LOW : forall x l, x = i \/ x = j -> l < k -> m' (aL x l) = m (aL x l)).
      { intros x l Hx Hlk. apply KEEP; [lia|lia|]. intros Hq'. destruct (Q1 _ _ Hq') as (X1 & X2 & _). lia. }
      assert (INB : forall l, l <= j - k -> m' (aL i (k + l)) = r (i - i0) l).
      { intros l Hl. rewrite U1 by (apply Q2; [unfold lower| |]; lia). f_equal. lia. }
      assert (A0 : forall x, x = i \/ x = j -> m (aA x j) = m0 (aA x j) \/ (x = j /\ i0 <> k)).
      { intros x Hx. destruct (Nat.eq_dec i0 k) as [Ek|Nk].
        - left. apply F. intros i' j' Hw Hi' Hj' Hd' E. symmetry in E. apply SA in E; auto; [|unfold lower; lia].
          destruct E as [-> ->]. unfold done in Hd'. lia.
        - destruct Hx as [->| ->]; [left|right; auto]. apply F. intros i' j' Hw Hi' Hj' Hd' E. symmetry in E. apply SA in E; auto; [|unfold lower; lia].
          destruct E as [-> ->]. unfold done in Hd'. lia. }
      assert (ACC : forall x, x = i \/ (x = j /\ i0 = k) -> p_acc m' x j = blk_acc m k i0 (x - i0) (j - k)).
      { intros x Hx. unfold p_acc, blk_acc. rewrite EK. replace (i0 + (x - i0)) with x by lia. replace (k + (j - k)) with j by lia.
        destruct (A0 x) as [->|[E1 E2]]; [tauto| |].
        - apply fma_chain_ext; intros l Hl; rewrite LOW by (auto; tauto); reflexivity.
        - destruct Hx as [->|[-> Ek]]; [|congruence]. subst i. assert (k + TS <= i0) by auto. lia. }
      destruct (B (i - i0) (j - k)) as [B1 B2]; try lia.
      assert (VIJ : m' (aL i j) = r (i - i0) (j - k)) by (rewrite U1 by auto; reflexivity).
      destruct (Nat.eq_dec i0 k) as [Ek|Nk].
      * unfold p_good. rewrite EK. destruct (Nat.ltb_spec i (k + 3 * TS)); [|lia]. rewrite VIJ, (B1 Ek). subst i0.
        assert (JNB : forall l, l <= j - k -> m' (aL j (k + l)) = r (j - k) l).
        { intros l Hl. rewrite U1 by (apply Q2; [unfold lower| |]; lia). f_equal. lia. }
        unfold p_num. rewrite EK, !ACC by auto.
        f_equal; [|f_equal]; apply fnma_chain_ext'; intros l Hl; rewrite ?JNB, ?INB by lia; reflexivity.
      * unfold p_good. rewrite EK. specialize (Hfar Nk). destruct (Nat.ltb_spec i (k + 3 * TS)); [lia|]. rewrite VIJ, (B2 Nk).
        assert (JNB : forall l, l <= j - k -> m' (aL j (k + l)) = m (aL j (k + l))).
        { intros l Hl. apply KEEP; [lia|lia|]. intros Hq'. destruct (Q1 _ _ Hq') as (X1 & X2 & _). specialize (ORD Nk). lia. }
        unfold p_num. rewrite EK, ACC by auto. replace (k + (j - k)) with j by lia.
        pose proof (JNB (j - k) ltac:(lia)) as JJ. replace (k + (j - k)) with j in JJ by lia. rewrite JJ. f_equal.
        apply fnma_chain_ext'; intros l Hl; rewrite ?JNB, ?INB by lia; reflexivity.
Qed.

(** The computation of one register block. *)
Lemma potrf_reg_ok : forall k i0 rm r m brow, k mod TS = 0 -> i0 mod TS = 0 -> k < N -> i0 + rm * TS <= Mp -> k <= i0 -> 1 <= rm ->
  (forall l, brow l = VMat rowVector (poff (ptrans SS (v_ptr SS true L k 0)) l 0)) ->
  (forall u v, u < rm * TS -> v < TS -> reg_at r u v = ld (m (aA (i0 + u) (k + v)))) ->
  exists r1 r2, potrf_gers SS TS T O al (rm * cc) k (v_ptr SS true L i0 0) brow m r = Ok r1 /\
    (i0 = k -> reg_potrf SS T O TS (rm * cc) r1 = Ok r2) /\
    (i0 <> k -> reg_trsm SS T O al TS (rm * cc) (ptrans SS (v_ptr SS true L k k)) m r1 = Ok r2) /\
    blk_res m k i0 (rm * TS) (reg_at r2).
Proof.
  intros k i0 rm r m brow Hk Hi0 HkN HKM Hki Hrm Hb Hr.
  assert (Hk' : k mod SS = 0) by (apply (TS_mod SS HSS cc Hcc); auto).
  assert (Hi0' : i0 mod SS = 0) by (apply (TS_mod SS HSS cc Hcc); auto).
  assert (ERM : rm * cc * SS = rm * TS) by (unfold Ger_Model.TS; lia).
  assert (KNp : k + TS <= Np) by (apply up_block; auto; [apply Nat.mod_same; lia|lia]).
  pose proof NpMp as NM. pose proof NNp as NN.
  pose proof (aptr_wf L i0 0 HL Hi0') as Wa. pose proof (ptrans_wf SS HSS _ (aptr_wf L k 0 HL Hk')) as Wb.
  set (a := v_ptr SS true L i0 0) in *. set (b := ptrans SS (v_ptr SS true L k 0)) in *.
  assert (Ea : forall u l, addr a u l = aL (i0 + u) l) by (intros; apply aptr_addr; auto).
  assert (Eb : forall l v, addr b l v = aL (k + v) l) by (intros; unfold b; rewrite addr_ptrans by auto; apply aptr_addr; auto).
  unfold potrf_gers.
  match goal with |- context [for_ 0 k ?st r] =>
    destruct (ger_loop_ok SS HSS T O al TS (rm * cc) k always (fun x : vec T => vmul T O (vbroadcast T (om1 O)) x) (fun x => omul O (om1 O) x)
      a b m r st) as (r1 & E1 & P1 & _); auto end.
  { apply aptr_so; auto. }
  { apply aptr_lane; auto. }
  { intros _ _. cbn. destruct HL as (_ & X & _). rewrite X. reflexivity. }
  { intros u l Hu Hl. rewrite Ea. apply RL; lia. }
  { intros l v Hl Hv _. rewrite Eb. apply RL; lia. }
  { intros l r'. rewrite Hb. reflexivity. }
  assert (ACC : forall u v, u < rm * TS -> v < TS -> reg_at r1 u v = blk_acc m k i0 u v).
  { intros u v Hu Hv. rewrite P1 by (auto; lia). unfold blk_acc. rewrite Hr by auto.
    apply fma_chain_ext; intros l Hl; rewrite ?Ea, ?Eb; reflexivity. }
  destruct (Nat.eq_dec i0 k) as [Ek|Nk].
  - destruct (reg_potrf_ok SS HSS T O TS (rm * cc) r1) as (r2 & E2 & P2 & _); [unfold Ger_Model.TS; nia|].
    exists r1, r2. split; [exact E1|]. split; [auto|]. split; [congruence|].
    intros u v Hu Hv Hl. split; [intros _|congruence]. rewrite P2 by lia. rewrite !ACC by (try lia; subst; lia). reflexivity.
  - pose proof (aptr_wf L k k HL Hk') as Wd.
    assert (Ed : forall x y, addr (ptrans SS (v_ptr SS true L k k)) x y = aL (k + y) (k + x)).
    { intros. rewrite addr_ptrans by auto. apply aptr_addr; auto. }
    destruct (reg_trsm_ok SS HSS T O al TS (rm * cc) (ptrans SS (v_ptr SS true L k k)) m r1) as (r2 & E2 & P2 & _).
    { intros x y Hx Hy. rewrite Ed. apply RL; lia. }
    exists r1, r2. split; [exact E1|]. split; [congruence|]. split; [auto|].
    intros u v Hu Hv Hl. split; [congruence|intros _]. rewrite P2 by lia. rewrite ACC by lia. rewrite !Ed. f_equal.
    apply fnma_chain_ext'; intros l Hl'; rewrite ?Ed; reflexivity.
Qed.

(** One kernel call. *)
Definition call_spec (call : nat -> nat -> nat -> mem T -> res (mem T)) : Prop :=
  forall k i0 rm m, k mod TS = 0 -> i0 mod TS = 0 -> k < N -> k <= i0 -> i0 < M -> 1 <= rm <= 3 -> i0 + rm * TS < M + TS ->
    (i0 <> k -> k + 3 * TS <= i0) -> p_inv k i0 m -> exists m', call k i0 rm m = Ok m' /\ p_inv k (i0 + rm * TS) m'.

Lemma column_ok : forall call, call_spec call -> forall k m, k mod TS = 0 -> k < N -> p_inv k k m ->
  exists m', potrf_column SS cc T call M k m = Ok m' /\ p_inv (k + TS) (k + TS) m'.
Proof.
  intros call HC k m Hk HkN H0.
  set (P := fun w i m => p_inv k i m /\ i mod TS = 0 /\ k <= i /\ i < M + TS /\ (i = k \/ k + 3 * TS <= i \/ M <= i) /\ M <= i + w).
  assert (Hstep : forall rm w i s, 1 <= rm <= 3 -> (rm < 3 -> w <= rm * TS) -> P w i s -> i + (rm - 1) * TS <? M = true ->
    exists s', call k i rm s = Ok s' /\ P w (i + rm * TS) s').
  { intros rm w i s Hrm Hw (I & Hi & Hki & _ & Hc & Hw') C. apply Nat.ltb_lt in C.
    destruct (HC k i rm s) as (s' & E & I'); auto; try nia.
    exists s'. split; auto. split; auto. split; [|].
    { rewrite Nat.add_mod, Hi, Nat.mod_mul by lia. cbn. apply Nat.mod_0_l. lia. }
    split; [nia|]. split; [nia|]. split; [|nia].
    destruct Hc as [->|[Hc|Hc]]; [|right; left; nia|nia]. right. destruct (Nat.eq_dec rm 3) as [->|]; [left; lia|]. right. specialize (Hw ltac:(lia)). lia. }
  unfold potrf_column. cbv zeta.
  destruct (foldM_steps (mem T) (P M) (fun i m => call k i 3 m) (fun i => i + 2 * TS <? M) (3 * TS) (M + 1) k m) as (m1 & E1 & P1).
  { split; auto. split; auto. lia. }
  { intros i s HP C. apply (Hstep 3 M); auto; lia. }
  rewrite E1. cbn [bind].
  pose proof (steps_spec (fun _ => True) (fun i => i + 2 * TS <? M) (3 * TS) (M + 1) k M) as SP1. cbv zeta in SP1.
  set (i1 := snd (steps (M + 1) (fun i => i + 2 * TS <? M) (3 * TS) k)) in *.
  destruct SP1 as (C1 & _); auto; try lia.
  { intros x _ C. apply Nat.ltb_lt in C. lia. }
  apply Nat.ltb_ge in C1.
  assert (P1' : P (2 * TS) i1 m1) by (destruct P1 as (X1 & X2 & X3 & X4 & X5 & X6); repeat (split; auto)).
  destruct (foldM_steps (mem T) (P (2 * TS)) (fun i m => call k i 2 m) (fun i => i + 1 * TS <? M) (2 * TS) (M + 1) i1 m1 P1') as (m2 & E2 & P2).
  { intros i s HP C. apply (Hstep 2 (2 * TS)); auto; lia. }
  rewrite E2. cbn [bind].
  pose proof (steps_spec (fun _ => True) (fun i => i + 1 * TS <? M) (2 * TS) (M + 1) i1 M) as SP2. cbv zeta in SP2.
  set (i2 := snd (steps (M + 1) (fun i => i + 1 * TS <? M) (2 * TS) i1)) in *.
  destruct SP2 as (C2 & _); auto; try lia.
  { intros x _ C. apply Nat.ltb_lt in C. lia. }
  apply Nat.ltb_ge in C2.
  assert (P2' : P (1 * TS) i2 m2) by (destruct P2 as (X1 & X2 & X3 & X4 & X5 & X6); repeat (split; auto)).
  destruct (foldM_steps (mem T) (P (1 * TS)) (fun i m => call k i 1 m) (fun i => i + 0 * TS <? M) (1 * TS) (M + 1) i2 m2 P2') as (m3 & E3 & P3).
  { intros i s HP C. apply (Hstep 1 (1 * TS)); auto; lia. }
  rewrite E3. exists m3. split; auto.
  pose proof (steps_spec (fun _ => True) (fun i => i + 0 * TS <? M) (1 * TS) (M + 1) i2 M) as SP. cbv zeta in SP.
  set (i3 := snd (steps (M + 1) (fun i => i + 0 * TS <? M) (1 * TS) i2)) in *.
  destruct SP as (C & _); auto; try lia.
  { intros x _ C. apply Nat.ltb_lt in C. lia. }
  apply Nat.ltb_ge in C. destruct P3 as ([F V] & _). split.
  - intros a Ha. apply F. intros i j Hw Hi Hj Hd. apply Ha; auto. unfold done in *. lia.
  - intros i j Hl Hd. apply V; auto. unfold done, lower in *. lia.
Qed.

Lemma loops_ok : forall call, call_spec call ->
  exists m', potrf_loops SS cc TS T call M N m0 = Ok m' /\ p_inv (N + TS) (N + TS) m'.
Proof.
  intros call HC. unfold potrf_loops.
  destruct (foldM_steps (mem T) (fun k m => p_inv k k m /\ k mod TS = 0) (fun k m => potrf_column SS cc T call M k m)
     (fun k => k <? N) TS (N + 1) 0 m0) as (m' & E & (F & V) & Hm).
  - split; [split|apply Nat.mod_0_l; lia].
    + auto.
    + intros i j (X & Y & Z) [D|[D1 D2]]; lia.
  - intros k m (I & Hk) C. apply Nat.ltb_lt in C. destruct (column_ok call HC k m Hk C I) as (m' & E & I').
    exists m'. split; auto. split; auto. rewrite Nat.add_mod, Hk, Nat.mod_same by lia. apply Nat.mod_0_l. lia.
  - exists m'. split; auto.
    pose proof (steps_spec (fun _ => True) (fun k => k <? N) TS (N + 1) 0 N) as SP. cbv zeta in SP.
    set (kf := snd (steps (N + 1) (fun k => k <? N) TS 0)) in *. destruct SP as (C & _); auto; try lia.
    { intros x _ C. apply Nat.ltb_lt in C. lia. }
    apply Nat.ltb_ge in C. split.
    + intros a Ha. apply F. intros i j Hw Hi Hj Hd. apply Ha; auto. unfold done in *. lia.
    + intros i j Hl Hd. apply V; auto. unfold done, lower in *. lia.
Qed.
(** Storing the register block. *)
Lemma store_advance : forall k i0 rm r m f W P, k mod TS = 0 -> i0 mod TS = 0 -> k <= i0 -> i0 + rm * TS <= Mp ->
  rm <= 3 -> (i0 <> k -> k + 3 * TS <= i0) ->
  p_inv k i0 m -> blk_res m k i0 (rm * TS) (reg_at r) ->
  effect f W -> region W P (addr (v_ptr SS true L i0 k)) (reg_at r) ->
  (forall u v, P u v -> u < rm * TS /\ v < TS /\ k + v < N /\ wr (i0 + u) (k + v)) ->
  (forall u v, u < rm * TS -> v < TS -> lower M N (i0 + u) (k + v) -> P u v) ->
  exists m', f m = Ok m' /\ p_inv k (i0 + rm * TS) m'.
Proof.
  intros k i0 rm r m f W P Hk Hi0 Hki HKM HR3 Hfar I B E R P1 P2.
  assert (Hi0' : i0 mod SS = 0) by (apply (TS_mod SS HSS cc Hcc); auto).
  assert (EP : forall x y, addr (v_ptr SS true L i0 k) x y = aL (i0 + x) (k + y)) by (intros; apply aptr_addr; auto).
  destruct (region_writes T f W _ _ _ E R) with (m := m) as (m' & Em & U).
  { intros i j i' j' H H' X. rewrite !EP in X. apply P1 in H. apply P1 in H'. apply DL in X; lia. }
  exists m'. split; auto.
  apply (advance k i0 (rm * TS) (fun i j => i0 <= i /\ k <= j /\ P (i - i0) (j - k)) (reg_at r) m m'); auto.
  - apply Nat.mul_le_mono_r. auto.
  - apply (lift_block T aL (addr (v_ptr SS true L i0 k)) i0 k P _ _ (reg_at r)); auto.
    + intros x y _. f_equal; lia.
    + intros i j. tauto.
  - intros i j (Hi & Hj & HP). apply P1 in HP. replace (i0 + (i - i0)) with i in HP by lia. replace (k + (j - k)) with j in HP by lia.
    repeat split; try lia. tauto.
  - intros i j Hl Hi Hj. split; [lia|]. split; [lia|]. apply P2; try lia.
    replace (i0 + (i - i0)) with i by lia. replace (k + (j - k)) with j by lia. auto.
Qed.

Lemma kblock : forall k i0 rm, k mod TS = 0 -> i0 mod TS = 0 -> i0 + rm * TS < M + TS -> k < N -> i0 + rm * TS <= Mp /\ k + TS <= Np.
Proof.
  intros k i0 rm Hk Hi H HkN. split; apply up_block; auto; try lia.
  - apply Nat.mod_mul. lia.
  - apply Nat.mod_same. lia.
Qed.
Lemma ordered : forall k i0, k mod TS = 0 -> i0 mod TS = 0 -> k <= i0 -> i0 <> k -> k + TS <= i0.
Proof.
  intros k i0 Hk Hi0 H Ne. apply mod0_ex in Hk; auto. apply mod0_ex in Hi0; auto. destruct Hk as [x ->], Hi0 as [y ->].
  assert (x < y) by nia. nia.
Qed.

Lemma potrf_dense_call_ok : (forall x, ld x = omul O (o1 O) x) -> (forall i j, wr i j <-> j <= i) ->
  call_spec (potrf_dense_call SS cc TS T O al A L).
Proof.
  intros Hld Hwr k i0 rm m Hk Hi0 HkN Hki HiM [Hrm HR3] Hb Hfar I.
  destruct (kblock k i0 rm Hk Hi0 Hb HkN) as [HKM HKN].
  assert (Hi0' : i0 mod SS = 0) by (apply (TS_mod SS HSS cc Hcc); auto).
  assert (ERM : rm * cc * SS = rm * TS) by (unfold Ger_Model.TS; lia).
  pose proof NpMp as NM.
  unfold potrf_dense_call. fold M N. cbv zeta.
  destruct (reg_loadb_ok SS HSS T O al TS (rm * cc) (o1 O) (v_ptr SS true A i0 k) m (reg0 T O) (aptr_wf A i0 k HA Hi0') (aptr_so A i0 k HA)) as (r & Er & Pr).
  { intros u v Hu Hv. rewrite aptr_addr by auto. apply RA; lia. }
  rewrite Er. cbn [bind].
  destruct (potrf_reg_ok k i0 rm r m (fun l => VMat rowVector (poff (ptrans SS (v_ptr SS true L k 0)) l 0))) as (r1 & r2 & E1 & E2 & E3 & B); auto.
  { intros u v Hu Hv. rewrite Pr by lia. rewrite aptr_addr, Hld by auto. reflexivity. }
  rewrite E1. cbn [bind].
  pose proof (aptr_wf L i0 k HL Hi0') as WP. pose proof (aptr_so L i0 k HL) as SO. pose proof (aptr_store L i0 k) as ST.
  assert (EP : forall x y, addr (v_ptr SS true L i0 k) x y = aL (i0 + x) (k + y)) by (intros; apply aptr_addr; auto).
  destruct (Nat.eqb_spec i0 k) as [Ek|Nk].
  - rewrite (E2 Ek). cbn [bind]. destruct (Nat.leb_spec (k + TS) N).
    + destruct (reg_storeLower_region SS HSS T al TS (rm * cc) (v_ptr SS true L i0 k) r2 WP SO ST) as (W & E & R).
      { intros u v Hu Hv. rewrite EP. apply RL; lia. }
      apply (store_advance k i0 rm r2 m _ W _ Hk Hi0 Hki HKM HR3 Hfar I B E R); intros u v; rewrite ?Hwr; unfold lower; lia.
    + destruct (reg_storeLower_mn_region SS HSS T al TS (rm * cc) (v_ptr SS true L i0 k) r2 WP SO ST (min (M - i0) (rm * TS)) (N - k)) as (W & E & R); try lia.
      { intros u v Hu Hv. rewrite EP. apply RL; lia. }
      apply (store_advance k i0 rm r2 m _ W _ Hk Hi0 Hki HKM HR3 Hfar I B E R); intros u v; rewrite ?Hwr; unfold lower; lia.
  - rewrite (E3 Nk). cbn [bind]. pose proof (ordered k i0 Hk Hi0 Hki Nk) as OR. destruct (Nat.leb_spec (k + TS) N).
    + destruct (reg_store_region SS HSS T al TS (rm * cc) (v_ptr SS true L i0 k) r2 WP SO ST) as (W & E & R).
      { intros u v Hu Hv. rewrite EP. apply RL; lia. }
      apply (store_advance k i0 rm r2 m _ W _ Hk Hi0 Hki HKM HR3 Hfar I B E R); intros u v; rewrite ?Hwr; unfold lower; lia.
    + destruct (reg_store_mn_region SS HSS T al TS (rm * cc) (v_ptr SS true L i0 k) r2 WP SO ST (min (M - i0) (rm * TS)) (N - k)) as (W & E & R); try lia.
      { intros u v Hu Hv. rewrite EP. apply RL; lia. }
      apply (store_advance k i0 rm r2 m _ W _ Hk Hi0 Hki HKM HR3 Hfar I B E R); intros u v; rewrite ?Hwr; unfold lower; lia.
Qed.

Lemma potrf_panel_call_ok : (forall x, ld x = x) -> (forall i j, wr i j <-> TS * (j / TS) <= i) ->
  call_spec (potrf_panel_call SS cc TS T O al A L).
Proof.
  intros Hld Hwr k i0 rm m Hk Hi0 HkN Hki HiM [Hrm HR3] Hb Hfar I.
  destruct (kblock k i0 rm Hk Hi0 Hb HkN) as [HKM HKN].
  assert (Hi0' : i0 mod SS = 0) by (apply (TS_mod SS HSS cc Hcc); auto).
  assert (ERM : rm * cc * SS = rm * TS) by (unfold Ger_Model.TS; lia).
  pose proof NpMp as NM.
  assert (KJ : forall v, v < TS -> TS * ((k + v) / TS) = k).
  { intros v Hv. apply mod0_ex in Hk; auto. destruct Hk as [q ->]. rewrite (div_q TS q v) by lia. auto. }
  unfold potrf_panel_call. fold M N. cbv zeta.
  destruct (reg_load_ok SS HSS T O al TS (rm * cc) (v_ptr SS true A i0 k) m (reg0 T O) (aptr_wf A i0 k HA Hi0') (aptr_so A i0 k HA)) as (r & Er & Pr).
  { intros u v Hu Hv. rewrite aptr_addr by auto. apply RA; lia. }
  rewrite Er. cbn [bind].
  destruct (potrf_reg_ok k i0 rm r m (fun l => vtrans SS (VMat columnVector (poff (v_ptr SS true L k 0) 0 l)))) as (r1 & r2 & E1 & E2 & E3 & B); auto.
  { intros l. cbn [vtrans tflag_neg]. rewrite ptrans_poff by auto. reflexivity. }
  { intros u v Hu Hv. rewrite Pr by lia. rewrite aptr_addr, Hld by auto. reflexivity. }
  rewrite E1. cbn [bind].
  pose proof (aptr_wf L i0 k HL Hi0') as WP. pose proof (aptr_so L i0 k HL) as SO. pose proof (aptr_store L i0 k) as ST.
  assert (EP : forall x y, addr (v_ptr SS true L i0 k) x y = aL (i0 + x) (k + y)) by (intros; apply aptr_addr; auto).
  assert (ES : (if i0 =? k then reg_potrf SS T O TS (rm * cc) r1
        else reg_trsm SS T O al TS (rm * cc) (ptrans SS (v_ptr SS true L k k)) m r1) = Ok r2).
  { destruct (Nat.eqb_spec i0 k); auto. }
  rewrite ES. cbn [bind]. destruct (Nat.leb_spec (k + TS) N).
  + destruct (reg_store_region SS HSS T al TS (rm * cc) (v_ptr SS true L i0 k) r2 WP SO ST) as (W & E & R).
    { intros u v Hu Hv. rewrite EP. apply RL; lia. }
    apply (store_advance k i0 rm r2 m _ W _ Hk Hi0 Hki HKM HR3 Hfar I B E R); intros u v; unfold lower; [|lia].
    intros Huv. rewrite Hwr, KJ by lia. lia.
  + destruct (reg_store_mn_region SS HSS T al TS (rm * cc) (v_ptr SS true L i0 k) r2 WP SO ST (min (M - i0) (rm * TS)) (N - k)) as (W & E & R); try lia.
    { intros u v Hu Hv. rewrite EP. apply RL; lia. }
    apply (store_advance k i0 rm r2 m _ W _ Hk Hi0 Hki HKM HR3 Hfar I B E R); intros u v; unfold lower; [|lia].
    intros Huv. rewrite Hwr, KJ by lia. lia.
Qed.
End Run.
End Potrf.
