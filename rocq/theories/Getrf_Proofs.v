(** Getrf_Proofs.v -- the blocked factorisation. *)
From Coq Require Import Arith Lia List Bool PeanoNat Ring.
From Verif Require Import Base Base_Proofs Spec Algebra_Proofs Layout_Model Layout_Proofs Simd_Model Simd_Proofs Reg_Proofs Vec_Proofs
  Gemm_Model Gemm_Proofs Arg_Proofs Ger_Model Ger_Proofs Scan_Proofs Tri_Model Tri_Proofs Potrf_Proofs Properties_Tri
  LU_Model LU_Theory LU_Proofs.

(** Executing "for (; cond(i); i += step) f(i)" when f may throw. *)
Lemma foldM_steps_throw : forall St (P : nat -> St -> Prop) (E : Prop) e (f : nat -> St -> res St) cond step fuel i s,
  P i s -> (forall i s, P i s -> cond i = true -> (exists s', f i s = Ok s' /\ P (i + step) s') \/ (f i s = Throw e /\ E)) ->
  (exists s', foldM f (fst (steps fuel cond step i)) s = Ok s' /\ P (snd (steps fuel cond step i)) s') \/
  (foldM f (fst (steps fuel cond step i)) s = Throw e /\ E).
Proof.
  intros St P E e f cond step fuel. induction fuel as [|n IH]; intros i s Hi Hf; cbn [steps].
  - left. exists s. auto.
  - destruct (cond i) eqn:C; [|left; exists s; auto]. cbn [fst snd foldM].
    destruct (Hf i s Hi C) as [(s' & E1 & Hs')|[E1 X]]; rewrite E1; cbn [bind]; auto.
Qed.

(** A run on the trailing matrix extends the run. *)
Lemma lu_run_shift : forall T (O : Ops T) el M p r p' k n A B N, k + n <= M -> n <= N -> lu_run O el M p k A ->
  lu_run O el (M - k) r n B -> (forall i j, i < M - k -> j < N -> B i j = lu_after O el p k A (k + i) (k + j)) ->
  (forall l, l < k -> p' l = p l) -> (forall l, l < n -> p' (k + l) = k + r l) -> lu_run O el M p' (k + n) A.
Proof.
  intros T O el M p r p' k n A B N Hkn HnN R1 R2 HB E1 E2 l Hl.
  destruct (Nat.lt_ge_cases l k) as [C|C].
  - destruct (R1 l C) as [[Q1 Q2] Q3]. rewrite E1 by auto.
    assert (X : forall i j, lu_after O el p' l A i j = lu_after O el p l A i j).
    { intros i j. apply lu_piv_ext. intros l' Hl'. apply E1. lia. }
    rewrite X. split; auto. split; [rewrite E1 by auto; auto|]. rewrite E1 by auto. eapply pivot_max_ext; [|exact Q2].
    intros i Hi. apply X.
  - set (t := l - k). assert (Et : l = k + t) by (unfold t; lia). assert (Ht : t < n) by (unfold t; lia). clearbody t. subst l.
    destruct (R2 t Ht) as [[Q1 Q2] Q3].
    assert (RB : forall l, l < n -> r l < M - k) by (intros l Hl'; apply R2; auto).
    assert (X : forall i j, i < M - k -> j < N -> lu_after O el p' (k + t) A (k + i) (k + j) = lu_after O el r t B i j).
    { intros i j Hi Hj. rewrite lu_shift.
      - apply (lu_ext O el r _ t B _ (M - k) N); auto; try lia.
        + intros l Hl'. apply RB. lia.
        + intros l Hl'. rewrite E2 by lia. lia.
        + intros i' j' Hi' Hj'. rewrite HB by auto. apply lu_piv_ext. auto.
      - intros l Hl'. rewrite E2 by lia. lia. }
    rewrite E2 by auto. rewrite X by (auto; lia). split; auto. split.
    + rewrite E2 by auto. lia.
    + rewrite E2 by auto. replace (k + r t - (k + t)) with (r t - t) by lia. replace (M - (k + t)) with (M - k - t) by lia.
      eapply pivot_max_ext; [|exact Q2]. intros i Hi. cbn beta. rewrite <- X by (auto; lia). f_equal; lia.
Qed.
Lemma lu_stuck_shift : forall T (O : Ops T) el M p k n A B N n', k <= M -> k + n <= n' -> n <= N -> lu_run O el M p k A ->
  lu_stuck O el (M - k) n B -> (forall i j, i < M - k -> j < N -> B i j = lu_after O el p k A (k + i) (k + j)) ->
  lu_stuck O el M n' A.
Proof.
  intros T O el M p k n A B N n' HkM Hn HnN R1 (r & t & Ht & R2 & [Q1 Q2] & Z) HB.
  set (p' := fun l => if l <? k then p l else k + r (l - k)).
  assert (E1 : forall l, l < k -> p' l = p l) by (intros l Hl; unfold p'; destruct (Nat.ltb_spec l k); auto; lia).
  assert (E2 : forall l, p' (k + l) = k + r l).
  { intros l. unfold p'. destruct (Nat.ltb_spec (k + l) k); [lia|]. f_equal. f_equal. lia. }
  assert (RB : forall l, l < t -> r l < M - k) by (intros l Hl'; apply R2; auto).
  assert (X : forall i j, i < M - k -> j < N -> lu_after O el p' (k + t) A (k + i) (k + j) = lu_after O el r t B i j).
  { intros i j Hi Hj. rewrite lu_shift.
    - apply (lu_ext O el r _ t B _ (M - k) N); auto; try lia.
      + intros l Hl'. rewrite E2 by lia. lia.
      + intros i' j' Hi' Hj'. rewrite HB by auto. apply lu_piv_ext. auto.
    - intros l Hl'. rewrite E2 by lia. lia. }
  exists p', (k + t). split; [lia|]. split; [|split].
  - apply (lu_run_shift T O el M p r p' k t A B N); auto; lia.
  - split.
    + rewrite E2. lia.
    + rewrite E2. replace (k + r t - (k + t)) with (r t - t) by lia. replace (M - (k + t)) with (M - k - t) by lia.
      eapply pivot_max_ext; [|exact Q2]. intros i Hi. cbn beta. rewrite <- X by (auto; lia). f_equal; lia.
  - rewrite E2, X by (auto; lia). exact Z.
Qed.

Section El.
Context {T : Type} (O : Ops T) (RL : ring_laws O).
Add Ring algel : (alg_ring O RL).
Lemma el_cm_sub : forall l u a, el_cm O l u a = osub O a (omul O l u).
Proof.
  intros l u a. unfold el_cm. rewrite (rl_fma O RL).
  transitivity (osub O (oadd O (omul O (oadd O (o1 O) (om1 O)) (omul O l u)) a) (omul O l u)); [ring|]. rewrite (rl_neg O RL). ring.
Qed.
Lemma split_cancel : forall x s, x = oadd O s (oadd O x (omul O s (om1 O))).
Proof.
  intros x s. transitivity (oadd O (omul O (oadd O (o1 O) (om1 O)) s) x); [rewrite (rl_neg O RL)|]; ring.
Qed.
End El.

Section Getrf.
Variable SS : nat.
Hypothesis HSS : 0 < SS.
Variable cc : nat.
Hypothesis Hcc : 0 < cc.
Variable T : Type.
Variable O : Ops T.
Variables (al : alloc) (A : marg).
Notation M := (g_rows A). Notation N := (g_cols A). Notation ad := (g_addr SS A). Notation NB := (TS SS cc).
Hypothesis AOK : arg_ok SS A.
Hypothesis KD : c_kind (v_cont (g_view A)) = Dense.
Hypothesis SO : g_so A = columnMajor.
Hypothesis AL : allocated al (nextMultiple M SS) N ad.
Hypothesis OV : forall k i, k + 1 < M -> k + 1 < N -> i < nextMultiple (M - k - 1) (cc * SS) -> al (ad (k + 1 + i) k) = true.

Let pA := g_ptr SS A.
Let WF : mptr_wf SS pA. Proof. apply g_ptr_wf; auto. Qed.
Let Kd : mp_kind pA = Dense. Proof. unfold pA. rewrite g_ptr_kind. auto. Qed.
Let So : mp_so pA = columnMajor. Proof. unfold pA. rewrite g_ptr_so. auto. Qed.
Let DI : distinct M N ad. Proof. apply g_distinct; auto. Qed.
Let AL' : allocated al M N ad.
Proof. intros i j Hi Hj. apply AL; auto. destruct (nextMultiple_spec M SS HSS). lia. Qed.
Let NB_pos : 0 < NB. Proof. apply TS_pos; auto. Qed.

Lemma off_wf : forall i j, i mod SS = 0 -> mptr_wf SS (poff SS pA i j).
Proof. intros i j Hi. apply poff_wf; auto. intros _. rewrite So. auto. Qed.
Lemma off_addr : forall i j i' j', addr SS (poff SS pA i j) i' j' = ad (i + i') (j + j').
Proof. intros i j i' j'. rewrite addr_poff; auto; [apply g_ptr_addr; auto|]. intros X. rewrite Kd in X. discriminate. Qed.
Lemma offu_wf : forall i j, mptr_wf SS (poff SS (punalign SS pA) i j).
Proof. intros. apply poff_wf; auto; [apply punalign_wf; auto|]. discriminate. Qed.
Lemma offu_addr : forall i j i' j', addr SS (poff SS (punalign SS pA) i j) i' j' = ad (i + i') (j + j').
Proof.
  intros. rewrite addr_poff; auto; [rewrite addr_punalign; auto; apply g_ptr_addr; auto|apply punalign_wf; auto|intros _ X; discriminate X].
Qed.

Variable m0 : mem T.
Variable q0 : piv.
Let A0 := fun i j => m0 (ad i j).
Notation lu_after := (lu_after O (el_cm O)).

Definition g_inv (k : nat) (s : mem T * piv) : Prop :=
  let (m, p) := s in
  (forall a, (forall i j, block M N i j -> a <> ad i j) -> m a = m0 a) /\
  (forall l, l < k -> l <= p l < M) /\ (forall l, k <= l -> p l = q0 l) /\
  (exact_arith O -> lu_run O (el_cm O) M p k A0 /\ forall i j, i < M -> j < N -> m (ad i j) = lu_after p k A0 i j).
Definition g_stuck : Prop := exact_arith O -> lu_stuck O (el_cm O) M (min M N) A0.

(** A panel: rows k.., columns k .. k + nb - 1. *)
Lemma panel_ok : forall k nb P m p, k mod SS = 0 -> k < M -> k + nb <= N -> nb <= M - k ->
  mptr_wf SS P -> mp_kind P = Dense -> mp_so P = columnMajor -> (forall i j, addr SS P i j = ad (k + i) (k + j)) ->
  g_inv k (m, p) ->
  (exists m' q', getf2_ptr SS cc T O al (M - k) nb P k (m, p) = Ok (m', q') /\
     (forall l, l < nb -> l <= q' (k + l) < M - k) /\
     (forall l, l < k \/ k + nb <= l -> q' l = p l) /\
     (forall a, (forall i j, i < M - k -> j < nb -> a <> ad (k + i) (k + j)) -> m' a = m a) /\
     (forall i j, i < M - k -> j < nb -> m' (ad (k + i) (k + j)) = lu_after (fun l => q' (k + l)) nb (fun i j => m (ad (k + i) (k + j))) i j) /\
     lu_run O (el_cm O) (M - k) (fun l => q' (k + l)) nb (fun i j => m (ad (k + i) (k + j)))) \/
  (getf2_ptr SS cc T O al (M - k) nb P k (m, p) = Throw InvalidArgument /\ g_stuck).
Proof.
  intros k nb P m p Hk HkM Hnb HnM WP KP SP EP (F & PB & PU & EX).
  destruct (getf2_ptr_ok SS HSS cc Hcc T O al (M - k) nb P WP KP SP) with (p0 := k) (m0 := m) (q0 := p) as [(m' & q' & E & R & [U1 U2] & QF)|[E X]].
  - intros i j i' j' Hi Hj Hi' Hj' Q. rewrite !EP in Q. apply DI in Q; lia.
  - intros i j Hi Hj. rewrite EP. apply AL'; lia.
  - intros l i Hl Hl' Hi. rewrite EP. replace (k + (l + 1 + i)) with (k + l + 1 + i) by lia. apply OV; try lia.
    replace (M - (k + l) - 1) with (M - k - l - 1) by lia. exact Hi.
  - left. rewrite Nat.min_r in * by lia. exists m', q'. split; auto.
    assert (RX : lu_run O (el_cm O) (M - k) (fun l => q' (k + l)) nb (fun i j => m (ad (k + i) (k + j)))).
    { apply (lu_run_ext O (el_cm O) (M - k) nb (fun l => q' (k + l)) _ nb (fun i j => m (addr SS P i j))); auto. }
    split; [|split; [|split; [|split]]]; auto.
    + intros l Hl. apply RX. auto.
    + intros a Ha. apply U2. intros i j [Hi Hj]. rewrite EP. auto.
    + intros i j Hi Hj. rewrite <- EP, U1 by (split; auto). apply (lu_ext O (el_cm O) (fun l => q' (k + l)) _ nb _ _ (M - k) nb); auto; try lia.
      intros l Hl. apply RX. auto.
  - right. split; auto. intros XA. destruct (EX XA) as [RR CC]. rewrite Nat.min_r in * by lia.
    apply (lu_stuck_shift T O (el_cm O) M p k nb A0 (fun i j => m (addr SS P i j)) nb); auto; try lia.
    intros i j Hi Hj. rewrite EP. apply CC; lia.
Qed.

Lemma getrf_step_ok : forall k s, k mod NB = 0 -> k + NB < M -> k + NB < N -> g_inv k s ->
  (exists s', getrf_step SS cc T O al A k s = Ok s' /\ g_inv (k + NB) s') \/
  (getrf_step SS cc T O al A k s = Throw InvalidArgument /\ g_stuck).
Proof.
  intros k [m p] Hk HkM HkN INV. unfold getrf_step. fold pA.
  assert (HkS : k mod SS = 0) by (apply (TS_mod SS HSS cc Hcc); auto).
  assert (HNS : NB mod SS = 0) by (unfold TS; apply Nat.mod_mul; lia).
  assert (HkNS : (k + NB) mod SS = 0) by (rewrite Nat.add_mod, HkS, HNS by lia; apply Nat.mod_0_l; lia).
  destruct (panel_ok k NB (poff SS (punalign SS pA) k k) m p HkS) as [(m1 & q1 & E1 & QB & QF & F1 & V1 & R1)|[E1 X]]; auto; try lia.
  { apply offu_wf. } { intros i j. rewrite offu_addr. reflexivity. }
  2:{ right. rewrite E1. auto. }
  left. rewrite E1. cbn [bind]. destruct INV as (F & PB & PU & EX).
  set (p2 := padd k (k + NB) k q1).
  assert (P2a : forall l, l < NB -> p2 (k + l) = k + q1 (k + l)).
  { intros l Hl. unfold p2, padd. destruct (Nat.leb_spec k (k + l)), (Nat.ltb_spec (k + l) (k + NB)); cbn [andb]; lia. }
  assert (P2b : forall l, l < k \/ k + NB <= l -> p2 l = p l).
  { intros l Hl. unfold p2, padd. destruct (Nat.leb_spec k l), (Nat.ltb_spec l (k + NB)); cbn [andb]; try lia; apply QF; lia. }
  assert (P2c : forall l, k <= l < k + NB -> l <= p2 l < M).
  { intros l Hl. replace l with (k + (l - k)) by lia. rewrite P2a by lia. specialize (QB (l - k)). lia. }
  set (D := DMat M N ad).
  (* columns to the left *)
  destruct (laswp_ok T al (dsub D 0 0 M k) k (k + NB) p2 m1) as (m2 & E2 & U2 & F2).
  { cbn. intros i j i' j' Hi Hj Hi' Hj' Q. apply DI in Q; lia. }
  { cbn. intros i j Hi Hj. apply AL'; lia. }
  { lia. } { cbn. lia. } { cbn. intros l Hl. apply P2c. lia. }
  rewrite E2. cbn [bind]. cbn [dsub d_m d_n d_at Nat.add] in U2, F2. cbn [D d_at] in U2, F2.
  replace (k + NB - k) with NB in U2 by lia.
  (* columns to the right *)
  destruct (laswp_ok T al (dsub D 0 (k + NB) M (N - k - NB)) k (k + NB) p2 m2) as (m3 & E3 & U3 & F3).
  { cbn. intros i j i' j' Hi Hj Hi' Hj' Q. apply DI in Q; lia. }
  { cbn. intros i j Hi Hj. apply AL'; lia. }
  { lia. } { cbn. lia. } { cbn. intros l Hl. apply P2c. lia. }
  rewrite E3. cbn [bind]. cbn [dsub d_m d_n d_at Nat.add] in U3, F3. cbn [D d_at] in U3, F3.
  replace (k + NB - k) with NB in U3 by lia.
  (* U12 *)
  set (A11 := dsub D k k NB NB). set (A12 := dsub D k (k + NB) NB (N - k - NB)).
  assert (TP : trsm_pre al Lower true A11 A12 A12).
  { constructor; cbn; auto.
    - intros i l Hi Hl _. apply AL'; lia.
    - intros i j Hi Hj. apply AL'; lia.
    - intros i j Hi Hj. apply AL'; lia.
    - intros i j i' j' Hi Hj Hi' Hj' Q. apply DI in Q; lia.
    - intros i j i' l Hi Hj Hi' Hl _ Q. apply DI in Q; lia.
    - intros i j i' j' Hi Hj Hi' Hj' Q. apply DI in Q; lia. }
  destruct (C31_trsm_ops T O al Lower true A11 A12 A12 m3 TP) as (m4 & E4 & _ & F4).
  assert (V4 : field_laws O -> forall i j, i < NB -> j < N - k - NB ->
    sum O NB (fun l => omul O (triangle O Lower true (fun i l => m3 (ad (k + i) (k + l))) i l) (m4 (ad (k + l) (k + NB + j)))) = m3 (ad (k + i) (k + NB + j))).
  { intros FL i j Hi Hj. destruct (C31_trsm_field T O al Lower true A11 A12 A12 m3 FL TP) as (m4' & E4' & V4 & _); [discriminate|].
    rewrite E4 in E4'. injection E4' as <-. apply (V4 i j); auto. }
  rewrite E4. cbn [bind]. cbn [A12 dsub d_m d_n d_at] in F4. cbn [D d_at] in F4.
  (* A22 *)
  destruct (gemm_ptr_ok SS HSS T O al (M - k - NB) (N - k - NB) NB (om1 O) (poff SS pA (k + NB) k) (poff SS pA k (k + NB)) (o1 O)
         (poff SS pA (k + NB) (k + NB)) (poff SS pA (k + NB) (k + NB)) m4) as (m5 & E5 & U5 & F5); auto using off_wf.
  { intros X. cbn in X. congruence. }
  { intros X. cbn in X. congruence. }
  { intros i j Hi Hj. rewrite off_addr. apply AL; [|lia]. pose proof (nextMultiple_sub SS (k + NB) (M - k - NB) M HSS HkNS). lia. }
  { intros i j Hi Hj. rewrite off_addr. apply AL'; lia. }
  { intros i j Hi Hj. rewrite off_addr. apply AL; [|lia]. pose proof (nextMultiple_sub SS (k + NB) (M - k - NB) M HSS HkNS). lia. }
  { intros i j Hi Hj. rewrite off_addr. apply AL'; lia. }
  { intros i j i' j' Hi Hj Hi' Hj' Q. rewrite !off_addr in Q. apply DI in Q; lia. }
  { intros i j i' j' Hi Hj Hi' Hj' Q. rewrite !off_addr in Q. apply DI in Q; lia. }
  { intros i j i' j' Hi Hj Hi' Hj' Q. rewrite !off_addr in Q. apply DI in Q; lia. }
  { intros i j i' j' [Hi Hj] [Hi' Hj'] Q. rewrite !off_addr in Q. apply DI in Q; lia. }
  rewrite E5. cbn [bind]. exists (m5, p2). split; auto. split; [|split; [|split]].
  - intros a Ha. rewrite F5, F4, F3, F2, F1; auto; intros i j; unfold block; intros; rewrite ?off_addr; apply Ha; unfold block; lia.
  - intros l Hl. destruct (Nat.lt_ge_cases l k); [rewrite P2b by lia; auto|apply P2c; lia].
  - intros l Hl. rewrite P2b by lia. apply PU. lia.
  - intros [FL EO]. destruct (EX (conj FL EO)) as [RR CC]. pose proof (fl_ring O FL) as RL.
    pose proof (el_cm_sub O RL) as EL.
    set (b := lu_after p k A0) in *. set (r := fun l => q1 (k + l)) in *.
    set (B := fun i j => b (k + i) (k + j)).
    assert (PKn : forall l, l < NB -> k <= p2 (k + l)) by (intros l Hl; rewrite P2a by auto; lia).
    assert (Eb : forall i j, lu_after p2 k A0 i j = b i j).
    { intros i j. apply lu_piv_ext. intros l Hl. apply P2b. lia. }
    assert (Rr : lu_run O (el_cm O) (M - k) r NB B).
    { apply (lu_run_ext O (el_cm O) (M - k) NB r _ NB (fun i j => m (ad (k + i) (k + j)))); auto.
      intros i j Hi Hj. unfold B. symmetry. apply CC; lia. }
    split.
    { apply (lu_run_shift T O (el_cm O) M p r p2 k NB A0 B (N - k)); auto; try lia. }
    assert (RB : forall l, l < NB -> r l < M - k) by (intros l Hl; apply QB; auto).
    assert (PO : pivots_ok O (el_cm O) r NB B) by (apply (lu_run_pivots_ok T O (el_cm O) (M - k)); auto).
    set (c := lu_after r NB B).
    assert (Ec : forall i j, i < M - k -> j < N - k -> lu_after p2 (k + NB) A0 (k + i) (k + j) = c i j).
    { intros i j Hi Hj. rewrite lu_shift by auto. apply (lu_ext O (el_cm O) r _ NB B _ (M - k) (N - k)); auto; try lia.
      - intros l Hl. rewrite P2a by auto. unfold r. lia.
      - intros i' j' _ _. unfold B. apply Eb. }
    (* the left columns *)
    assert (ML : forall i j, i < M -> j < k -> m5 (ad i j) = lu_after p2 (k + NB) A0 i j).
    { intros i j Hi Hj. rewrite lu_cols by auto. rewrite F5, F4, F3, U2; try (intros; rewrite ?off_addr; intros Q; unfold block in *; apply DI in Q; lia).
      2:{ split; auto. }
      apply (interchanged_ext T p2 p2 k NB M); auto; try lia.
      - intros l Hl. apply P2c. lia.
      - intros i' Hi'. rewrite F1 by (intros i2 j2 Hi2 Hj2 Q; apply DI in Q; lia). rewrite CC by (auto; lia). symmetry. apply Eb. }
    (* the panel *)
    assert (MP : forall m', (forall i j, i < M - k -> j < NB -> m' (ad (k + i) (k + j)) = m1 (ad (k + i) (k + j))) ->
                 forall i j, i < M - k -> j < NB -> m' (ad (k + i) (k + j)) = c i j).
    { intros m' Hm' i j Hi Hj. rewrite Hm', V1 by auto. apply (lu_ext O (el_cm O) r _ NB B _ (M - k) NB); auto; try lia.
      intros i' j' Hi' Hj'. unfold B. apply CC; lia. }
    (* the interchanged right columns *)
    assert (MR3 : forall i j, i < M -> j < N - k - NB -> m3 (ad i (k + NB + j)) = interchanged p2 k NB b i (k + NB + j)).
    { intros i j Hi Hj. rewrite U3 by (split; auto).
      assert (X : forall (x : nat -> nat -> T) n i, n <= NB -> interchanged p2 k n (fun i j => x i (k + NB + j)) i j = interchanged p2 k n x i (k + NB + j)).
      { intros x n. induction n as [|n IH]; intros i' Hn; auto. cbn [interchanged]. apply IH. lia. }
      rewrite (X (fun i j => m2 (ad i j))) by auto. apply (interchanged_ext T p2 p2 k NB M); auto; try lia.
      - intros l Hl. apply P2c. lia.
      - intros i' Hi'. rewrite F2, F1; [apply CC; lia| |]; intros; intros Q; unfold block in *; apply DI in Q; lia. }
    assert (F4' : forall i j, i < M -> j < N -> ~ (k <= i < k + NB /\ k + NB <= j) -> m4 (ad i j) = m3 (ad i j)).
    { intros i j Hi Hj X. apply F4. intros i' j' Hi' Hj' Q. apply DI in Q; lia. }
    assert (F5' : forall i j, i < M -> j < N -> ~ (k + NB <= i /\ k + NB <= j) -> m5 (ad i j) = m4 (ad i j)).
    { intros i j Hi Hj X. apply F5. intros i' j' [Hi' Hj'] Q. rewrite off_addr in Q. apply DI in Q; lia. }
    assert (F31 : forall i j, i < M - k -> j < NB -> m3 (ad (k + i) (k + j)) = m1 (ad (k + i) (k + j))).
    { intros i j Hi Hj. rewrite F3, F2; auto; intros i' j' [Hi' Hj'] Q; apply DI in Q; lia. }
    assert (MP4 : forall i j, i < M - k -> j < NB -> m4 (ad (k + i) (k + j)) = c i j).
    { apply MP. intros i j Hi Hj. rewrite F4' by lia. apply F31; auto. }
    assert (MP5 : forall i j, i < M - k -> j < NB -> m5 (ad (k + i) (k + j)) = c i j).
    { intros i j Hi Hj. rewrite F5' by lia. apply MP4; auto. }
    (* the right columns *)
    assert (MR : forall i j, i < M - k -> j < N - k - NB -> m5 (ad (k + i) (k + (NB + j))) = c i (NB + j)).
    { intros i0 j Hi0 Hj.
      destruct (forward_unique O FL (M - k) NB c (fun l => m5 (ad (k + l) (k + (NB + j)))) (fun l => c l (NB + j))
        (fun i => m5 (ad (k + i) (k + (NB + j)))) (fun i => c i (NB + j)) (fun i => interchanged r 0 NB B i (NB + j))) as [K1 K2]; try lia.
      - intros i Hi.
        assert (XI : interchanged r 0 NB B i (NB + j) = m3 (ad (k + i) (k + NB + j))).
        { rewrite MR3 by lia. rewrite interchanged_shift by auto. replace (k + NB + j) with (k + (NB + j)) by lia. unfold B.
          assert (X : forall n i, n <= NB -> interchanged r 0 n (fun i j => b (k + i) (k + j)) i (NB + j) =
             interchanged (fun l => p2 (k + l) - k) 0 n (fun i j => b (k + i) j) i (k + (NB + j))).
          { intros n. induction n as [|n IH]; intros i' Hn; auto. cbn [interchanged Nat.add]. rewrite P2a by lia. unfold r at 2.
            replace (k + q1 (k + n) - k) with (q1 (k + n)) by lia. apply IH. lia. }
          apply X. auto. }
        rewrite XI. replace (k + (NB + j)) with (k + NB + j) by lia.
        assert (SU : sum O NB (fun l => omul O (unit_lower O c i l) (m5 (ad (k + l) (k + NB + j)))) =
                     sum O NB (fun l => omul O (unit_lower O c i l) (m4 (ad (k + l) (k + NB + j))))).
        { apply sum_ext. intros l Hl. rewrite F5' by lia. reflexivity. }
        rewrite SU. destruct (Nat.leb_spec NB i) as [C|C].
        + (* rows of A22 *)
          specialize (U5 (i - NB) j). cbv beta in U5. rewrite !off_addr in U5. replace (k + NB + (i - NB)) with (k + i) in U5 by lia.
          rewrite U5 by (split; lia). unfold gemm_elem. rewrite (rl_fma O RL), (fma_chain_sum O RL), (rl_mul_1 O RL), (rl_add_0 O RL).
          rewrite (F4' (k + i) (k + NB + j)) by lia.
          rewrite (sum_ext O NB (fun l => omul O (unit_lower O c i l) (m4 (ad (k + l) (k + NB + j))))
             (fun l => omul O (m4 (addr SS (poff SS pA (k + NB) k) (i - NB) l)) (m4 (addr SS (poff SS pA k (k + NB)) l j)))).
          2:{ intros l Hl. rewrite !off_addr. replace (k + NB + (i - NB)) with (k + i) by lia. rewrite (MP4 i l) by lia.
              unfold unit_lower. rewrite (proj2 (Nat.ltb_lt l i)) by lia. reflexivity. }
          set (S0 := sum O NB _). apply (split_cancel O RL).
        + (* rows of U12 *)
          rewrite (add_0_r O RL). rewrite <- (V4 FL i j) by lia. apply sum_ext. intros l Hl. f_equal.
          unfold triangle, unit_lower. destruct (Nat.eqb_spec i l), (Nat.eqb_spec l i), (Nat.ltb_spec l i); try lia; auto.
      - intros i Hi. rewrite (lu_factor O (el_cm O) FL EL r NB B PO i (NB + j)). fold c.
        rewrite (proj2 (Nat.leb_le NB (NB + j))), andb_true_r by lia. f_equal.
        apply sum_ext. intros l Hl. unfold upper_trap. rewrite (proj2 (Nat.leb_le l (NB + j))) by lia. reflexivity.
      - destruct (Nat.lt_ge_cases i0 NB); [apply K1|apply K2]; lia. }
    intros i j Hi Hj.
    destruct (Nat.lt_ge_cases j k) as [C|C]; [apply ML; auto|].
    destruct (Nat.lt_ge_cases i k) as [C'|C'].
    + rewrite lu_rows by auto. rewrite Eb, <- CC by auto.
      rewrite F5', F4' by lia.
      destruct (Nat.lt_ge_cases j (k + NB)).
      * rewrite F3, F2, F1; auto; intros; intros Q; unfold block in *; apply DI in Q; lia.
      * replace j with (k + NB + (j - k - NB)) by lia. rewrite MR3 by lia. rewrite interchanged_low by auto.
        replace (k + NB + (j - k - NB)) with j by lia. symmetry. apply CC; auto.
    + replace i with (k + (i - k)) by lia. replace j with (k + (j - k)) by lia. rewrite Ec by lia.
      destruct (Nat.lt_ge_cases (j - k) NB); [apply MP5; lia|].
      replace (j - k) with (NB + (j - k - NB)) by lia. apply MR; lia.
Qed.

Lemma getrf_cm_ok :
  (exists m' q', getrf_cm SS cc T O al A (m0, q0) = Ok (m', q') /\
     (forall a, (forall i j, block M N i j -> a <> ad i j) -> m' a = m0 a) /\
     (forall l, l < min M N -> l <= q' l < M) /\ (forall l, min M N <= l -> q' l = q0 l) /\
     (exact_arith O -> lu_run O (el_cm O) M q' (min M N) A0 /\
        forall i j, i < M -> j < N -> m' (ad i j) = lu_after q' (min M N) A0 i j)) \/
  (getrf_cm SS cc T O al A (m0, q0) = Throw InvalidArgument /\ g_stuck).
Proof.
  unfold getrf_cm. fold pA.
  set (cond := fun k => (k + NB <? M) && (k + NB <? N)).
  assert (CT : forall k, cond k = true -> k + NB < M /\ k + NB < N).
  { intros k. unfold cond. rewrite andb_true_iff, !Nat.ltb_lt. auto. }
  destruct (steps_spec (fun k => k mod NB = 0 /\ (k = 0 \/ k < min M N)) cond NB (M + 1) 0 M) as (S1 & (S2 & S3) & _); auto; try lia.
  { split; auto. apply Nat.mod_0_l. lia. }
  { intros k [H1 H2] C. apply CT in C. split; [|lia]. rewrite Nat.add_mod, H1, Nat.mod_same by lia. apply Nat.mod_0_l. lia. }
  { intros k _ C. apply CT in C. lia. }
  destruct (foldM_steps_throw (mem T * piv) (fun k s => k mod NB = 0 /\ g_inv k s) g_stuck InvalidArgument (getrf_step SS cc T O al A) cond NB (M + 1) 0 (m0, q0))
    as [([m p] & E & _ & INV)|[E X]].
  { split; [apply Nat.mod_0_l; lia|]. split; auto. split; [lia|]. split; auto. intros _. split; [intros l Hl; lia|auto]. }
  { intros k s [H1 H2] C. apply CT in C as [C1 C2]. destruct (getrf_step_ok k s H1 C1 C2 H2) as [(s' & E & I)|X]; auto.
    left. exists s'. split; auto. split; auto. rewrite Nat.add_mod, H1, Nat.mod_same by lia. apply Nat.mod_0_l. lia. }
  2:{ right. rewrite E. auto. }
  rewrite E. cbn [bind]. set (k := snd (steps (M + 1) cond NB 0)) in *.
  destruct ((k <? M) && (k <? N)) eqn:C.
  2:{ (* empty matrix *)
      assert (Z : min M N = 0).
      { apply andb_false_iff in C. rewrite !Nat.ltb_ge in C. lia. }
      assert (k = 0) by lia. left. cbn [bind]. replace k with 0 in * by auto. rewrite Z.
      unfold laswp. rewrite for_empty by lia. cbn [bind]. destruct INV as (F & PB & PU & EX).
      exists m, (padd 0 0 0 p). split; auto. }
  apply andb_true_iff in C. rewrite !Nat.ltb_lt in C. destruct C as [CM CN].
  assert (HkS : k mod SS = 0) by (apply (TS_mod SS HSS cc Hcc); auto).
  set (nn := min (M - k) (N - k)). assert (En : min M N = k + nn) by (unfold nn; lia).
  (* the last panel *)
  destruct (getf2_ptr_ok SS HSS cc Hcc T O al (M - k) (N - k) (poff SS pA k k) (off_wf k k HkS) Kd So) with (p0 := k) (m0 := m) (q0 := p)
    as [(m1 & q1 & E1 & R & [U1 U2] & QF)|[E1 X]].
  { intros i j i' j' Hi Hj Hi' Hj' Q. rewrite !off_addr in Q. apply DI in Q; lia. }
  { intros i j Hi Hj. rewrite off_addr. apply AL'; lia. }
  { intros l i Hl Hl' Hi. rewrite off_addr. replace (k + (l + 1 + i)) with (k + l + 1 + i) by lia. apply OV; try lia.
    replace (M - (k + l) - 1) with (M - k - l - 1) by lia. exact Hi. }
  2:{ right. rewrite E1. split; auto. intros XA. destruct INV as (F & PB & PU & EX). destruct (EX XA) as [RR CC].
      apply (lu_stuck_shift T O (el_cm O) M p k nn A0 (fun i j => m (addr SS (poff SS pA k k) i j)) (N - k)); auto; try lia.
      intros i j Hi Hj. rewrite off_addr. apply CC; lia. }
  left. rewrite E1. cbn [bind]. fold nn in R, U1, QF. destruct INV as (F & PB & PU & EX). rewrite En.
  set (p2 := padd k (k + nn) k q1).
  assert (QB : forall l, l < nn -> l <= q1 (k + l) < M - k) by (intros l Hl; apply R; auto).
  assert (P2a : forall l, l < nn -> p2 (k + l) = k + q1 (k + l)).
  { intros l Hl. unfold p2, padd. destruct (Nat.leb_spec k (k + l)), (Nat.ltb_spec (k + l) (k + nn)); cbn [andb]; lia. }
  assert (P2b : forall l, l < k \/ k + nn <= l -> p2 l = p l).
  { intros l Hl. unfold p2, padd. destruct (Nat.leb_spec k l), (Nat.ltb_spec l (k + nn)); cbn [andb]; try lia; apply QF; lia. }
  assert (P2c : forall l, k <= l < k + nn -> l <= p2 l < M).
  { intros l Hl. replace l with (k + (l - k)) by lia. rewrite P2a by lia. specialize (QB (l - k)). lia. }
  set (D := DMat M N ad).
  destruct (laswp_ok T al (dsub D 0 0 M k) k (k + nn) p2 m1) as (m2 & E2 & V2 & F2).
  { cbn. intros i j i' j' Hi Hj Hi' Hj' Q. apply DI in Q; lia. }
  { cbn. intros i j Hi Hj. apply AL'; lia. }
  { lia. } { cbn. lia. } { cbn. intros l Hl. apply P2c. lia. }
  rewrite E2. cbn [bind]. cbn [dsub d_m d_n d_at Nat.add] in V2, F2. cbn [D d_at] in V2, F2.
  replace (k + nn - k) with nn in V2 by lia.
  exists m2, p2. split; auto. split; [|split; [|split]].
  - intros a Ha. rewrite F2, U2, F; auto; intros i j; unfold block; intros; rewrite ?off_addr; apply Ha; unfold block; lia.
  - intros l Hl. destruct (Nat.lt_ge_cases l k); [rewrite P2b by lia; auto|apply P2c; lia].
  - intros l Hl. rewrite P2b by lia. apply PU. lia.
  - intros XA. destruct (EX XA) as [RR CC]. set (r := fun l => q1 (k + l)) in *.
    assert (PKn : forall l, l < nn -> k <= p2 (k + l)) by (intros l Hl; rewrite P2a by auto; lia).
    assert (Eb : forall i j, lu_after p2 k A0 i j = lu_after p k A0 i j).
    { intros i j. apply lu_piv_ext. intros l Hl. apply P2b. lia. }
    split.
    { apply (lu_run_shift T O (el_cm O) M p r p2 k nn A0 (fun i j => m (addr SS (poff SS pA k k) i j)) (N - k)); auto; try lia.
      intros i j Hi Hj. rewrite off_addr. apply CC; lia. }
    intros i j Hi Hj. destruct (Nat.lt_ge_cases j k) as [C|C].
    { rewrite lu_cols by auto. rewrite V2 by (split; auto). apply (interchanged_ext T p2 p2 k nn M); auto; try lia.
      - intros l Hl. apply P2c. lia.
      - intros i' Hi'. rewrite U2 by (intros i2 j2 [Hi2 Hj2] Q; rewrite off_addr in Q; apply DI in Q; lia). rewrite CC by (auto; lia). symmetry. apply Eb. }
    rewrite F2 by (intros i2 j2 [Hi2 Hj2] Q; apply DI in Q; lia).
    destruct (Nat.lt_ge_cases i k) as [C'|C'].
    { rewrite lu_rows by auto. rewrite Eb. rewrite U2 by (intros i2 j2 [Hi2 Hj2] Q; rewrite off_addr in Q; apply DI in Q; lia). apply CC; auto. }
    replace i with (k + (i - k)) by lia. replace j with (k + (j - k)) by lia. rewrite lu_shift by auto.
    rewrite <- off_addr, U1 by (split; lia). apply (lu_ext O (el_cm O) _ _ nn _ _ (M - k) (N - k)); try lia.
    + intros l Hl. rewrite P2a by auto. specialize (QB l Hl). lia.
    + intros l Hl. rewrite P2a by auto. unfold r. lia.
    + intros i' j' Hi' Hj'. rewrite off_addr, Eb. apply CC; lia.
Qed.
End Getrf.
