(** GetrfOps_Proofs.v -- the blocked factorisation, operation by operation (any scalar arithmetic). *)
From Coq Require Import Arith Lia List Bool PeanoNat.
From Verif Require Import Base Base_Proofs Spec Algebra_Proofs Layout_Model Layout_Proofs Simd_Model Simd_Proofs Reg_Proofs Vec_Proofs
  Gemm_Model Gemm_Proofs Arg_Proofs Ger_Model Ger_Proofs Scan_Proofs Tri_Model Tri_Proofs Potrf_Proofs Properties_Tri
  LU_Model LU_Theory LU_Proofs Getrf_Proofs RoundLU_Proofs Getrf_Spec.

Section Eff.
Variable SS : nat.
Hypothesis HSS : 0 < SS.
Variable cc : nat.
Hypothesis Hcc : 0 < cc.
Variable T : Type.
Variable O : Ops T.
Variables (al : alloc) (A : marg).
Notation M := (g_rows A). Notation N := (g_cols A). Notation ad := (g_addr SS A). Notation NB := (TS SS cc).
Hypothesis AOK : arg_ok SS A.
Hypothesis KD : c_kind (v_cont (g_view A)) = Dense.
Hypothesis SO : g_so A = columnMajor.
Hypothesis AL : allocated al (nextMultiple M SS) N ad.
Hypothesis OV : forall k i, k + 1 < M -> k + 1 < N -> i < nextMultiple (M - k - 1) (cc * SS) -> al (ad (k + 1 + i) k) = true.

Let pA := g_ptr SS A.
Let Kd : mp_kind pA = Dense. Proof. unfold pA. rewrite g_ptr_kind. auto. Qed.
Let So : mp_so pA = columnMajor. Proof. unfold pA. rewrite g_ptr_so. auto. Qed.
Let DI : distinct M N ad. Proof. apply g_distinct; auto. Qed.
Let AL' : allocated al M N ad.
Proof. intros i j Hi Hj. apply AL; auto. destruct (nextMultiple_spec M SS HSS). lia. Qed.
Let NB_pos : 0 < NB. Proof. apply TS_pos; auto. Qed.
Let owf := off_wf SS HSS A AOK SO.
Let oad := off_addr SS HSS A AOK KD.
Let ouwf := offu_wf SS HSS A AOK.
Let ouad := offu_addr SS HSS A AOK.
Notation lu_after := (lu_after O (el_cm O)).
Notation mat m := (fun i j => m (ad i j)).

(** A panel: rows k.., columns k .. k + nb - 1. *)
Lemma panel_eff : forall k nb P (m : mem T) p, k < M -> k + nb <= N ->
  mptr_wf SS P -> mp_kind P = Dense -> mp_so P = columnMajor -> (forall i j, addr SS P i j = ad (k + i) (k + j)) ->
  let n := min (M - k) nb in
  (exists m' q', getf2_ptr SS cc T O al (M - k) nb P k (m, p) = Ok (m', q') /\
     (forall l, l < n -> l <= q' (k + l) < M - k) /\
     (forall l, l < k \/ k + n <= l -> q' l = p l) /\
     (forall a, (forall i j, i < M - k -> j < nb -> a <> ad (k + i) (k + j)) -> m' a = m a) /\
     (forall i j, i < M - k -> j < nb -> m' (ad (k + i) (k + j)) = lu_after (fun l => q' (k + l)) n (fun i j => m (ad (k + i) (k + j))) i j) /\
     lu_run O (el_cm O) (M - k) (fun l => q' (k + l)) n (fun i j => m (ad (k + i) (k + j)))) \/
  (getf2_ptr SS cc T O al (M - k) nb P k (m, p) = Throw InvalidArgument /\ lu_stuck O (el_cm O) (M - k) n (fun i j => m (ad (k + i) (k + j)))).
Proof.
  intros k nb P m p HkM Hnb WP KP SP EP n.
  destruct (getf2_ptr_ok SS HSS cc Hcc T O al (M - k) nb P WP KP SP) with (p0 := k) (m0 := m) (q0 := p) as [(m' & q' & E & R & [U1 U2] & QF)|[E X]]; auto.
  - intros i j i' j' Hi Hj Hi' Hj' Q. rewrite !EP in Q. apply DI in Q; lia.
  - intros i j Hi Hj. rewrite EP. apply AL'; lia.
  - intros l i Hl Hl' Hi. rewrite EP. replace (k + (l + 1 + i)) with (k + l + 1 + i) by lia. apply OV; try lia.
    replace (M - (k + l) - 1) with (M - k - l - 1) by lia. exact Hi.
  - left. exists m', q'. split; auto. fold n in R, U1, QF.
    assert (RX : lu_run O (el_cm O) (M - k) (fun l => q' (k + l)) n (fun i j => m (ad (k + i) (k + j)))).
    { apply (lu_run_ext O (el_cm O) (M - k) nb (fun l => q' (k + l)) _ n (fun i j => m (addr SS P i j))); auto. unfold n. lia. }
    split; [|split; [|split; [|split]]]; auto.
    + intros l Hl. apply RX. auto.
    + intros a Ha. apply U2. intros i j [Hi Hj]. rewrite EP. auto.
    + intros i j Hi Hj. rewrite <- EP, U1 by (split; auto). apply (lu_ext O (el_cm O) (fun l => q' (k + l)) _ n _ _ (M - k) nb); auto; try (unfold n; lia).
      intros l Hl. apply RX. auto.
  - right. split; auto. fold n in X. destruct X as (r & c & Hc & RR & PP & ZZ). exists r, c. split; auto.
    assert (HN : n <= nb) by (unfold n; lia). assert (RB : forall l, l < c -> r l < M - k) by (intros l Hl; apply RR; auto).
    split; [apply (lu_run_ext O (el_cm O) (M - k) nb r r c (fun i j => m (addr SS P i j))); auto; lia|].
    split; [apply (lu_pivot_ext O (el_cm O) (M - k) nb r r c (fun i j => m (addr SS P i j))); auto; lia|].
    rewrite <- ZZ. f_equal. destruct PP as [PP _]. apply (lu_ext O (el_cm O) r r c _ _ (M - k) nb); auto; try lia.
Qed.

Lemma step_eff : forall k (m : mem T) p, k mod NB = 0 -> k + NB < M -> k + NB < N ->
  (exists m' p', getrf_step SS cc T O al A k (m, p) = Ok (m', p') /\
     (forall l, l < k \/ k + NB <= l -> p' l = p l) /\ (forall l, k <= l < k + NB -> l <= p' l < M) /\
     (forall a, (forall i j, block M N i j -> a <> ad i j) -> m' a = m a) /\
     lu_run O (el_cm O) (M - k) (fun l => p' (k + l) - k) NB (fun i j => m (ad (k + i) (k + j))) /\
     (forall i j, i < M - k -> j < NB -> m' (ad (k + i) (k + j)) = lu_after (fun l => p' (k + l) - k) NB (fun i j => m (ad (k + i) (k + j))) i j) /\
     (forall i j, i < M -> j < k -> m' (ad i j) = interchanged p' k NB (mat m) i j) /\
     (forall i j, i < k -> j < N -> m' (ad i j) = m (ad i j)) /\
     (forall i j, i < NB -> j < N - k - NB -> m' (ad (k + i) (k + NB + j)) =
        sub_chain O i (fun l => m' (ad (k + i) (k + l))) (fun l => m' (ad (k + l) (k + NB + j))) (interchanged p' k NB (mat m) (k + i) (k + NB + j))) /\
     (forall i j, i < M - k - NB -> j < N - k - NB -> m' (ad (k + NB + i) (k + NB + j)) =
        gemm_elem T O NB (om1 O) (fun l => m' (ad (k + NB + i) (k + l))) (fun l => m' (ad (k + l) (k + NB + j))) (o1 O)
          (interchanged p' k NB (mat m) (k + NB + i) (k + NB + j)))) \/
  (getrf_step SS cc T O al A k (m, p) = Throw InvalidArgument /\ lu_stuck O (el_cm O) (M - k) NB (fun i j => m (ad (k + i) (k + j)))).
Proof.
  intros k m p Hk HkM HkN. unfold getrf_step. fold pA.
  assert (HkS : k mod SS = 0) by (apply (TS_mod SS HSS cc Hcc); auto).
  assert (HNS : NB mod SS = 0) by (unfold TS; apply Nat.mod_mul; lia).
  assert (HkNS : (k + NB) mod SS = 0) by (rewrite Nat.add_mod, HkS, HNS by lia; apply Nat.mod_0_l; lia).
  assert (WP : mptr_wf SS (poff SS (punalign SS pA) k k)) by apply ouwf.
  assert (EP : forall i j, addr SS (poff SS (punalign SS pA) k k) i j = ad (k + i) (k + j)) by (intros i j; unfold pA; rewrite ouad; reflexivity).
  destruct (panel_eff k NB (poff SS (punalign SS pA) k k) m p ltac:(lia) ltac:(lia) WP Kd So EP) as [(m1 & q1 & E1 & QB & QF & F1 & V1 & R1)|[E1 X1]].
  2:{ right. rewrite E1. rewrite Nat.min_r in X1 by lia. auto. }
  left. rewrite E1. cbn [bind]. rewrite Nat.min_r in * by lia.
  set (p2 := padd k (k + NB) k q1).
  assert (P2a : forall l, l < NB -> p2 (k + l) = k + q1 (k + l)).
  { intros l Hl. unfold p2, padd. destruct (Nat.leb_spec k (k + l)), (Nat.ltb_spec (k + l) (k + NB)); cbn [andb]; lia. }
  assert (P2b : forall l, l < k \/ k + NB <= l -> p2 l = p l).
  { intros l Hl. unfold p2, padd. destruct (Nat.leb_spec k l), (Nat.ltb_spec l (k + NB)); cbn [andb]; try lia; apply QF; lia. }
  assert (P2c : forall l, k <= l < k + NB -> l <= p2 l < M).
  { intros l Hl. replace l with (k + (l - k)) by lia. rewrite P2a by lia. specialize (QB (l - k)). lia. }
  set (D := DMat M N ad).
  destruct (laswp_ok T al (dsub D 0 0 M k) k (k + NB) p2 m1) as (m2 & E2 & U2 & F2).
  { cbn. intros i j i' j' Hi Hj Hi' Hj' Q. apply DI in Q; lia. }
  { cbn. intros i j Hi Hj. apply AL'; lia. }
  { lia. } { cbn. lia. } { cbn. intros l Hl. apply P2c. lia. }
  rewrite E2. cbn [bind]. cbn [dsub d_m d_n d_at Nat.add] in U2, F2. cbn [D d_at] in U2, F2.
  replace (k + NB - k) with NB in U2 by lia.
  destruct (laswp_ok T al (dsub D 0 (k + NB) M (N - k - NB)) k (k + NB) p2 m2) as (m3 & E3 & U3 & F3).
  { cbn. intros i j i' j' Hi Hj Hi' Hj' Q. apply DI in Q; lia. }
  { cbn. intros i j Hi Hj. apply AL'; lia. }
  { lia. } { cbn. lia. } { cbn. intros l Hl. apply P2c. lia. }
  rewrite E3. cbn [bind]. cbn [dsub d_m d_n d_at Nat.add] in U3, F3. cbn [D d_at] in U3, F3.
  replace (k + NB - k) with NB in U3 by lia.
  set (A11 := dsub D k k NB NB). set (A12 := dsub D k (k + NB) NB (N - k - NB)).
  assert (TP : trsm_pre al Lower true A11 A12 A12).
  { constructor; cbn; auto.
    - intros i l Hi Hl _. apply AL'; lia.
    - intros i j Hi Hj. apply AL'; lia.
    - intros i j Hi Hj. apply AL'; lia.
    - intros i j i' j' Hi Hj Hi' Hj' Q. apply DI in Q; lia.
    - intros i j i' l Hi Hj Hi' Hl _ Q. apply DI in Q; lia.
    - intros i j i' j' Hi Hj Hi' Hj' Q. apply DI in Q; lia. }
  destruct (C31_trsm_ops T O al Lower true A11 A12 A12 m3 TP) as (m4 & E4 & V4 & F4).
  rewrite E4. cbn [bind]. cbn [A11 A12 dsub d_m d_n d_at] in V4, F4. cbn [D d_at] in V4, F4. cbv zeta in V4.
  destruct (gemm_ptr_ok SS HSS T O al (M - k - NB) (N - k - NB) NB (om1 O) (poff SS pA (k + NB) k) (poff SS pA k (k + NB)) (o1 O)
         (poff SS pA (k + NB) (k + NB)) (poff SS pA (k + NB) (k + NB)) m4) as (m5 & E5 & U5 & F5); try (apply owf; auto); auto.
  { intros X. cbn in X. congruence. }
  { intros X. cbn in X. congruence. }
  { intros i j Hi Hj. unfold pA. rewrite oad. apply AL; [|lia]. pose proof (nextMultiple_sub SS (k + NB) (M - k - NB) M HSS HkNS). lia. }
  { intros i j Hi Hj. unfold pA. rewrite oad. apply AL'; lia. }
  { intros i j Hi Hj. unfold pA. rewrite oad. apply AL; [|lia]. pose proof (nextMultiple_sub SS (k + NB) (M - k - NB) M HSS HkNS). lia. }
  { intros i j Hi Hj. unfold pA. rewrite oad. apply AL'; lia. }
  { intros i j i' j' Hi Hj Hi' Hj' Q. unfold pA in Q. rewrite !oad in Q. apply DI in Q; lia. }
  { intros i j i' j' Hi Hj Hi' Hj' Q. unfold pA in Q. rewrite !oad in Q. apply DI in Q; lia. }
  { intros i j i' j' Hi Hj Hi' Hj' Q. unfold pA in Q. rewrite !oad in Q. apply DI in Q; lia. }
  { intros i j i' j' [Hi Hj] [Hi' Hj'] Q. unfold pA in Q. rewrite !oad in Q. apply DI in Q; lia. }
  rewrite E5. cbn [bind]. exists m5, p2. split; auto.
  assert (PKn : forall l, l < NB -> k <= p2 (k + l)) by (intros l Hl; rewrite P2a by auto; lia).
  assert (F4' : forall i j, i < M -> j < N -> ~ (k <= i < k + NB /\ k + NB <= j) -> m4 (ad i j) = m3 (ad i j)).
  { intros i j Hi Hj X. apply F4. intros i' j' Hi' Hj' Q. apply DI in Q; lia. }
  assert (F5' : forall i j, i < M -> j < N -> ~ (k + NB <= i /\ k + NB <= j) -> m5 (ad i j) = m4 (ad i j)).
  { intros i j Hi Hj X. apply F5. intros i' j' [Hi' Hj'] Q. unfold pA in Q. rewrite oad in Q. apply DI in Q; lia. }
  assert (F31 : forall i j, i < M -> k <= j < k + NB -> m3 (ad i j) = m1 (ad i j)).
  { intros i j Hi Hj. rewrite F3, F2; auto; intros i' j' [Hi' Hj'] Q; apply DI in Q; lia. }
  assert (MR3 : forall i j, i < M -> j < N - k - NB -> m3 (ad i (k + NB + j)) = interchanged p2 k NB (mat m) i (k + NB + j)).
  { intros i j Hi Hj. rewrite U3 by (split; auto).
    assert (X : forall (x : nat -> nat -> T) n i, n <= NB -> interchanged p2 k n (fun i j => x i (k + NB + j)) i j = interchanged p2 k n x i (k + NB + j)).
    { intros x n. induction n as [|n IH]; intros i' Hn; auto. cbn [interchanged]. apply IH. lia. }
    rewrite (X (fun i j => m2 (ad i j))) by auto. apply (interchanged_ext T p2 p2 k NB M); auto; try lia.
    - intros l Hl. apply P2c. lia.
    - intros i' Hi'. rewrite F2, F1; auto; intros; intros Q; unfold block in *; apply DI in Q; lia. }
  split; [auto|]. split; [auto|]. split.
  { intros a Ha. rewrite F5, F4, F3, F2, F1; auto; intros i j; unfold block; intros; unfold pA; rewrite ?oad; apply Ha; unfold block; lia. }
  split.
  { apply (lu_run_ext O (el_cm O) (M - k) NB (fun l => q1 (k + l)) _ NB (fun i j => m (ad (k + i) (k + j)))); auto.
    intros l Hl. rewrite P2a by auto. lia. }
  split.
  { intros i j Hi Hj. rewrite F5', F4', F31, V1 by lia. apply (lu_ext O (el_cm O) _ _ NB _ _ (M - k) NB); auto; try lia.
    - intros l Hl. rewrite P2a by auto. specialize (QB l Hl). lia.
    - intros l Hl. rewrite P2a by auto. lia. }
  split.
  { intros i j Hi Hj. rewrite F5', F4', F3, U2; try lia; try (split; auto; fail); try (intros i' j' [Hi' Hj'] Q; apply DI in Q; lia).
    apply (interchanged_ext T p2 p2 k NB M); auto; try lia.
    - intros l Hl. apply P2c. lia.
    - intros i' Hi'. apply F1. intros i2 j2 Hi2 Hj2 Q. apply DI in Q; lia. }
  split.
  { intros i j Hi Hj. rewrite F5', F4' by lia.
    destruct (Nat.lt_ge_cases j k) as [C|C].
    - rewrite F3, U2; try (split; lia); try (intros i' j' [Hi' Hj'] Q; apply DI in Q; lia). rewrite interchanged_low by auto. apply F1. intros i2 j2 Hi2 Hj2 Q; apply DI in Q; lia.
    - destruct (Nat.lt_ge_cases j (k + NB)).
      + rewrite F31 by lia. apply F1. intros i2 j2 Hi2 Hj2 Q; apply DI in Q; lia.
      + replace j with (k + NB + (j - k - NB)) by lia. rewrite MR3 by lia. rewrite interchanged_low by auto. reflexivity. }
  split.
  { intros i j Hi Hj. rewrite F5' by lia. specialize (V4 i j Hi Hj). etransitivity; [exact V4|].
    rewrite MR3 by lia. apply sub_chain_ext.
    - intros l Hl. rewrite F5', F4' by lia. reflexivity.
    - intros l Hl. rewrite F5' by lia. reflexivity. }
  { intros i j Hi Hj. specialize (U5 i j). cbv beta in U5. unfold pA in U5. rewrite !oad in U5. rewrite U5 by (split; lia).
    unfold gemm_elem. f_equal; [|f_equal].
    - rewrite F4' by lia. apply MR3; lia.
    - apply fma_chain_ext; auto; intros l Hl; rewrite !oad, F5' by lia; reflexivity. }
Qed.
End Eff.

Section Abs.
Context {T : Type} (O : Ops T) (NB M N : nat).
Hypothesis NB_pos : 0 < NB.
Notation lu_after := (lu_after O (el_cm O)).
Notation bu := (block_updates O NB).
Notation num := (lu_num O NB M).

Lemma block_updates_ext : forall t x y b x' y' b', (forall l, l < NB * t -> x l = x' l) -> (forall l, l < NB * t -> y l = y' l) -> b = b' ->
  bu t x y b = bu t x' y' b'.
Proof.
  induction t as [|t IH]; intros x y b x' y' b' Hx Hy Hb; auto. cbn [block_updates].
  rewrite (IH x y b x' y' b') by (auto; intros; first [apply Hx; lia|apply Hy; lia]). f_equal. f_equal.
  apply fma_chain_ext; intros l Hl; [apply Hx|apply Hy]; lia.
Qed.
Lemma div_block : forall c t, NB * t <= c < NB * t + NB -> c / NB = t.
Proof. intros c t H. symmetry. apply (Nat.div_unique c NB t (c - NB * t)); lia. Qed.
Lemma div_low : forall c t, c < NB * t -> NB * (c / NB) + NB <= NB * t.
Proof.
  intros c t H. assert (c / NB < t) by (apply Nat.div_lt_upper_bound; lia). replace (NB * (c / NB) + NB) with (NB * S (c / NB)) by lia. apply Nat.mul_le_mono_l. lia.
Qed.
Lemma div_le' : forall c, NB * (c / NB) <= c.
Proof. intros. apply Nat.mul_div_le. lia. Qed.
Lemma num_ext : forall F B F' B' i j, (forall l, l < min i j -> F i l = F' i l) -> (forall l, l < min i j -> F l j = F' l j) -> B i j = B' i j ->
  num F B i j = num F' B' i j.
Proof.
  intros F B F' B' i j H1 H2 H3. unfold lu_num. pose proof (div_le' (min i j)).
  destruct (_ && _); [rewrite (block_updates_ext _ _ _ _ (F' i) (fun k => F' k j) (B' i j)) by (auto; intros; first [apply H1; lia|apply H2; lia]); apply sub_chain_ext
                     |apply el_chain_ext]; try (intros l Hl; first [apply H1; lia | apply H2; lia]).
  apply block_updates_ext; auto; intros; [apply H1|apply H2]; lia.
Qed.
Lemma num_row : forall t F B F' B' i i' j, j < NB * t -> NB * t <= i -> NB * t <= i' ->
  (forall l, l < j -> F i l = F' i' l) -> (forall l, l < j -> F l j = F' l j) -> B i j = B' i' j -> num F B i j = num F' B' i' j.
Proof.
  intros t F B F' B' i i' j Hj Hi Hi' H1 H2 H3. unfold lu_num. replace (min i j) with j by lia. replace (min i' j) with j by lia.
  pose proof (div_le' j). pose proof (div_low j t Hj).
  destruct (Nat.ltb_spec i (NB * (j / NB) + NB)); [lia|]. destruct (Nat.ltb_spec i' (NB * (j / NB) + NB)); [lia|]. cbn [andb].
  apply el_chain_ext; try (intros l Hl; first [apply H1; lia | apply H2; lia]).
  apply block_updates_ext; auto; intros; [apply H1|apply H2]; lia.
Qed.

(** The row interchanges as a permutation. *)
Lemma interchanged_perm : forall (p : nat -> nat) k n, k + n <= M -> (forall l, l < n -> k <= p (k + l) < M) ->
  exists s t : nat -> nat, (forall i, i < k -> s i = i) /\ (forall i, k <= i < M -> k <= s i < M) /\ (forall i, k <= i < M -> k <= t i < M) /\
    (forall i, s (t i) = i) /\ (forall (a : nat -> nat -> T) i j, interchanged p k n a i j = a (s i) j).
Proof.
  intros p k n. induction n as [|n IH]; intros Hn Hp.
  - exists (fun i => i), (fun i => i). repeat split; auto; lia.
  - destruct IH as (s & t & S1 & S2 & S3 & S4 & S5); [lia|auto|]. specialize (Hp n ltac:(lia)).
    exists (fun i => s (interchange (k + n) (p (k + n)) i)), (fun i => interchange (k + n) (p (k + n)) (t i)).
    split; [|split; [|split; [|split]]].
    + intros i Hi. rewrite interchange_o by lia. auto.
    + intros i Hi. apply S2. split; [apply interchange_ge; lia|apply interchange_lt; lia].
    + intros i Hi. specialize (S3 i Hi). split; [apply interchange_ge; lia|apply interchange_lt; lia].
    + intros i. rewrite interchange_invol. auto.
    + intros a i j. cbn [interchanged]. apply S5.
Qed.

Lemma comparable_map : forall n n' (x x' : nat -> T) (f : nat -> nat), (forall i, i < n' -> f i < n /\ x' i = x (f i)) -> comparable O n x -> comparable O n' x'.
Proof.
  intros n n' x x' f H (C1 & C2 & C3). split; [|split]; cbv zeta in *.
  - intros i Hi. destruct (H i Hi) as [? ->]. auto.
  - intros i j k Hi Hj Hk. destruct (H i Hi) as [? ->]. destruct (H j Hj) as [? ->]. destruct (H k Hk) as [? ->]. apply C2; auto.
  - intros i j k Hi Hj Hk. destruct (H i Hi) as [? ->]. destruct (H j Hj) as [? ->]. destruct (H k Hk) as [? ->]. apply C3; auto.
Qed.

(** The pivots of one panel. *)
Lemma panel_pivot : forall M' q n A, n <= M' -> lu_run O (el_cm O) M' q n A -> forall l, l < n ->
  let F := lu_after q n A in let B := interchanged q 0 n A in let nu := fun i => el_chain (el_cm O) l (F i) (fun k => F k l) (B i l) in
  oeqb O (F l l) (o0 O) = false /\
  (comparable O (M' - l) (fun i => nu (l + i)) -> forall i, l <= i < M' -> oltb O (oabs O (F l l)) (oabs O (nu i)) = false).
Proof.
  intros M' q n A Hn R l Hl F B nu.
  assert (QL : forall l, l < n -> l <= q l < M') by (intros l' Hl'; apply R; auto).
  assert (ED : F l l = lu_after q l A (q l) l) by (apply lu_diag; auto; intros l' Hl'; apply QL; auto).
  destruct (R l Hl) as [[P1 P2] NZ]. split; [rewrite ED; auto|].
  assert (PM : exists s t : nat -> nat, (forall i, l <= i < M' -> l <= s i < M') /\ (forall i, l <= i < M' -> l <= t i < M') /\ (forall i, s (t i) = i) /\
     (forall (a : nat -> nat -> T) i j, interchanged q l (n - l) a i j = a (s i) j)).
  { clear - Hl Hn QL. assert (H : forall d, l + d <= n -> exists s t : nat -> nat, (forall i, l <= i < M' -> l <= s i < M') /\ (forall i, l <= i < M' -> l <= t i < M') /\ (forall i, s (t i) = i) /\
     (forall (a : nat -> nat -> T) i j, interchanged q l d a i j = a (s i) j)); [|apply H; lia].
    induction d as [|d IH]; intros Hd; [exists (fun i => i), (fun i => i); auto|].
    destruct IH as (s & t & S2 & S3 & S4 & S5); [lia|]. specialize (QL (l + d) ltac:(lia)).
    exists (fun i => s (interchange (l + d) (q (l + d)) i)), (fun i => interchange (l + d) (q (l + d)) (t i)). split; [|split; [|split]].
    + intros i Hi. apply S2. split; [apply interchange_ge; lia|apply interchange_lt; lia].
    + intros i Hi. specialize (S3 i Hi). split; [apply interchange_ge; lia|apply interchange_lt; lia].
    + intros i. rewrite interchange_invol. auto.
    + intros a i j. cbn [interchanged]. apply S5. }
  destruct PM as (s & t & S2 & S3 & S4 & S5).
  assert (NU : forall i, l <= i < M' -> nu i = lu_after q l A (s i) l).
  { intros i Hi. rewrite (lu_elems O (el_cm O) q l A) by (intros; apply QL; lia). unfold lu_elem. specialize (S2 i Hi). replace (min (s i) l) with l by lia.
    rewrite Nat.ltb_irrefl. unfold nu. apply el_chain_ext.
    - intros c Hc. unfold F. replace n with (l + (n - l)) by lia. rewrite lu_cols by auto. apply S5.
    - intros c Hc. unfold F. replace n with (l + (n - l)) by lia. apply lu_rows; auto. intros l' Hl'. specialize (QL (l + l')). lia.
    - unfold B. replace n with (l + (n - l)) by lia. rewrite <- (interchanged_app T q 0 l (n - l) A i l). cbn [Nat.add]. apply S5. }
  intros CO i Hi. rewrite NU by auto. rewrite ED.
  assert (CO' : comparable O (M' - l) (fun i => lu_after q l A (l + i) l)).
  { apply (comparable_map (M' - l) _ (fun i => nu (l + i)) _ (fun i => t (l + i) - l)); auto. intros i' Hi'. specialize (S3 (l + i') ltac:(lia)). split; [lia|].
    replace (l + (t (l + i') - l)) with (t (l + i')) by lia. rewrite NU by lia. rewrite S4. reflexivity. }
  destruct (proj2 P2 CO') as (F1 & F2 & _). specialize (S2 i Hi). specialize (F2 (s i - l) ltac:(lia)). cbv beta in F2.
  replace (l + (q l - l)) with (q l) in F2 by (specialize (QL l Hl); lia). replace (l + (s i - l)) with (s i) in F2 by lia. exact F2.
Qed.

Definition b_inv (t : nat) (F B : nat -> nat -> T) : Prop :=
  (forall i j, i < M -> j < N -> F i j = if min i j <? NB * t then blocked_elem O NB M F B i j else bu t (F i) (fun k => F k j) (B i j)) /\
  (forall l, l < NB * t -> good_pivot O NB M F B l).

(** Processing a panel of nb columns; what holds in the panel and to its left. *)
Section Panel.
Variables (t nb : nat) (p : nat -> nat) (F B F' : nat -> nat -> T).
Notation k := (NB * t). Notation n := (min (M - k) nb).
Hypothesis HkM : k < M.
Hypothesis Hnb : k + nb <= N.
Hypothesis INV : b_inv t F B.
Hypothesis PB : forall l, k <= l < k + n -> l <= p l < M.
Notation q := (fun l => p (k + l) - k).
Notation Fs := (fun i j => F (k + i) (k + j)).
Hypothesis RUN : lu_run O (el_cm O) (M - k) q n Fs.
Hypothesis HP : forall i j, i < M - k -> j < nb -> F' (k + i) (k + j) = lu_after q n Fs i j.
Hypothesis HL : forall i j, i < M -> j < k -> F' i j = interchanged p k n F i j.
Hypothesis HT : forall i j, i < k -> j < N -> F' i j = F i j.
Hypothesis LAST : (nb = NB /\ k + NB < M /\ k + NB < N) \/ (nb = N - k /\ min M N <= k + NB).
Let B' := interchanged p k n B.

Lemma panel_num : forall i j, k <= i < M -> k <= j < k + nb ->
  num F' B' i j = el_chain (el_cm O) (min i j - k) (fun l => F' i (k + l)) (fun l => F' (k + l) j) (bu t (F' i) (fun l => F' l j) (B' i j)).
Proof.
  intros i j Hi Hj. unfold lu_num. rewrite (div_block (min i j) t) by lia.
  replace ((i <? k + NB) && (k + NB <=? j) && (k + NB <? M)) with false; auto.
  destruct (Nat.ltb_spec i (k + NB)), (Nat.leb_spec (k + NB) j), (Nat.ltb_spec (k + NB) M); cbn [andb]; auto; lia.
Qed.
Lemma start_elem : forall i j, k <= i < M -> k <= j < N -> interchanged p k n F i j = bu t (F' i) (fun l => F' l j) (B' i j).
Proof.
  intros i j Hi Hj. destruct (interchanged_perm p k n) as (s & u & S1 & S2 & S3 & S4 & S5); [lia|intros l Hl; specialize (PB (k + l)); lia|].
  unfold B'. rewrite !S5. specialize (S2 i Hi). rewrite (proj1 INV) by lia. destruct (Nat.ltb_spec (min (s i) j) k); [lia|].
  apply block_updates_ext; auto.
  - intros l Hl. rewrite HL by lia. rewrite S5. reflexivity.
  - intros l Hl. rewrite HT by lia. reflexivity.
Qed.
Lemma panel_start : forall i j, k <= i < M -> k <= j < N -> interchanged q 0 n Fs (i - k) (j - k) = bu t (F' i) (fun l => F' l j) (B' i j).
Proof.
  intros i j Hi Hj. rewrite <- start_elem by auto.
  replace (interchanged p k n F i j) with (interchanged p k n F (k + (i - k)) j) by (f_equal; lia).
  rewrite interchanged_shift by (intros l Hl; specialize (PB (k + l)); lia).
  replace (interchanged q 0 n (fun i j => F (k + i) j) (i - k) j) with (interchanged q 0 n (fun i j => F (k + i) j) (i - k) (k + (j - k))) by (f_equal; lia).
  generalize (i - k) as a, (j - k) as b. intros a b. revert a. generalize n as d. induction d as [|d IH]; intros a; auto. cbn [interchanged]. apply IH.
Qed.
Lemma q_ge : forall l, l < n -> l <= q l.
Proof. intros l Hl. specialize (PB (k + l)). cbv beta; lia. Qed.

Lemma panel_elem : forall i j, k <= i < M -> k <= j < k + nb -> F' i j = blocked_elem O NB M F' B' i j.
Proof.
  intros i j Hi Hj. unfold blocked_elem. rewrite panel_num by auto.
  replace (F' i j) with (F' (k + (i - k)) (k + (j - k))) by (f_equal; lia). rewrite HP by lia. rewrite lu_elems by apply q_ge.
  unfold lu_elem. rewrite panel_start by lia.
  assert (EL : forall c, c <= i - k -> c <= j - k -> c <= n ->
     el_chain (el_cm O) c (fun l => lu_after q n Fs (i - k) l) (fun l => lu_after q n Fs l (j - k)) (bu t (F' i) (fun l => F' l j) (B' i j)) =
     el_chain (el_cm O) c (fun l => F' i (k + l)) (fun l => F' (k + l) j) (bu t (F' i) (fun l => F' l j) (B' i j))).
  { intros c H1 H2 H3. apply el_chain_ext; auto; intros l Hl; [replace i with (k + (i - k)) at 2 by lia|replace j with (k + (j - k)) at 2 by lia]; rewrite HP by lia; reflexivity. }
  destruct (Nat.ltb_spec j i) as [J|J].
  - destruct (Nat.ltb_spec (j - k) (min (i - k) n)); [|lia]. rewrite EL by lia. replace (min i j - k) with (j - k) by lia.
    f_equal. replace (F' j j) with (F' (k + (j - k)) (k + (j - k))) by (f_equal; lia). rewrite HP by lia. reflexivity.
  - destruct (Nat.ltb_spec (j - k) (min (i - k) n)); [lia|]. replace (min (i - k) n) with (i - k) by lia. rewrite EL by lia. replace (min i j - k) with (i - k) by lia. reflexivity.
Qed.
Lemma left_elem : forall i j, i < M -> j < N -> i < k \/ j < k -> F' i j = blocked_elem O NB M F' B' i j.
Proof.
  intros i j Hi Hj C. destruct INV as [IE _].
  destruct (interchanged_perm p k n) as (s & u & S1 & S2 & S3 & S4 & S5); [lia|intros l Hl; specialize (PB (k + l)); lia|].
  destruct (Nat.lt_ge_cases i k) as [C1|C1].
  - rewrite HT by auto. rewrite IE by auto. destruct (Nat.ltb_spec (min i j) k); [|lia]. unfold blocked_elem.
    replace (num F' B' i j) with (num F B i j). { destruct (Nat.ltb_spec j i); auto. f_equal. rewrite HT by lia. reflexivity. }
    apply num_ext.
    + intros l Hl. rewrite HT by lia. reflexivity.
    + intros l Hl. rewrite HT by lia. reflexivity.
    + unfold B'. rewrite S5, S1 by auto. reflexivity.
  - assert (j < k) by lia. rewrite HL by auto. rewrite S5. pose proof (S2 i ltac:(lia)). rewrite IE by lia. destruct (Nat.ltb_spec (min (s i) j) k); [|lia].
    unfold blocked_elem. destruct (Nat.ltb_spec j (s i)); [|lia]. destruct (Nat.ltb_spec j i); [|lia]. f_equal; [|rewrite HT by lia; auto].
    apply (num_row t); auto; try lia.
    + intros l Hl. rewrite HL by lia. rewrite S5. reflexivity.
    + intros l Hl. rewrite HT by lia. reflexivity.
    + unfold B'. rewrite S5. reflexivity.
Qed.
Lemma left_pivot : forall l, l < k -> good_pivot O NB M F' B' l.
Proof.
  intros l Hl. destruct INV as [_ IP]. destruct (IP l Hl) as [Z X].
  destruct (interchanged_perm p k n) as (s & u & S1 & S2 & S3 & S4 & S5); [lia|intros l' Hl'; specialize (PB (k + l')); lia|].
  assert (NU : forall i, l <= i < M -> num F' B' i l = num F B (s i) l).
  { intros i Hi. destruct (Nat.lt_ge_cases i k).
    - rewrite S1 by auto. apply num_ext; try (intros; apply HT; lia). unfold B'. rewrite S5, S1 by auto. reflexivity.
    - specialize (S2 i ltac:(lia)). apply (num_row t); auto; try lia.
      + intros c Hc. rewrite HL by lia. rewrite S5. reflexivity.
      + intros c Hc. rewrite HT by lia. reflexivity.
      + unfold B'. rewrite S5. reflexivity. }
  split; [rewrite HT by lia; auto|]. intros CO i Hi. rewrite HT by lia. rewrite NU by auto. apply X.
  - set (u' := fun i => if i <? k then i else u i).
    assert (U1 : forall i, l <= i < M -> l <= u' i < M /\ s (u' i) = i).
    { intros i' Hi'. unfold u'. destruct (Nat.ltb_spec i' k); [rewrite S1 by auto; split; auto; lia|]. specialize (S3 i' ltac:(lia)). rewrite S4. split; auto; lia. }
    apply (comparable_map (M - l) _ (fun i => num F' B' (l + i) l) _ (fun i => u' (l + i) - l)); auto.
    intros i' Hi'. destruct (U1 (l + i') ltac:(lia)) as [U2 U3]. split; [lia|]. replace (l + (u' (l + i') - l)) with (u' (l + i')) by lia. rewrite NU by lia. rewrite U3. reflexivity.
  - destruct (Nat.lt_ge_cases i k); [rewrite S1 by auto; lia|]. specialize (S2 i ltac:(lia)). lia.
Qed.
Lemma new_pivot : forall l, k <= l < k + n -> good_pivot O NB M F' B' l.
Proof.
  intros l Hl. destruct (panel_pivot (M - k) q n Fs ltac:(lia) RUN (l - k) ltac:(lia)) as [Z X].
  assert (ED : F' l l = lu_after q n Fs (l - k) (l - k)) by (replace (F' l l) with (F' (k + (l - k)) (k + (l - k))) by (f_equal; lia); apply HP; lia).
  assert (NU : forall i, l <= i < M -> num F' B' i l =
     el_chain (el_cm O) (l - k) (lu_after q n Fs (i - k)) (fun c => lu_after q n Fs c (l - k)) (interchanged q 0 n Fs (i - k) (l - k))).
  { intros i Hi. rewrite panel_num by lia. rewrite panel_start by lia. replace (min i l - k) with (l - k) by lia. apply el_chain_ext; auto.
    - intros c Hc. replace i with (k + (i - k)) at 1 by lia. apply HP; lia.
    - intros c Hc. replace l with (k + (l - k)) at 1 by lia. apply HP; lia. }
  split; [rewrite ED; auto|]. intros CO i Hi. rewrite ED, NU by auto. cbv zeta in X. apply X; [|lia].
  apply (comparable_map (M - l) _ (fun i => num F' B' (l + i) l) _ (fun i => i)); auto.
  intros i' Hi'. split; [lia|]. rewrite NU by lia. replace (l + i' - k) with (l - k + i') by lia. reflexivity.
Qed.
End Panel.
End Abs.

Section Run.
Variable SS : nat.
Hypothesis HSS : 0 < SS.
Variable cc : nat.
Hypothesis Hcc : 0 < cc.
Variable T : Type.
Variable O : Ops T.
Variables (al : alloc) (A : marg).
Notation M := (g_rows A). Notation N := (g_cols A). Notation ad := (g_addr SS A). Notation NB := (TS SS cc).
Hypothesis AOK : arg_ok SS A.
Hypothesis KD : c_kind (v_cont (g_view A)) = Dense.
Hypothesis SO : g_so A = columnMajor.
Hypothesis AL : allocated al (nextMultiple M SS) N ad.
Hypothesis OV : forall k i, k + 1 < M -> k + 1 < N -> i < nextMultiple (M - k - 1) (cc * SS) -> al (ad (k + 1 + i) k) = true.
Variables (m0 : mem T) (q0 : piv).
Let pA := g_ptr SS A.
Let Kd : mp_kind pA = Dense. Proof. unfold pA. rewrite g_ptr_kind. auto. Qed.
Let So : mp_so pA = columnMajor. Proof. unfold pA. rewrite g_ptr_so. auto. Qed.
Let DI : distinct M N ad. Proof. apply g_distinct; auto. Qed.
Let AL' : allocated al M N ad.
Proof. intros i j Hi Hj. apply AL; auto. destruct (nextMultiple_spec M SS HSS). lia. Qed.
Let NB_pos : 0 < NB. Proof. apply TS_pos; auto. Qed.
Let owf := off_wf SS HSS A AOK SO.
Let oad := off_addr SS HSS A AOK KD.
Notation mat m := (fun i j => m (ad i j)).

Definition o_inv (t : nat) (s : mem T * piv) : Prop :=
  (forall a, (forall i j, block M N i j -> a <> ad i j) -> fst s a = m0 a) /\
  (forall l, NB * t <= l -> snd s l = q0 l) /\ (forall l, l < NB * t -> l <= snd s l < M) /\
  b_inv O NB M N t (mat (fst s)) (interchanged (snd s) 0 (NB * t) (mat m0)).

(** The rows of the interchanged input do not depend on rows outside the matrix. *)
Lemma b_inv_ext : forall t F B B', (forall i j, i < M -> j < N -> B i j = B' i j) -> b_inv O NB M N t F B -> NB * t <= N -> b_inv O NB M N t F B'.
Proof.
  intros t F B B' E [I1 I2] Hk.
  assert (NU : forall i j, i < M -> j < N -> lu_num O NB M F B' i j = lu_num O NB M F B i j).
  { intros i j Hi Hj. apply num_ext; auto. symmetry. auto. }
  split.
  - intros i j Hi Hj. rewrite I1 by auto. destruct (_ <? _).
    + unfold blocked_elem. rewrite NU by auto. reflexivity.
    + rewrite E by auto. reflexivity.
  - intros l Hl. destruct (I2 l Hl) as [Z X]. split; auto. intros CO i Hi. rewrite NU by lia. apply X; auto.
    eapply (comparable_map O (M - l) _ _ _ (fun i => i)); [|exact CO]. intros i' Hi'. split; auto. cbv beta. rewrite NU by lia. reflexivity.
Qed.

Lemma o_step : forall t s, NB * t + NB < M -> NB * t + NB < N -> o_inv t s ->
  (exists s', getrf_step SS cc T O al A (NB * t) s = Ok s' /\ o_inv (t + 1) s') \/ getrf_step SS cc T O al A (NB * t) s = Throw InvalidArgument.
Proof.
  intros t [m p] HM HN (FR & PU & PB & INV). cbn [fst snd] in *.
  destruct (step_eff SS HSS cc Hcc T O al A AOK KD SO AL OV (NB * t) m p) as [(m' & p' & E & Q1 & Q2 & F1 & R & V1 & V2 & V3 & V4 & V5)|[E _]]; auto.
  { rewrite Nat.mul_comm. apply Nat.mod_mul. lia. }
  left. exists (m', p'). split; auto. set (k := NB * t) in *. assert (Ek : NB * (t + 1) = k + NB) by (unfold k; lia).
  assert (Emin : min (M - k) NB = NB) by lia.
  unfold o_inv. cbn [fst snd]. rewrite Ek. split; [|split; [|split]].
  - intros a Ha. rewrite F1 by auto. apply FR. auto.
  - intros l Hl. rewrite Q1 by lia. apply PU. lia.
  - intros l Hl. destruct (Nat.lt_ge_cases l k); [rewrite Q1 by auto; auto|apply Q2; lia].
  - set (B := interchanged p 0 k (mat m0)) in *. set (B' := interchanged p' k NB B).
    assert (EB : forall i j, i < M -> j < N -> B' i j = interchanged p' 0 (k + NB) (mat m0) i j).
    { intros i j Hi Hj. rewrite <- interchanged_app. cbn [Nat.add]. unfold B'. apply (interchanged_ext T p' p' k NB M); auto; try lia.
      - intros l Hl. apply Q2. lia.
      - intros i' Hi'. apply (interchanged_ext T p' p 0 k M); auto; try lia; intros l Hl; cbn [Nat.add]; [rewrite Q1 by lia; apply PB; auto|rewrite Q1 by lia; reflexivity]. }
    set (F := mat m) in *. set (F' := mat m').
    assert (PBn : forall l, k <= l < k + min (M - k) NB -> l <= p' l < M) by (rewrite Emin; auto).
    assert (RUN : lu_run O (el_cm O) (M - k) (fun l => p' (k + l) - k) (min (M - k) NB) (fun i j => F (k + i) (k + j))) by (rewrite Emin; exact R).
    assert (HP : forall i j, i < M - k -> j < NB -> F' (k + i) (k + j) = lu_after O (el_cm O) (fun l => p' (k + l) - k) (min (M - k) NB) (fun i j => F (k + i) (k + j)) i j) by (rewrite Emin; exact V1).
    assert (HL : forall i j, i < M -> j < k -> F' i j = interchanged p' k (min (M - k) NB) F i j) by (rewrite Emin; exact V2).
    assert (HkM : k < M) by lia. assert (Hnb : k + NB <= N) by lia.
    assert (LA : (NB = NB /\ k + NB < M /\ k + NB < N) \/ (NB = N - k /\ min M N <= k + NB)) by lia.
    pose proof (panel_elem O NB M N NB_pos t NB p' F B F' HkM Hnb INV PBn HP HL V3 LA) as PE.
    pose proof (left_elem O NB M N NB_pos t NB p' F B F' HkM Hnb INV PBn HL V3 LA) as LE.
    pose proof (left_pivot O NB M N NB_pos t NB p' F B F' HkM Hnb INV PBn HL V3 LA) as LP.
    pose proof (new_pivot O NB M N NB_pos t NB p' F B F' HkM Hnb INV PBn RUN HP HL V3 LA) as NP.
    pose proof (start_elem O NB M N NB_pos t NB p' F B F' HkM Hnb INV PBn HL V3) as SE.
    fold k in PE, LE, LP, NP, SE. rewrite Emin in PE, LE, LP, NP, SE. fold B' in PE, LE, LP, NP, SE.
    apply (b_inv_ext (t + 1) _ B'); auto; [|lia]. split.
    + intros i j Hi Hj. fold F'. rewrite Ek. destruct (Nat.ltb_spec (min i j) (k + NB)) as [C|C].
      * destruct (Nat.lt_ge_cases i k) as [C1|C1]; [apply LE; auto|]. destruct (Nat.lt_ge_cases j k) as [C2|C2]; [apply LE; auto|].
        destruct (Nat.lt_ge_cases j (k + NB)) as [C3|C3]; [apply PE; lia|].
        (* to the right of the panel *)
        assert (i < k + NB) by lia. specialize (V4 (i - k) (j - k - NB) ltac:(lia) ltac:(lia)).
        replace (k + (i - k)) with i in V4 by lia. replace (k + NB + (j - k - NB)) with j in V4 by lia.
        unfold blocked_elem. destruct (Nat.ltb_spec j i); [lia|]. unfold lu_num. rewrite (div_block NB NB_pos (min i j) t) by (fold k; lia). fold k.
        destruct (Nat.ltb_spec i (k + NB)), (Nat.leb_spec (k + NB) j), (Nat.ltb_spec (k + NB) M); try lia. cbn [andb].
        replace (min i j - k) with (i - k) by lia. rewrite <- SE by lia. exact V4.
      * specialize (V5 (i - k - NB) (j - k - NB) ltac:(lia) ltac:(lia)).
        replace (k + NB + (i - k - NB)) with i in V5 by lia. replace (k + NB + (j - k - NB)) with j in V5 by lia.
        rewrite Nat.add_1_r. cbn [block_updates]. fold k. rewrite <- SE by lia. exact V5.
    + intros l Hl. rewrite Ek in Hl. destruct (Nat.lt_ge_cases l k); [apply LP; auto|apply NP; lia].
Qed.

(** getrf: every element of the result, every pivot. *)
Lemma getrf_cm_ops :
  (exists m' p', getrf_cm SS cc T O al A (m0, q0) = Ok (m', p') /\
     (forall a, (forall i j, block M N i j -> a <> ad i j) -> m' a = m0 a) /\
     (forall l, min M N <= l -> p' l = q0 l) /\ (forall l, l < min M N -> l <= p' l < M) /\
     let B := interchanged p' 0 (min M N) (mat m0) in
     (forall i j, i < M -> j < N -> m' (ad i j) = blocked_elem O NB M (mat m') B i j) /\
     (forall l, l < min M N -> good_pivot O NB M (mat m') B l)) \/
  getrf_cm SS cc T O al A (m0, q0) = Throw InvalidArgument.
Proof.
  unfold getrf_cm. fold pA.
  set (cond := fun k => (k + NB <? M) && (k + NB <? N)).
  assert (CT : forall k, cond k = true -> k + NB < M /\ k + NB < N).
  { intros k. unfold cond. rewrite andb_true_iff, !Nat.ltb_lt. auto. }
  assert (MN : forall t, (NB * t) mod NB = 0) by (intros t; rewrite Nat.mul_comm; apply Nat.mod_mul; lia).
  destruct (steps_spec (fun k => k = 0 \/ k < min M N) cond NB (M + 1) 0 M) as (S1 & S3 & _); auto; try lia.
  { intros k H1 C. apply CT in C. lia. }
  { intros k _ C. apply CT in C. lia. }
  destruct (foldM_steps_throw (mem T * piv) (fun k s => exists t, k = NB * t /\ o_inv t s) True InvalidArgument (getrf_step SS cc T O al A) cond NB (M + 1) 0 (m0, q0))
    as [([m p] & E & t & Et & INV)|[E X]].
  { exists 0. split; [lia|]. unfold o_inv. cbn [fst snd]. rewrite Nat.mul_0_r. split; auto. split; auto. split; [lia|]. split; [|lia].
    intros i j Hi Hj. rewrite Nat.mul_0_r. reflexivity. }
  { intros k s (t & -> & H2) C. apply CT in C as [C1 C2]. destruct (o_step t s C1 C2 H2) as [(s' & E & I)|X]; auto.
    left. exists s'. split; auto. exists (t + 1). split; auto. lia. }
  2:{ right. rewrite E. auto. }
  rewrite E. cbn [bind]. set (k := snd (steps (M + 1) cond NB 0)) in *. destruct INV as (FR & PU & PB & INV). cbn [fst snd] in *.
  destruct ((k <? M) && (k <? N)) eqn:C.
  2:{ (* empty matrix *)
      assert (Z : min M N = 0).
      { apply andb_false_iff in C. rewrite !Nat.ltb_ge in C. lia. }
      assert (k = 0) by lia. left. cbn [bind]. replace k with 0 in * by auto. rewrite Z.
      unfold laswp. rewrite for_empty by lia. cbn [bind].
      exists m, (padd 0 0 0 p). split; auto. split; auto. split. { intros l _. unfold padd. destruct (Nat.ltb_spec l 0); [lia|]. rewrite andb_false_r. apply PU. lia. }
      split; [lia|]. split; lia. }
  apply andb_true_iff in C. rewrite !Nat.ltb_lt in C. destruct C as [CM CN].
  assert (HkS : k mod SS = 0) by (apply (TS_mod SS HSS cc Hcc); rewrite Et; auto).
  set (nn := min (M - k) (N - k)). assert (En : min M N = k + nn) by (unfold nn; lia).
  assert (EP : forall i j, addr SS (poff SS pA k k) i j = ad (k + i) (k + j)) by (intros i j; unfold pA; rewrite oad; reflexivity).
  destruct (panel_eff SS HSS cc Hcc T O al A AOK AL OV k (N - k) (poff SS pA k k) m p ltac:(lia) ltac:(lia) (owf k k HkS) Kd So EP)
    as [(m1 & q1 & E1 & QB & QF & F1 & V1 & R1)|[E1 _]].
  2:{ right. rewrite E1. auto. }
  left. fold nn in QB, QF, V1, R1. rewrite E1. cbn [bind]. rewrite En.
  set (p2 := padd k (k + nn) k q1).
  assert (P2a : forall l, l < nn -> p2 (k + l) = k + q1 (k + l)).
  { intros l Hl. unfold p2, padd. destruct (Nat.leb_spec k (k + l)), (Nat.ltb_spec (k + l) (k + nn)); cbn [andb]; lia. }
  assert (P2b : forall l, l < k \/ k + nn <= l -> p2 l = p l).
  { intros l Hl. unfold p2, padd. destruct (Nat.leb_spec k l), (Nat.ltb_spec l (k + nn)); cbn [andb]; try lia; apply QF; lia. }
  assert (P2c : forall l, k <= l < k + nn -> l <= p2 l < M).
  { intros l Hl. replace l with (k + (l - k)) by lia. rewrite P2a by lia. specialize (QB (l - k)). lia. }
  set (D := DMat M N ad).
  destruct (laswp_ok T al (dsub D 0 0 M k) k (k + nn) p2 m1) as (m2 & E2 & V2 & F2).
  { cbn. intros i j i' j' Hi Hj Hi' Hj' Q. apply DI in Q; lia. }
  { cbn. intros i j Hi Hj. apply AL'; lia. }
  { lia. } { cbn. lia. } { cbn. intros l Hl. apply P2c. lia. }
  rewrite E2. cbn [bind]. cbn [dsub d_m d_n d_at Nat.add] in V2, F2. cbn [D d_at] in V2, F2.
  replace (k + nn - k) with nn in V2 by lia.
  exists m2, p2. split; auto. split; [|split; [|split]].
  - intros a Ha. rewrite F2, F1, FR; auto; intros i j; unfold block; intros; apply Ha; unfold block; lia.
  - intros l Hl. rewrite P2b by lia. apply PU. lia.
  - intros l Hl. destruct (Nat.lt_ge_cases l k); [rewrite P2b by lia; apply PB; lia|apply P2c; lia].
  - cbv zeta. rewrite <- Et in PU, PB. rewrite <- Et in INV at 1. set (B := interchanged p 0 k (mat m0)) in *. set (B' := interchanged p2 k nn B).
    assert (EB : forall i j, i < M -> j < N -> B' i j = interchanged p2 0 (k + nn) (mat m0) i j).
    { intros i j Hi Hj. rewrite <- interchanged_app. cbn [Nat.add]. unfold B'. apply (interchanged_ext T p2 p2 k nn M); auto; try lia.
      - intros l Hl. apply P2c. lia.
      - intros i' Hi'. apply (interchanged_ext T p2 p 0 k M); auto; try lia; intros l Hl; cbn [Nat.add]; [rewrite P2b by lia; apply PB; auto|rewrite P2b by lia; reflexivity]. }
    set (F := mat m) in *. set (F' := mat m2).
    assert (F12 : forall i j, i < M -> k <= j < N -> F' i j = m1 (ad i j)).
    { intros i j Hi Hj. apply F2. intros i' j' [Hi' Hj'] Q. apply DI in Q; lia. }
    assert (F1m : forall i j, i < M -> j < N -> i < k \/ j < k -> m1 (ad i j) = F i j).
    { intros i j Hi Hj C. apply F1. intros i' j' Hi' Hj' Q. apply DI in Q; lia. }
    assert (HL : forall i j, i < M -> j < k -> F' i j = interchanged p2 k nn F i j).
    { intros i j Hi Hj. unfold F'. rewrite V2 by (split; auto). apply (interchanged_ext T p2 p2 k nn M); auto; try lia.
      - intros l Hl. apply P2c. lia.
      - intros i' Hi'. apply F1m; lia. }
    assert (HT : forall i j, i < k -> j < N -> F' i j = F i j).
    { intros i j Hi Hj. destruct (Nat.lt_ge_cases j k).
      - rewrite HL by lia. apply interchanged_low; auto. intros l Hl. specialize (P2c (k + l)). lia.
      - rewrite F12 by lia. apply F1m; lia. }
    assert (RUN : lu_run O (el_cm O) (M - k) (fun l => p2 (k + l) - k) nn (fun i j => F (k + i) (k + j))).
    { apply (lu_run_ext O (el_cm O) (M - k) (N - k) (fun l => q1 (k + l)) _ nn (fun i j => m (ad (k + i) (k + j)))); auto; try lia.
      intros l Hl. rewrite P2a by auto. lia. }
    assert (HP : forall i j, i < M - k -> j < N - k -> F' (k + i) (k + j) = lu_after O (el_cm O) (fun l => p2 (k + l) - k) nn (fun i j => F (k + i) (k + j)) i j).
    { intros i j Hi Hj. rewrite F12 by lia. rewrite V1 by auto. apply (lu_ext O (el_cm O) _ _ nn _ _ (M - k) (N - k)); auto; try lia.
      - intros l Hl. rewrite P2a by auto. specialize (QB l Hl). lia.
      - intros l Hl. rewrite P2a by auto. lia. }
    assert (Hnb : k + (N - k) <= N) by lia.
    assert (LA : (N - k = NB /\ k + NB < M /\ k + NB < N) \/ (N - k = N - k /\ min M N <= k + NB)).
    { unfold cond in S1. apply andb_false_iff in S1. rewrite !Nat.ltb_ge in S1. lia. }
    clearbody k. subst k.
    pose proof (panel_elem O NB M N NB_pos t (N - NB * t) p2 F B F' CM Hnb INV P2c HP HL HT LA) as PE.
    pose proof (left_elem O NB M N NB_pos t (N - NB * t) p2 F B F' CM Hnb INV P2c HL HT LA) as LE.
    pose proof (left_pivot O NB M N NB_pos t (N - NB * t) p2 F B F' CM Hnb INV P2c HL HT LA) as LP.
    pose proof (new_pivot O NB M N NB_pos t (N - NB * t) p2 F B F' CM Hnb INV P2c RUN HP HL HT LA) as NP.
    fold nn in PE, LE, LP, NP. fold B' in PE, LE, LP, NP. set (k := NB * t) in *.
    assert (NU : forall i j, i < M -> j < N -> lu_num O NB M F' (interchanged p2 0 (k + nn) (mat m0)) i j = lu_num O NB M F' B' i j).
    { intros i j Hi Hj. apply num_ext; auto. symmetry. auto. }
    split.
    + intros i j Hi Hj. change (m2 (ad i j)) with (F' i j).
      transitivity (blocked_elem O NB M F' B' i j); [|unfold blocked_elem; rewrite NU by auto; reflexivity].
      destruct (Nat.lt_ge_cases i k); [apply LE; auto|]. destruct (Nat.lt_ge_cases j k); [apply LE; auto|]. apply PE; lia.
    + intros l Hl. assert (G : good_pivot O NB M F' B' l) by (destruct (Nat.lt_ge_cases l k); [apply LP; auto|apply NP; lia]).
      destruct G as [Z X]. split; auto. intros CO i Hi. rewrite NU by lia. apply X; auto.
      eapply (comparable_map O (M - l) _ _ _ (fun i => i)); [|exact CO]. intros i' Hi'. split; auto. cbv beta. rewrite NU by lia. reflexivity.
Qed.
End Run.
