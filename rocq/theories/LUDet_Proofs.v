(** LUDet_Proofs.v -- two runs of the factorisations on matrices with equal elements (different memories, placements, SIMD widths) agree. *)
From Coq Require Import Arith Lia List Bool PeanoNat.
From Verif Require Import Base Base_Proofs Spec Algebra_Proofs Layout_Model Layout_Proofs Simd_Model Simd_Proofs Reg_Proofs Vec_Proofs
  Gemm_Model Gemm_Proofs Arg_Proofs Ger_Model Ger_Proofs Scan_Proofs Tri_Model Tri_Proofs Potrf_Proofs Properties_Tri
  LU_Model LU_Theory LU_Proofs Getrf_Proofs RoundLU_Proofs Getrf_Spec GetrfOps_Proofs.

(** The last, possibly smaller, panel of getrf. *)
Definition getrf_tail (SS cc : nat) (T : Type) (O : Ops T) (al : alloc) (A : marg) (k : nat) (s : mem T * piv) : res (mem T * piv) :=
  let M := g_rows A in let N := g_cols A in
  s <- (if (k <? M) && (k <? N) then getf2_ptr SS cc T O al (M - k) (N - k) (poff SS (g_ptr SS A) k k) k s else Ok s) ;;
  let (m, p) := s in
  let p := padd k (min M N) k p in
  m <- laswp T al (dsub (DMat M N (g_addr SS A)) 0 0 M k) k (min M N) p m ;;
  Ok (m, p).

Section Eff.
Variable SS : nat.
Hypothesis HSS : 0 < SS.
Variable cc : nat.
Hypothesis Hcc : 0 < cc.
Variable T : Type.
Variable O : Ops T.
Variables (al : alloc) (A : marg).
Notation M := (g_rows A). Notation N := (g_cols A). Notation ad := (g_addr SS A).
Hypothesis AOK : arg_ok SS A.
Hypothesis KD : c_kind (v_cont (g_view A)) = Dense.
Hypothesis SO : g_so A = columnMajor.
Hypothesis AL : allocated al (nextMultiple M SS) N ad.
Hypothesis OV : forall k i, k + 1 < M -> k + 1 < N -> i < nextMultiple (M - k - 1) (cc * SS) -> al (ad (k + 1 + i) k) = true.
Let pA := g_ptr SS A.
Let Kd : mp_kind pA = Dense. Proof. unfold pA. rewrite g_ptr_kind. auto. Qed.
Let So : mp_so pA = columnMajor. Proof. unfold pA. rewrite g_ptr_so. auto. Qed.
Let DI : distinct M N ad. Proof. apply g_distinct; auto. Qed.
Let AL' : allocated al M N ad.
Proof. intros i j Hi Hj. apply AL; auto. destruct (nextMultiple_spec M SS HSS). lia. Qed.
Let owf := off_wf SS HSS A AOK SO.
Let oad := off_addr SS HSS A AOK KD.
Notation mat m := (fun i j => m (ad i j)).

Lemma tail_eff : forall k (m : mem T) p, k mod SS = 0 -> k < M -> k < N ->
  let nn := min (M - k) (N - k) in
  (exists m' p', getrf_tail SS cc T O al A k (m, p) = Ok (m', p') /\
     (forall l, l < k \/ k + nn <= l -> p' l = p l) /\ (forall l, k <= l < k + nn -> l <= p' l < M) /\
     lu_run O (el_cm O) (M - k) (fun l => p' (k + l) - k) nn (fun i j => m (ad (k + i) (k + j))) /\
     (forall i j, i < M - k -> j < N - k -> m' (ad (k + i) (k + j)) = lu_after O (el_cm O) (fun l => p' (k + l) - k) nn (fun i j => m (ad (k + i) (k + j))) i j) /\
     (forall i j, i < M -> j < k -> m' (ad i j) = interchanged p' k nn (mat m) i j) /\
     (forall i j, i < k -> j < N -> m' (ad i j) = m (ad i j))) \/
  (getrf_tail SS cc T O al A k (m, p) = Throw InvalidArgument /\ lu_stuck O (el_cm O) (M - k) nn (fun i j => m (ad (k + i) (k + j)))).
Proof.
  intros k m p HkS CM CN nn. unfold getrf_tail. fold pA. cbv zeta. rewrite (proj2 (Nat.ltb_lt k M)), (proj2 (Nat.ltb_lt k N)) by auto. cbn [andb].
  assert (En : min M N = k + nn) by (unfold nn; lia).
  assert (EP : forall i j, addr SS (poff SS pA k k) i j = ad (k + i) (k + j)) by (intros i j; unfold pA; rewrite oad; reflexivity).
  destruct (panel_eff SS HSS cc Hcc T O al A AOK AL OV k (N - k) (poff SS pA k k) m p ltac:(lia) ltac:(lia) (owf k k HkS) Kd So EP)
    as [(m1 & q1 & E1 & QB & QF & F1 & V1 & R1)|[E1 X1]].
  2:{ right. rewrite E1. auto. }
  left. fold nn in QB, QF, V1, R1. rewrite E1. cbn [bind]. rewrite En.
  set (p2 := padd k (k + nn) k q1).
  assert (P2a : forall l, l < nn -> p2 (k + l) = k + q1 (k + l)).
  { intros l Hl. unfold p2, padd. destruct (Nat.leb_spec k (k + l)), (Nat.ltb_spec (k + l) (k + nn)); cbn [andb]; lia. }
  assert (P2b : forall l, l < k \/ k + nn <= l -> p2 l = p l).
  { intros l Hl. unfold p2, padd. destruct (Nat.leb_spec k l), (Nat.ltb_spec l (k + nn)); cbn [andb]; try lia; apply QF; lia. }
  assert (P2c : forall l, k <= l < k + nn -> l <= p2 l < M).
  { intros l Hl. replace l with (k + (l - k)) by lia. rewrite P2a by lia. specialize (QB (l - k)). lia. }
  set (D := DMat M N ad).
  destruct (laswp_ok T al (dsub D 0 0 M k) k (k + nn) p2 m1) as (m2 & E2 & V2 & F2).
  { cbn. intros i j i' j' Hi Hj Hi' Hj' Q. apply DI in Q; lia. }
  { cbn. intros i j Hi Hj. apply AL'; lia. }
  { lia. } { cbn. lia. } { cbn. intros l Hl. apply P2c. lia. }
  rewrite E2. cbn [bind]. cbn [dsub d_m d_n d_at Nat.add] in V2, F2. cbn [D d_at] in V2, F2.
  replace (k + nn - k) with nn in V2 by lia.
  assert (F12 : forall i j, i < M -> k <= j < N -> m2 (ad i j) = m1 (ad i j)).
  { intros i j Hi Hj. apply F2. intros i' j' [Hi' Hj'] Q. apply DI in Q; lia. }
  assert (F1m : forall i j, i < M -> j < N -> i < k \/ j < k -> m1 (ad i j) = m (ad i j)).
  { intros i j Hi Hj C. apply F1. intros i' j' Hi' Hj' Q. apply DI in Q; lia. }
  assert (HL : forall i j, i < M -> j < k -> m2 (ad i j) = interchanged p2 k nn (mat m) i j).
  { intros i j Hi Hj. rewrite V2 by (split; auto). apply (interchanged_ext T p2 p2 k nn M); auto; try lia.
    - intros l Hl. apply P2c. lia.
    - intros i' Hi'. apply F1m; lia. }
  exists m2, p2. split; auto. split; auto. split; auto. split; [|split; [|split]]; auto.
  - apply (lu_run_ext O (el_cm O) (M - k) (N - k) (fun l => q1 (k + l)) _ nn (fun i j => m (ad (k + i) (k + j)))); auto; try lia.
    intros l Hl. rewrite P2a by auto. lia.
  - intros i j Hi Hj. rewrite F12 by lia. rewrite V1 by auto. apply (lu_ext O (el_cm O) _ _ nn _ _ (M - k) (N - k)); auto; try lia.
    + intros l Hl. rewrite P2a by auto. specialize (QB l Hl). lia.
    + intros l Hl. rewrite P2a by auto. lia.
  - intros i j Hi Hj. destruct (Nat.lt_ge_cases j k).
    + rewrite HL by lia. apply interchanged_low; auto. intros l Hl. specialize (P2c (k + l)). lia.
    + rewrite F12 by lia. apply F1m; lia.
Qed.
End Eff.

(** The panel: equal elements, equal runs. *)
Lemma panel_two : forall T (O : Ops T) el M N n q q' F F', n <= M -> n <= N -> (forall i j, i < M -> j < N -> F' i j = F i j) ->
  lu_run O el M q n F -> lu_run O el M q' n F' ->
  (forall l, l < n -> q' l = q l) /\ (forall i j, i < M -> j < N -> lu_after O el q' n F' i j = lu_after O el q n F i j).
Proof.
  intros T O el M N n q q' F F' Hm Hn E R R'. pose proof (lu_run_det T O el M N q q' n F F' Hn E R R') as P. split; auto.
  intros i j Hi Hj. apply (lu_ext O el q q' n F F' M N); auto. intros l Hl. apply R. auto.
Qed.
Lemma stuck_ext : forall T (O : Ops T) el M N n F F', n <= N -> (forall i j, i < M -> j < N -> F' i j = F i j) -> lu_stuck O el M n F -> lu_stuck O el M n F'.
Proof.
  intros T O el M N n F F' Hn E (r & c & Hc & RR & PP & ZZ). exists r, c. split; auto.
  assert (RB : forall l, l < c -> r l < M) by (intros l Hl; apply RR; auto).
  split; [apply (lu_run_ext O el M N r r c F F'); auto; lia|].
  split; [apply (lu_pivot_ext O el M N r r c F F'); auto; lia|].
  rewrite <- ZZ. f_equal. destruct PP as [PP _]. apply (lu_ext O el r r c F F' M N); auto; try lia.
Qed.

Section Two.
Variables (T : Type) (O : Ops T).
Variables (SS cc : nat) (al : alloc) (A : marg) (SS' cc' : nat) (al' : alloc) (A' : marg).
Hypotheses (HSS : 0 < SS) (Hcc : 0 < cc) (HSS' : 0 < SS') (Hcc' : 0 < cc').
Notation M := (g_rows A). Notation N := (g_cols A). Notation ad := (g_addr SS A). Notation ad' := (g_addr SS' A'). Notation NB := (TS SS cc).
Hypotheses (EM : g_rows A' = M) (EN : g_cols A' = N) (ET : TS SS' cc' = NB).
Hypothesis AOK : arg_ok SS A.
Hypothesis KD : c_kind (v_cont (g_view A)) = Dense.
Hypothesis SO : g_so A = columnMajor.
Hypothesis AL : allocated al (nextMultiple M SS) N ad.
Hypothesis OV : forall k i, k + 1 < M -> k + 1 < N -> i < nextMultiple (M - k - 1) (cc * SS) -> al (ad (k + 1 + i) k) = true.
Hypothesis AOK' : arg_ok SS' A'.
Hypothesis KD' : c_kind (v_cont (g_view A')) = Dense.
Hypothesis SO' : g_so A' = columnMajor.
Hypothesis AL' : allocated al' (nextMultiple (g_rows A') SS') (g_cols A') ad'.
Hypothesis OV' : forall k i, k + 1 < g_rows A' -> k + 1 < g_cols A' -> i < nextMultiple (g_rows A' - k - 1) (cc' * SS') -> al' (ad' (k + 1 + i) k) = true.

Definition same_elements (m m' : mem T) : Prop := forall i j, i < M -> j < N -> m' (ad' i j) = m (ad i j).

Lemma step_two : forall k (m m' : mem T) p p', k mod NB = 0 -> k + NB < M -> k + NB < N -> same_elements m m' ->
  (exists r q r' q', getrf_step SS cc T O al A k (m, p) = Ok (r, q) /\ getrf_step SS' cc' T O al' A' k (m', p') = Ok (r', q') /\
     same_elements r r' /\ (forall l, k <= l < k + NB -> q' l = q l) /\ (forall l, l < k \/ k + NB <= l -> q l = p l /\ q' l = p' l)) \/
  (getrf_step SS cc T O al A k (m, p) = Throw InvalidArgument /\ getrf_step SS' cc' T O al' A' k (m', p') = Throw InvalidArgument).
Proof.
  intros k m m' p p' Hk HM HN E.
  destruct (step_eff SS HSS cc Hcc T O al A AOK KD SO AL OV k m p Hk HM HN) as [(r & q & Eq & Q1 & Q2 & _ & R & V1 & V2 & V3 & V4 & V5)|[Eq X]];
  destruct (step_eff SS' HSS' cc' Hcc' T O al' A' AOK' KD' SO' AL' OV' k m' p') as [(r' & q' & Eq' & Q1' & Q2' & _ & R' & V1' & V2' & V3' & V4' & V5')|[Eq' X']];
  rewrite ?EM, ?EN, ?ET in *; auto.
  - left. exists r, q, r', q'. split; auto. split; auto.
    destruct (panel_two T O (el_cm O) (M - k) NB NB _ _ _ _ ltac:(lia) ltac:(lia) (fun i j Hi Hj => E (k + i) (k + j) ltac:(lia) ltac:(lia)) R R') as [PE PV].
    assert (QE : forall l, k <= l < k + NB -> q' l = q l).
    { intros l Hl. specialize (PE (l - k) ltac:(lia)). cbv beta in PE. replace (k + (l - k)) with l in PE by lia. specialize (Q2 l Hl). specialize (Q2' l Hl). lia. }
    assert (IE : forall i j, i < M -> j < N -> interchanged q' k NB (fun i j => m' (ad' i j)) i j = interchanged q k NB (fun i j => m (ad i j)) i j).
    { intros i j Hi Hj. apply (interchanged_ext T q q' k NB M); auto; try lia.
      - intros l Hl. apply Q2. lia.
      - intros l Hl. apply QE. lia. }
    assert (PA : forall i j, k <= i < M -> k <= j < k + NB -> r' (ad' i j) = r (ad i j)).
    { intros i j Hi Hj. replace i with (k + (i - k)) by lia. replace j with (k + (j - k)) by lia. rewrite V1, V1' by lia. apply PV; lia. }
    assert (RO : forall i j, i < NB -> j < N - k - NB -> r' (ad' (k + i) (k + NB + j)) = r (ad (k + i) (k + NB + j))).
    { intros i. induction i as [i IH] using lt_wf_ind. intros j Hi Hj. rewrite V4, V4' by auto. rewrite IE by lia. apply sub_chain_ext.
      - intros l Hl. apply PA; lia.
      - intros l Hl. apply IH; lia. }
    split; [|split]; auto.
    intros i j Hi Hj. destruct (Nat.lt_ge_cases i k) as [C|C]; [rewrite V3, V3' by auto; apply E; auto|].
    destruct (Nat.lt_ge_cases j k) as [C1|C1]; [rewrite V2, V2' by auto; apply IE; auto|].
    destruct (Nat.lt_ge_cases j (k + NB)) as [C2|C2]; [apply PA; lia|].
    destruct (Nat.lt_ge_cases i (k + NB)) as [C3|C3].
    + replace i with (k + (i - k)) by lia. replace j with (k + NB + (j - k - NB)) by lia. apply RO; lia.
    + replace i with (k + NB + (i - k - NB)) by lia. replace j with (k + NB + (j - k - NB)) by lia. rewrite V5, V5' by lia. rewrite IE by lia.
      unfold gemm_elem. do 2 f_equal. apply fma_chain_ext; auto.
      * intros l Hl. apply PA; lia.
      * intros l Hl. apply RO; lia.
  - exfalso. eapply (lu_stuck_det T O (el_cm O) (M - k) NB); [| |exact R|exact X']; auto. intros i j Hi Hj. cbv beta. apply E; lia.
  - exfalso. eapply (lu_stuck_det T O (el_cm O) (M - k) NB); [| |exact R'|exact X]; auto. intros i j Hi Hj. cbv beta. symmetry. apply E; lia.
Qed.

Lemma tail_two : forall k (m m' : mem T) p p', k mod SS = 0 -> k mod SS' = 0 -> k < M -> k < N -> same_elements m m' -> (forall l, l < k -> p' l = p l) ->
  (exists r q r' q', getrf_tail SS cc T O al A k (m, p) = Ok (r, q) /\ getrf_tail SS' cc' T O al' A' k (m', p') = Ok (r', q') /\
     same_elements r r' /\ (forall l, l < min M N -> q' l = q l)) \/
  (getrf_tail SS cc T O al A k (m, p) = Throw InvalidArgument /\ getrf_tail SS' cc' T O al' A' k (m', p') = Throw InvalidArgument).
Proof.
  intros k m m' p p' Hk Hk' HM HN E EPV.
  destruct (tail_eff SS HSS cc Hcc T O al A AOK KD SO AL OV k m p Hk HM HN) as [(r & q & Eq & Q1 & Q2 & R & V1 & V2 & V3)|[Eq X]];
  destruct (tail_eff SS' HSS' cc' Hcc' T O al' A' AOK' KD' SO' AL' OV' k m' p' Hk') as [(r' & q' & Eq' & Q1' & Q2' & R' & V1' & V2' & V3')|[Eq' X']];
  rewrite ?EM, ?EN in *; auto.
  - set (nn := min (M - k) (N - k)) in *. left. exists r, q, r', q'. split; auto. split; auto.
    destruct (panel_two T O (el_cm O) (M - k) (N - k) nn _ _ _ _ ltac:(lia) ltac:(lia) (fun i j Hi Hj => E (k + i) (k + j) ltac:(lia) ltac:(lia)) R R') as [PE PV].
    assert (QE : forall l, k <= l < k + nn -> q' l = q l).
    { intros l Hl. specialize (PE (l - k) ltac:(lia)). cbv beta in PE. replace (k + (l - k)) with l in PE by lia. specialize (Q2 l Hl). specialize (Q2' l Hl). lia. }
    split.
    + intros i j Hi Hj. destruct (Nat.lt_ge_cases i k) as [C|C]; [rewrite V3, V3' by auto; apply E; auto|].
      destruct (Nat.lt_ge_cases j k) as [C1|C1].
      * rewrite V2, V2' by auto. apply (interchanged_ext T q q' k nn M); auto; try lia.
        -- intros l Hl. apply Q2. lia.
        -- intros l Hl. apply QE. lia.
      * replace i with (k + (i - k)) by lia. replace j with (k + (j - k)) by lia. rewrite V1, V1' by lia. apply PV; lia.
    + intros l Hl. destruct (Nat.lt_ge_cases l k); [rewrite Q1, Q1' by auto; auto|apply QE; lia].
  - exfalso. eapply (lu_stuck_det T O (el_cm O) (M - k) (N - k)); [| |exact R|exact X']; try lia. intros i j Hi Hj. cbv beta. apply E; lia.
  - exfalso. eapply (lu_stuck_det T O (el_cm O) (M - k) (N - k)); [| |exact R'|exact X]; try lia. intros i j Hi Hj. cbv beta. symmetry. apply E; lia.
Qed.

(** Two folds over the same list, in step. *)
Lemma foldM_two : forall St (P : nat -> St -> St -> Prop) e (f f' : nat -> St -> res St) cond step fuel i s s', P i s s' ->
  (forall k s s', P k s s' -> cond k = true -> (exists r r', f k s = Ok r /\ f' k s' = Ok r' /\ P (k + step) r r') \/ (f k s = Throw e /\ f' k s' = Throw e)) ->
  (exists r r', foldM f (fst (steps fuel cond step i)) s = Ok r /\ foldM f' (fst (steps fuel cond step i)) s' = Ok r' /\ P (snd (steps fuel cond step i)) r r') \/
  (foldM f (fst (steps fuel cond step i)) s = Throw e /\ foldM f' (fst (steps fuel cond step i)) s' = Throw e).
Proof.
  intros St P e f f' cond step fuel. induction fuel as [|fuel IH]; intros i s s' H0 Hf.
  - cbn. left. exists s, s'. auto.
  - cbn [steps]. destruct (cond i) eqn:C.
    + destruct (steps fuel cond step (i + step)) as [l j] eqn:E. cbn [fst snd foldM].
      destruct (Hf i s s' H0 C) as [(r & r' & E1 & E2 & P1)|[E1 E2]].
      * rewrite E1, E2. cbn [bind]. specialize (IH (i + step) r r' P1 Hf). rewrite E in IH. cbn [fst snd] in IH. exact IH.
      * rewrite E1, E2. auto.
    + cbn. left. exists s, s'. auto.
Qed.

Lemma getrf_two : forall (m m' : mem T) p p', same_elements m m' ->
  (exists r q r' q', getrf_cm SS cc T O al A (m, p) = Ok (r, q) /\ getrf_cm SS' cc' T O al' A' (m', p') = Ok (r', q') /\
     same_elements r r' /\ (forall l, l < min M N -> q' l = q l)) \/
  (getrf_cm SS cc T O al A (m, p) = Throw InvalidArgument /\ getrf_cm SS' cc' T O al' A' (m', p') = Throw InvalidArgument).
Proof.
  intros m m' p p' E.
  assert (NB_pos : 0 < NB) by (apply TS_pos; auto).
  change (getrf_cm SS cc T O al A (m, p)) with
    (let ks := steps (M + 1) (fun k => (k + NB <? M) && (k + NB <? N)) NB 0 in
     s <- foldM (getrf_step SS cc T O al A) (fst ks) (m, p) ;; getrf_tail SS cc T O al A (snd ks) s).
  change (getrf_cm SS' cc' T O al' A' (m', p')) with
    (let ks := steps (g_rows A' + 1) (fun k => (k + TS SS' cc' <? g_rows A') && (k + TS SS' cc' <? g_cols A')) (TS SS' cc') 0 in
     s <- foldM (getrf_step SS' cc' T O al' A') (fst ks) (m', p') ;; getrf_tail SS' cc' T O al' A' (snd ks) s).
  cbv zeta. rewrite EM, EN, ET. set (cond := fun k => (k + NB <? M) && (k + NB <? N)).
  assert (CT : forall k, cond k = true -> k + NB < M /\ k + NB < N).
  { intros k. unfold cond. rewrite andb_true_iff, !Nat.ltb_lt. auto. }
  destruct (foldM_two (mem T * piv) (fun k s s' => k mod NB = 0 /\ same_elements (fst s) (fst s') /\ forall l, l < k -> snd s' l = snd s l) InvalidArgument
     (getrf_step SS cc T O al A) (getrf_step SS' cc' T O al' A') cond NB (M + 1) 0 (m, p) (m', p')) as [([r q] & [r' q'] & E1 & E2 & H1 & H2 & H3)|[E1 E2]].
  - cbn [fst snd]. split; [apply Nat.mod_0_l; lia|]. split; auto. lia.
  - intros k [m1 p1] [m1' p1'] (H1 & H2 & H3) C. cbn [fst snd] in *. apply CT in C as [C1 C2].
    destruct (step_two k m1 m1' p1 p1' H1 C1 C2 H2) as [(r & q & r' & q' & X1 & X2 & X3 & X4 & X5)|X]; auto.
    left. exists (r, q), (r', q'). split; auto. split; auto. cbn [fst snd]. split; [|split]; auto.
    + rewrite Nat.add_mod, H1, Nat.mod_same by lia. apply Nat.mod_0_l; lia.
    + intros l Hl. destruct (Nat.lt_ge_cases l k); [|apply X4; lia]. destruct (X5 l) as [-> ->]; auto.
  - rewrite E1, E2. cbn [bind fst snd] in *. set (k := snd (steps (M + 1) cond NB 0)) in *.
    destruct (Nat.lt_ge_cases k (min M N)) as [C|C].
    + apply tail_two; auto; try lia.
      * apply (TS_mod SS HSS cc Hcc); auto.
      * apply (TS_mod SS' HSS' cc' Hcc'). rewrite ET. auto.
    + (* empty matrix *)
      assert (Z : min M N = 0).
      { destruct (steps_spec (fun k => k = 0 \/ k < min M N) cond NB (M + 1) 0 M) as (S1 & S3 & _); auto; try lia.
        - intros i _ X. apply CT in X. lia.
        - intros i _ X. apply CT in X. lia. }
      left. unfold getrf_tail. cbv zeta. rewrite EM, EN.
      assert (CC : (k <? M) && (k <? N) = false) by (apply andb_false_iff; rewrite !Nat.ltb_ge; lia).
      rewrite CC. cbn [bind]. unfold laswp. rewrite !for_empty by lia. cbn [bind].
      eexists _, _, _, _. split; [reflexivity|]. split; [reflexivity|]. split; auto. lia.
  - right. rewrite E1, E2. auto.
Qed.
End Two.
