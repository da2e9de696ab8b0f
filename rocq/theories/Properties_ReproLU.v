(** Properties_ReproLU.v -- C73 for the LU factorisations: the factors and the pivots are determined by the elements of the matrix, to the last bit;
    C71 for the LU factorisations: no NaN is lost. *)
From Coq Require Import Arith Lia List Bool PeanoNat ZArith QArith Qcanon.
From Flocq Require Import Core BinarySingleNaN.
From Verif Require Import Base Base_Proofs Spec Algebra_Proofs Instances Layout_Model Layout_Proofs Simd_Model Simd_Proofs Arg_Proofs Gemm_Model Ger_Model Ger_Proofs
  Tri_Model LU_Model LU_Theory LU_Proofs LU_Row_Proofs Getrf_Proofs RoundLU_Proofs Getrf_Spec GetrfOps_Proofs LUDet_Proofs Properties_LU Properties_Getrf Properties_Solve
  Round_Spec Float_Proofs Properties_Round Properties_NaN.
Import ListNotations.
Local Open Scope nat_scope.

(* ------------------------------------------------------------------ C73 *)
(** Two calls of getf2 on matrices with equal elements, whatever the scalar arithmetic (NaN included), the SIMD widths, the layouts, the memories and what
    ipiv held before: both throw invalid_argument, or both return the same factors and the same pivots. *)
Theorem C73_getf2 : forall T (O : Ops T) SS cc al A m p SS' cc' al' A' m' p', 0 < SS -> 0 < cc -> 0 < SS' -> 0 < cc' ->
  getf2_pre SS cc al A -> getf2_pre SS' cc' al' A' -> g_rows A = g_rows A' -> g_cols A = g_cols A' ->
  let M := g_rows A in let N := g_cols A in
  (forall i j, i < M -> j < N -> m (g_addr SS A i j) = m' (g_addr SS' A' i j)) ->
  (getf2_cm SS cc T O al A (m, p) = Throw InvalidArgument /\ getf2_cm SS' cc' T O al' A' (m', p') = Throw InvalidArgument) \/
  (exists r q r' q', getf2_cm SS cc T O al A (m, p) = Ok (r, q) /\ getf2_cm SS' cc' T O al' A' (m', p') = Ok (r', q') /\
     (forall i j, i < M -> j < N -> r (g_addr SS A i j) = r' (g_addr SS' A' i j)) /\ (forall l, l < min M N -> q l = q' l)).
Proof.
  intros T O SS cc al A m p SS' cc' al' A' m' p' HSS Hcc HSS' Hcc' P P' EM EN M N E.
  assert (E' : forall i j, i < M -> j < N -> m' (g_addr SS' A' i j) = m (g_addr SS A i j)) by (intros; symmetry; auto).
  destruct (C35_getf2_column_major_ops SS cc T O al A m p HSS Hcc P) as [(r & q & E1 & R & [U _] & _)|[E1 X]];
  destruct (C35_getf2_column_major_ops SS' cc' T O al' A' m' p' HSS' Hcc' P') as [(r' & q' & E1' & R' & [U' _] & _)|[E1' X']];
  subst M N; rewrite <- ?EM, <- ?EN in *; auto.
  - right. exists r, q, r', q'. split; auto. split; auto.
    destruct (panel_two T O (el_cm O) (g_rows A) (g_cols A) (min (g_rows A) (g_cols A)) _ _ _ _ ltac:(lia) ltac:(lia) E' R R') as [PE PV]. split.
    + intros i j Hi Hj. rewrite U, U' by (split; auto). symmetry. apply PV; auto.
    + intros l Hl. symmetry. auto.
  - exfalso. eapply (lu_stuck_det T O (el_cm O) (g_rows A) (g_cols A)); [| |exact R|exact X']; auto; lia.
  - exfalso. eapply (lu_stuck_det T O (el_cm O) (g_rows A) (g_cols A)); [| |exact R'|exact X]; auto; lia.
Qed.

(** The same for the blocked getrf of builds with the same block size. *)
Theorem C73_getrf : forall T (O : Ops T) SS cc al A m p SS' cc' al' A' m' p', 0 < SS -> 0 < cc -> 0 < SS' -> 0 < cc' -> cc * SS = cc' * SS' ->
  getrf_pre SS cc al A -> getrf_pre SS' cc' al' A' -> g_rows A = g_rows A' -> g_cols A = g_cols A' ->
  let M := g_rows A in let N := g_cols A in
  (forall i j, i < M -> j < N -> m (g_addr SS A i j) = m' (g_addr SS' A' i j)) ->
  (getrf_cm SS cc T O al A (m, p) = Throw InvalidArgument /\ getrf_cm SS' cc' T O al' A' (m', p') = Throw InvalidArgument) \/
  (exists r q r' q', getrf_cm SS cc T O al A (m, p) = Ok (r, q) /\ getrf_cm SS' cc' T O al' A' (m', p') = Ok (r', q') /\
     (forall i j, i < M -> j < N -> r (g_addr SS A i j) = r' (g_addr SS' A' i j)) /\ (forall l, l < min M N -> q l = q' l)).
Proof.
  intros T O SS cc al A m p SS' cc' al' A' m' p' HSS Hcc HSS' Hcc' ET [[P1 P2 P3 P4 P5] P6] [[Q1 Q2 Q3 Q4 Q5] Q6] EM EN M N E.
  destruct (getrf_two T O SS cc al A SS' cc' al' A' HSS Hcc HSS' Hcc' (eq_sym EM) (eq_sym EN) (eq_sym ET) P1 P2 P3 P6 P5 Q1 Q2 Q3 Q6 Q5 m m' p p')
    as [(r & q & r' & q' & X1 & X2 & X3 & X4)|X]; auto.
  - intros i j Hi Hj. symmetry. apply E; auto.
  - right. exists r, q, r', q'. split; auto. split; auto. split; intros; symmetry; auto.
Qed.

(** The same for the row-major forms. *)
Theorem C73_getf2_row_major : forall T (O : Ops T) al A m p al' A' m' p',
  distinct (d_m A) (d_n A) (d_at A) -> allocated al (d_m A) (d_n A) (d_at A) -> distinct (d_m A') (d_n A') (d_at A') -> allocated al' (d_m A') (d_n A') (d_at A') ->
  d_m A = d_m A' -> d_n A = d_n A' ->
  let M := d_m A in let N := d_n A in
  (forall i j, i < M -> j < N -> m (d_at A i j) = m' (d_at A' i j)) ->
  (getf2_rm T O al A (m, p) = Throw InvalidArgument /\ getf2_rm T O al' A' (m', p') = Throw InvalidArgument) \/
  (exists r q r' q', getf2_rm T O al A (m, p) = Ok (r, q) /\ getf2_rm T O al' A' (m', p') = Ok (r', q') /\
     (forall i j, i < M -> j < N -> r (d_at A i j) = r' (d_at A' i j)) /\ (forall l, l < min M N -> q l = q' l)).
Proof.
  intros T O al A m p al' A' m' p' D1 A1 D2 A2 EM EN M N E.
  assert (E' : forall i j, i < M -> j < N -> m' (d_at A' i j) = m (d_at A i j)) by (intros; symmetry; auto).
  destruct (C35_getf2_row_major_ops T O al A m p D1 A1) as [(r & q & E1 & R & [U _] & _)|[E1 X]];
  destruct (C35_getf2_row_major_ops T O al' A' m' p' D2 A2) as [(r' & q' & E1' & R' & [U' _] & _)|[E1' X']];
  subst M N; rewrite <- ?EM, <- ?EN in *; auto.
  - right. exists r, q, r', q'. split; auto. split; auto.
    destruct (panel_two T O (el_rm O) (d_m A) (d_n A) (min (d_m A) (d_n A)) _ _ _ _ ltac:(lia) ltac:(lia) E' R R') as [PE PV]. split.
    + intros i j Hi Hj. rewrite U, U' by (split; auto). symmetry. apply PV; auto.
    + intros l Hl. symmetry. auto.
  - exfalso. eapply (lu_stuck_det T O (el_rm O) (d_m A) (d_n A)); [| |exact R|exact X']; auto; lia.
  - exfalso. eapply (lu_stuck_det T O (el_rm O) (d_m A) (d_n A)); [| |exact R'|exact X]; auto; lia.
Qed.
Theorem C73_getrf_row_major : forall T (O : Ops T) al A m p al' A' m' p',
  distinct (d_m A) (d_n A) (d_at A) -> allocated al (d_m A) (d_n A) (d_at A) -> distinct (d_m A') (d_n A') (d_at A') -> allocated al' (d_m A') (d_n A') (d_at A') ->
  d_m A = d_m A' -> d_n A = d_n A' ->
  let M := d_m A in let N := d_n A in
  (forall i j, i < M -> j < N -> m (d_at A i j) = m' (d_at A' i j)) ->
  exists r q r' q', getrf_rm T O al A (m, p) = Ok (r, q) /\ getrf_rm T O al' A' (m', p') = Ok (r', q') /\
     (forall i j, i < M -> j < N -> r (d_at A i j) = r' (d_at A' i j)) /\ (forall l, l < min M N -> q l = q' l).
Proof.
  intros T O al A m p al' A' m' p' D1 A1 D2 A2 EM EN M N E.
  destruct (getrf_rm_ok T O al A D1 A1 m p) as (r & q & E1 & [U _] & F).
  destruct (getrf_rm_ok T O al' A' D2 A2 m' p') as (r' & q' & E1' & [U' _] & F').
  subst M N. rewrite <- ?EM, <- ?EN in *. exists r, q, r', q'. split; auto. split; auto. split.
  - intros i j Hi Hj. rewrite U, U' by (split; auto). apply (lu_ext O (el_sub O) _ _ (min (d_m A) (d_n A)) _ _ (d_m A) (d_n A)); auto; try lia.
  - intros l Hl. rewrite F, F'. destruct (Nat.ltb_spec l (min (d_m A) (d_n A))); auto; lia.
Qed.

(* ------------------------------------------------------------------ C71 *)
Section Nan.
Context {T : Type} (O : Ops T) (p : T) (AB : absorbing O p).
Lemma el_chain_nan : forall el, (forall l u a, l = p \/ u = p \/ a = p -> el l u a = p) ->
  forall n x y z, z = p \/ (exists k, k < n /\ (x k = p \/ y k = p)) -> el_chain el n x y z = p.
Proof.
  intros el He n x y z. induction n as [|n IH]; intros H; cbn [el_chain].
  - destruct H as [H|(k & Hk & _)]; auto; lia.
  - destruct H as [H|(k & Hk & H)]; [apply He; auto|]. destruct (Nat.eq_dec k n) as [->|].
    + apply He. tauto.
    + apply He. right. right. apply IH. right. exists k. split; auto. lia.
Qed.
Lemma el_cm_nan : forall l u a, l = p \/ u = p \/ a = p -> el_cm O l u a = p.
Proof.
  intros l u a H. unfold el_cm. destruct H as [-> | [-> | ->]].
  - rewrite (proj2 (ab_mul O p AB _)). apply (ab_fma O p AB).
  - apply (ab_fma O p AB).
  - rewrite (proj2 (ab_mul O p AB _)). apply (ab_fma O p AB).
Qed.
Lemma el_rm_nan : forall l u a, l = p \/ u = p \/ a = p -> el_rm O l u a = p.
Proof.
  intros l u a H. unfold el_rm. destruct H as [-> | [-> | ->]].
  - rewrite (proj2 (ab_mul O p AB _)), (proj1 (ab_mul O p AB _)). apply (ab_add O p AB).
  - rewrite (proj2 (ab_mul O p AB _)). apply (ab_add O p AB).
  - apply (ab_add O p AB).
Qed.
Lemma el_sub_nan : forall l u a, l = p \/ u = p \/ a = p -> el_sub O l u a = p.
Proof.
  intros l u a H. unfold el_sub. destruct H as [-> | [-> | ->]].
  - rewrite (proj1 (ab_mul O p AB _)). apply (ab_sub O p AB).
  - rewrite (proj2 (ab_mul O p AB _)). apply (ab_sub O p AB).
  - apply (ab_sub O p AB).
Qed.
(** What element (i,j) of the factors is computed from: the element of the interchanged matrix, the elements before it in its row and column, and the pivot of its column. *)
Definition spoils (F B : nat -> nat -> T) (i j : nat) : Prop :=
  B i j = p \/ (exists l, l < min i j /\ (F i l = p \/ F l j = p)) \/ (j < i /\ F j j = p).
Lemma lu_nan : forall el q n A M N, (forall l u a, l = p \/ u = p \/ a = p -> el l u a = p) -> n = min M N -> (forall l, l < n -> l <= q l) ->
  forall i j, i < M -> j < N -> spoils (lu_after O el q n A) (interchanged q 0 n A) i j -> lu_after O el q n A i j = p.
Proof.
  intros el q n A M N He En Hq i j Hi Hj H. rewrite lu_elems by auto. unfold lu_elem.
  destruct (Nat.ltb_spec j (min i n)) as [C|C].
  - destruct H as [H|[(l & Hl & H)|[_ H]]].
    + rewrite el_chain_nan by auto. apply (ab_div O p AB).
    + rewrite el_chain_nan; [apply (ab_div O p AB)|auto|]. right. exists l. split; auto. lia.
    + rewrite H. apply (ab_div O p AB).
  - apply el_chain_nan; auto. destruct H as [H|[(l & Hl & H)|[C1 _]]]; auto; [|lia]. right. exists l. split; auto. lia.
Qed.
Lemma block_updates_nan : forall NB t x y b, b = p \/ (exists k, k < NB * t /\ (x k = p \/ y k = p)) -> block_updates O NB t x y b = p.
Proof.
  intros NB t x y b. induction t as [|t IH]; intros H; cbn [block_updates].
  - destruct H as [H|(k & Hk & _)]; auto; lia.
  - destruct H as [H|(k & Hk & H)]; [rewrite IH by auto; apply (ab_fma O p AB)|].
    destruct (Nat.lt_ge_cases k (NB * t)).
    + rewrite IH by eauto. apply (ab_fma O p AB).
    + rewrite (fma_chain_nan O p AB); [rewrite (proj1 (ab_mul O p AB _)); apply (ab_fma O p AB)|]. right. exists (k - NB * t). split; [lia|].
      replace (NB * t + (k - NB * t)) with k by lia. auto.
Qed.
Lemma blocked_nan : forall NB M F B i j, 0 < NB -> spoils F B i j -> blocked_elem O NB M F B i j = p.
Proof.
  intros NB M F B i j HNB H. unfold blocked_elem.
  assert (NU : B i j = p \/ (exists l, l < min i j /\ (F i l = p \/ F l j = p)) -> lu_num O NB M F B i j = p).
  { clear H. intros H. unfold lu_num. set (c := min i j) in *. pose proof (Nat.div_mod c NB ltac:(lia)). pose proof (Nat.mod_upper_bound c NB ltac:(lia)). set (q := c / NB) in *.
    assert (X : block_updates O NB q (F i) (fun k => F k j) (B i j) = p \/ exists l, l < c - NB * q /\ (F i (NB * q + l) = p \/ F (NB * q + l) j = p)).
    { destruct H as [H|(l & Hl & H)]; [left; apply block_updates_nan; auto|]. destruct (Nat.lt_ge_cases l (NB * q)).
      - left. apply block_updates_nan. eauto.
      - right. exists (l - NB * q). split; [lia|]. replace (NB * q + (l - NB * q)) with l by lia. auto. }
    cbv zeta. destruct (_ && _).
    - apply (sub_chain_nan O p AB). auto.
    - apply el_chain_nan; auto. intros; apply el_cm_nan; auto. }
  destruct (Nat.ltb_spec j i) as [C|C].
  - destruct H as [H|[H|[_ H]]]; [rewrite NU by auto|rewrite NU by auto|rewrite H]; apply (ab_div O p AB).
  - destruct H as [H|[H|[C1 _]]]; [apply NU; auto|apply NU; auto|lia].
Qed.
End Nan.

(** If getf2 returns, every element of the factors that is computed from a NaN -- in the interchanged matrix, in the factors before it in its row or column, or as
    the pivot of its column -- is NaN; so every NaN of the matrix is still visible, in the same column.  (It may throw: a NaN is never preferred to a zero pivot.) *)
Theorem C71_getf2 : forall SS cc T (O : Ops T) p al A m q m' q', 0 < SS -> 0 < cc -> absorbing O p -> getf2_pre SS cc al A ->
  getf2_cm SS cc T O al A (m, q) = Ok (m', q') ->
  let M := g_rows A in let N := g_cols A in let F := fun i j => m' (g_addr SS A i j) in
  (forall i j, i < M -> j < N -> spoils p F (interchanged q' 0 (min M N) (fun i j => m (g_addr SS A i j))) i j -> F i j = p) /\
  (forall i j, i < M -> j < N -> m (g_addr SS A i j) = p -> exists i', i' < M /\ F i' j = p).
Proof.
  intros SS cc T O p al A m q m' q' HSS Hcc AB P E M N F.
  destruct (C35_getf2_column_major_ops SS cc T O al A m q HSS Hcc P) as [(r & s & E1 & R & [U _] & _)|[E1 _]]; [|discriminate (eq_trans (eq_sym E1) E)].
  apply (eq_trans (eq_sym E1)) in E. injection E as -> ->. fold M N in R, U.
  assert (B1 : forall l, l < min M N -> l <= q' l) by (intros l Hl; apply R; auto).
  assert (B2 : forall l, l < min M N -> q' l < M) by (intros l Hl; apply R; auto).
  assert (S1 : forall i j, i < M -> j < N -> spoils p F (interchanged q' 0 (min M N) (fun i j => m (g_addr SS A i j))) i j -> F i j = p).
  { intros i j Hi Hj H. unfold F. rewrite U by (split; auto). apply (lu_nan O p AB (el_cm O) q' (min M N) _ M N); auto.
    - apply el_cm_nan; auto.
    - destruct H as [H|[(l & Hl & H)|[C H]]]; [left; exact H| |].
      + right. left. exists l. split; auto. unfold F in H. rewrite !U in H by (split; lia). exact H.
      + right. right. split; auto. unfold F in H. rewrite U in H by (split; lia). exact H. }
  split; auto. intros i j Hi Hj H.
  destruct (interchanged_perm T q' (min M N) M ltac:(lia) B2) as (sg & sg' & G1 & G2). destruct (G1 i Hi) as (_ & K2 & K3 & _).
  exists (sg' i). split; auto. apply S1; auto. left. rewrite G2. rewrite K3. exact H.
Qed.
(** The same for the blocked getrf ... *)
Theorem C71_getrf : forall SS cc T (O : Ops T) p al A m q m' q', 0 < SS -> 0 < cc -> absorbing O p -> getrf_pre SS cc al A ->
  getrf_cm SS cc T O al A (m, q) = Ok (m', q') ->
  let M := g_rows A in let N := g_cols A in let F := fun i j => m' (g_addr SS A i j) in
  (forall i j, i < M -> j < N -> spoils p F (interchanged q' 0 (min M N) (fun i j => m (g_addr SS A i j))) i j -> F i j = p) /\
  (forall i j, i < M -> j < N -> m (g_addr SS A i j) = p -> exists i', i' < M /\ F i' j = p).
Proof.
  intros SS cc T O p al A m q m' q' HSS Hcc AB P E M N F.
  destruct (C36_getrf_ops SS cc T O al A m q m' q' HSS Hcc P E) as (V & B & _). fold M N in V, B.
  assert (S1 : forall i j, i < M -> j < N -> spoils p F (interchanged q' 0 (min M N) (fun i j => m (g_addr SS A i j))) i j -> F i j = p).
  { intros i j Hi Hj H. unfold F. rewrite V by auto. apply (blocked_nan O p AB); auto. lia. }
  split; auto. intros i j Hi Hj H.
  destruct (interchanged_perm T q' (min M N) M ltac:(lia)) as (sg & sg' & G1 & G2); [intros l Hl; apply B; auto|]. destruct (G1 i Hi) as (_ & K2 & K3 & _).
  exists (sg' i). split; auto. apply S1; auto. left. rewrite G2. rewrite K3. exact H.
Qed.
(** ... and for the row-major forms (getrf: without interchanges, the NaN stays where it was). *)
Theorem C71_getf2_row_major : forall T (O : Ops T) p al A m q m' q', absorbing O p ->
  distinct (d_m A) (d_n A) (d_at A) -> allocated al (d_m A) (d_n A) (d_at A) -> getf2_rm T O al A (m, q) = Ok (m', q') ->
  let M := d_m A in let N := d_n A in let F := fun i j => m' (d_at A i j) in
  (forall i j, i < M -> j < N -> spoils p F (interchanged q' 0 (min M N) (fun i j => m (d_at A i j))) i j -> F i j = p) /\
  (forall i j, i < M -> j < N -> m (d_at A i j) = p -> exists i', i' < M /\ F i' j = p).
Proof.
  intros T O p al A m q m' q' AB D A1 E M N F.
  destruct (C35_getf2_row_major_ops T O al A m q D A1) as [(r & s & E1 & R & [U _] & _)|[E1 _]]; [|discriminate (eq_trans (eq_sym E1) E)].
  apply (eq_trans (eq_sym E1)) in E. injection E as -> ->. fold M N in R, U.
  assert (B1 : forall l, l < min M N -> l <= q' l) by (intros l Hl; apply R; auto).
  assert (B2 : forall l, l < min M N -> q' l < M) by (intros l Hl; apply R; auto).
  assert (S1 : forall i j, i < M -> j < N -> spoils p F (interchanged q' 0 (min M N) (fun i j => m (d_at A i j))) i j -> F i j = p).
  { intros i j Hi Hj H. unfold F. rewrite U by (split; auto). apply (lu_nan O p AB (el_rm O) q' (min M N) _ M N); auto.
    - apply el_rm_nan; auto.
    - destruct H as [H|[(l & Hl & H)|[C H]]]; [left; exact H| |].
      + right. left. exists l. split; auto. unfold F in H. rewrite !U in H by (split; lia). exact H.
      + right. right. split; auto. unfold F in H. rewrite U in H by (split; lia). exact H. }
  split; auto. intros i j Hi Hj H.
  destruct (interchanged_perm T q' (min M N) M ltac:(lia) B2) as (sg & sg' & G1 & G2). destruct (G1 i Hi) as (_ & K2 & K3 & _).
  exists (sg' i). split; auto. apply S1; auto. left. rewrite G2. rewrite K3. exact H.
Qed.
Lemma interchanged_id : forall T n (a : nat -> nat -> T) i j, interchanged (fun l => l) 0 n a i j = a i j.
Proof. intros T n a. induction n as [|n IH]; intros i j; auto. cbn [interchanged Nat.add]. rewrite interchange_same. apply IH. Qed.
Theorem C71_getrf_row_major : forall T (O : Ops T) p al A m q, absorbing O p ->
  distinct (d_m A) (d_n A) (d_at A) -> allocated al (d_m A) (d_n A) (d_at A) ->
  exists m' q', getrf_rm T O al A (m, q) = Ok (m', q') /\
  let M := d_m A in let N := d_n A in let F := fun i j => m' (d_at A i j) in
  forall i j, i < M -> j < N -> spoils p F (fun i j => m (d_at A i j)) i j -> F i j = p.
Proof.
  intros T O p al A m q AB D A1.
  destruct (getrf_rm_ok T O al A D A1 m q) as (m' & q' & E & [U _] & _). exists m', q'. split; auto. intros M N F i j Hi Hj H.
  fold M N in U. unfold F. rewrite U by (split; auto). apply (lu_nan O p AB (el_sub O) (fun l => l) (min M N) _ M N); auto.
  - apply el_sub_nan; auto.
  - destruct H as [H|[(l & Hl & H)|[C H]]].
    + left. rewrite interchanged_id. exact H.
    + right. left. exists l. split; auto. unfold F in H. rewrite !U in H by (split; lia). exact H.
    + right. right. split; auto. unfold F in H. rewrite U in H by (split; lia). exact H.
Qed.

(* ------------------------------------------------------------------ examples *)
(** A 3 x 3 matrix at address 0 on AVX2, and one at address 16 on NEON (two registers per tile): the hypotheses hold, and with equal elements -- one of them NaN --
    the factors are equal, element for element, and so are the pivots; the NaN, in the third column of the first row, is in the third column of the factors. *)
Definition rl_a : marg := MArg (whole (Cont Dense false columnMajor 3 3 0)) false.
Definition rl_b : marg := MArg (whole (Cont Dense false columnMajor 3 3 16)) false.
Definition rl_m (nan_at : nat) (x : nat) : b64 := if x =? nan_at then B754_nan else nth (x mod 16) (map d64 [1; 4; 2; 0; 2; 3; 7; 0; 3; 5; 1; 0]%Z) (d64 0).
Definition rl_read (m : mem b64) (SS : nat) (A : marg) := map (fun i => map (fun j => B2SF (m (g_addr SS A i j))) [0; 1; 2]) [0; 1; 2].
Lemma rl_pre : forall SS cc A, 0 < SS -> arg_ok SS A -> c_kind (v_cont (g_view A)) = Dense -> g_so A = columnMajor -> getrf_pre SS cc (fun _ => true) A.
Proof. intros SS cc A HSS H1 H2 H3. split; [constructor; auto|]; intros ? **; reflexivity. Qed.
Example C73_example_lu : getrf_pre 4 1 (fun _ => true) rl_a /\ getrf_pre 2 2 (fun _ => true) rl_b /\ match getrf_cm 4 1 b64 b64ops (fun _ => true) rl_a (rl_m 8, fun _ => 9), getrf_cm 2 2 b64 b64ops (fun _ => true) rl_b (rl_m 24, fun _ => 7),
        getf2_cm 4 1 b64 b64ops (fun _ => true) rl_a (rl_m 8, fun _ => 9) with
  | Ok (m1, p1), Ok (m2, p2), Ok (m3, p3) => (rl_read m1 4 rl_a = rl_read m2 2 rl_b) /\ (rl_read m1 4 rl_a = rl_read m3 4 rl_a) /\ map p1 [0; 1; 2] = map p2 [0; 1; 2] /\ map p1 [0; 1; 2] = [1; 2; 2] /\ map (fun i => is_nan_at m1 (g_addr 4 rl_a i 2)) [0; 1; 2] = [false; false; true] /\ map (fun i => is_nan_at m1 (g_addr 4 rl_a i 1)) [0; 1; 2] = [false; false; false]
  | _, _, _ => False end.
Proof. split; [|split]; [apply rl_pre; auto; try lia; vm_compute; auto|apply rl_pre; auto; try lia; vm_compute; auto|]. vm_compute. repeat split. Qed.
(** A NaN is not preferred to a zero: the matrix [0; NaN] is refused although its column is not zero, the matrix [NaN; 0] is not. *)
Example C71_example_lu :
  let A := MArg (whole (Cont Dense false columnMajor 2 1 0)) false in
  getf2_cm 4 1 b64 b64ops (fun _ => true) A (fun x => if x =? 1 then B754_nan else d64 0, fun _ => 0) = Throw InvalidArgument /\ match getf2_cm 4 1 b64 b64ops (fun _ => true) A (fun x => if x =? 0 then B754_nan else d64 0, fun _ => 0) with
  | Ok (m, _) => is_nan_at m (g_addr 4 A 0 0) = true /\ is_nan_at m (g_addr 4 A 1 0) = true | _ => False end.
Proof. split; [reflexivity|]. vm_compute. auto. Qed.

(** The storage order matters to the last bit, and even to success: on the column-major matrix [3 3; 1 1] getf2 succeeds (its fused multiply-add sees 1/3 rounded), on the
    row-major matrix with the same elements it throws.  On a 5-by-5 matrix with these elements in the corners and the identity in between getf2 succeeds and getrf, whose last
    update (by gemm) rounds the product, throws. *)
Theorem C73_storage_order_refuted :
  let m (a : list Z) (x : nat) := d64 (nth x a 0%Z) in
  let al := fun _ : nat => true in
  (match getf2_cm 4 1 b64 b64ops al (MArg (whole (Cont Dense false columnMajor 2 2 0)) false) (m [3; 1; 0; 0; 3; 1]%Z, fun _ => 0) with
   | Ok (m', _) => oltb b64ops (d64 0) (m' (g_addr 4 (MArg (whole (Cont Dense false columnMajor 2 2 0)) false) 1 1)) = true | _ => False end) /\
  getf2_rm b64 b64ops al (DMat 2 2 (g_addr 4 (MArg (whole (Cont Dense false rowMajor 2 2 0)) false))) (m [3; 3; 0; 0; 1; 1]%Z, fun _ => 0) = Throw InvalidArgument.
Proof. cbv zeta. split; vm_compute; reflexivity. Qed.
Theorem C73_blocking_refuted :
  let A := MArg (whole (Cont Dense false columnMajor 5 5 0)) false in
  let m (x : nat) := d64 (if Nat.eqb x 0 || Nat.eqb x 32 then 3 else if Nat.eqb x 4 || Nat.eqb x 36 then 1 else if Nat.eqb (x mod 9) 0 then 1 else 0)%Z in
  getrf_pre 4 1 (fun _ => true) A /\
  (match getf2_cm 4 1 b64 b64ops (fun _ => true) A (m, fun _ => 0) with Ok (m', _) => oltb b64ops (d64 0) (m' (g_addr 4 A 4 4)) = true | _ => False end) /\
  getrf_cm 4 1 b64 b64ops (fun _ => true) A (m, fun _ => 0) = Throw InvalidArgument.
Proof. cbv zeta. split; [apply rl_pre; auto; try lia; vm_compute; auto|]. split; vm_compute; reflexivity. Qed.
