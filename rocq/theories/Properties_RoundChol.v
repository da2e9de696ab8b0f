(** Properties_RoundChol.v -- C66: in rounded arithmetic potrf runs to completion on every matrix that is positive definite by a sufficient margin,
    and is then backward stable.  [rounded] and [ranged] (Round_Spec.v) say what is assumed about the scalar operations; C49_double and
    C49_double_range show that IEEE double satisfies them with u = 2^-53, eta = 2^-1075, big = 2^1023. *)
From Coq Require Import Reals Lra Lia Arith Bool List ZArith.
From Flocq Require Import Core.Core IEEE754.BinarySingleNaN.
From Verif Require Import Base Spec Layout_Model Reg_Model Tile_Model Potrf_Model Properties_Potrf Round_Spec Round_Proofs RoundFact_Proofs RoundChol_Proofs
  Float_Proofs Properties_Round.
Import ListNotations.
Local Open Scope R_scope.

(** The symmetric N x N matrix S is positive definite with margin lam relative to its diagonal: for every vector v,
    v^T S v >= lam * sum_i S_ii v_i^2.  (Equivalently, the smallest eigenvalue of S scaled to unit diagonal is at least lam.) *)
Definition pos_def_margin (N : nat) (lam : R) (S : nat -> nat -> R) : Prop :=
  (forall i j, (i < N)%nat -> (j < N)%nat -> S i j = S j i) /\ 0 < lam /\
  forall v, lam * Rsum N (fun i => S i i * (v i * v i)) <= Rsum N (fun i => Rsum N (fun k => v i * v k * S i k)).
(** The margin exceeds the rounding errors (8 N ((1-u)^-(N+5) - 1), about 8 N^2 u), the diagonal is above the underflow threshold and below the
    overflow threshold. *)
Record well_scaled (u eta big : R) (N : nat) (lam : R) (S : nat -> nat -> R) (del B : R) : Prop := {
  ws_margin : 8 * INR N * downs u (N + 5) <= lam;
  ws_diag : forall i, (i < N)%nat -> del <= S i i <= B;
  ws_del : 0 < del <= 1;
  ws_B : 1 <= B;
  ws_under : (/ (1 - u)) ^ (N + 4) * (INR N + 3) * eta <= u * del;
  ws_over : 16 * INR N * B <= lam * big
}.

Lemma complete_gen : forall T (O : Ops T) val fin u eta big TS ld (a l : nat -> nat -> T) N lam S del B, rounded O val fin u eta -> ranged O val fin big ->
  (0 < TS)%nat -> (forall x, fin (ld x) = fin x /\ (fin x = true -> val (ld x) = val x)) ->
  (forall i j, (j <= i < N)%nat -> chol_elem O TS ld a l i j) ->
  (forall i j, (j <= i < N)%nat -> fin (a i j) = true /\ val (a i j) = S i j) -> pos_def_margin N lam S -> well_scaled u eta big N lam S del B ->
  forall i j, (j <= i < N)%nat -> fin (l i j) = true /\ 0 < val (l j j) /\
    Rabs (S i j - Rsum (j + 1) (fun k => val (l i k) * val (l j k))) <= 4 * downs u (N + 5) * (sqrt (S i i) * sqrt (S j j)) /\
    Rsum (i + 1) (fun k => val (l i k) * val (l i k)) <= 25 / 16 * S i i.
Proof.
  intros T O val fin u eta big TS ld a l N lam S del B RA RG HT Hld HE FA (Sy & Pl & PD) [W1 W2 W3 W4 W5 W6] i j Hi.
  set (S' := fun i k => if ((i <? N)%nat && (k <? N)%nat)%bool then S i k else 0).
  assert (E : forall i k, (i < N)%nat -> (k < N)%nat -> S' i k = S i k).
  { intros i' k' Hi' Hk'. unfold S'. destruct (Nat.ltb_spec i' N); [|lia]. destruct (Nat.ltb_spec k' N); [|lia]. reflexivity. }
  rewrite <- (E i j), <- (E i i), <- (E j j) by lia. rewrite !Nat.add_1_r.
  apply (chol_complete O val fin u eta big RA RG N TS ld a l S' lam del B); auto; try lia.
  - intros i' j' H'. rewrite E by lia. auto.
  - intros i' k'. unfold S'. rewrite andb_comm. destruct (Nat.ltb_spec k' N); auto. destruct (Nat.ltb_spec i' N); auto. cbn [andb]. auto.
  - intros v. rewrite (Rsum_ext N (fun i => S' i i * (v i * v i)) (fun i => S i i * (v i * v i))) by (intros; rewrite E; auto).
    rewrite (Rsum_ext N (fun i => Rsum N (fun k => v i * v k * S' i k)) (fun i => Rsum N (fun k => v i * v k * S i k))); auto.
    intros i' Hi'. apply Rsum_ext. intros k' Hk'. rewrite E; auto.
  - intros i' Hi'. rewrite E by auto. auto.
Qed.

(** potrf on an M x N matrix (M >= N) whose leading N x N part is such a matrix: every element of the factor of that part is finite, its diagonal is
    positive, L * L^T is A up to 4 ((1-u)^-(N+5) - 1) relative to the diagonal, and the rows of L do not grow. *)
Theorem C66_potrf_dense_completes : forall SS cc T (O : Ops T) val fin u eta big al A L m S lam del B,
  rounded O val fin u eta -> ranged O val fin big -> (0 < SS)%nat -> (0 < cc)%nat -> potrf_pre SS cc al A L ->
  let N := v_n A in
  (forall i j, (j <= i < N)%nat -> fin (m (v_addr SS A i j)) = true /\ val (m (v_addr SS A i j)) = S i j) ->
  pos_def_margin N lam S -> well_scaled u eta big N lam S del B ->
  exists m', potrf_dense SS cc (cc * SS) T O al A L m = Ok m' /\
  let l i j := m' (v_addr SS L i j) in
  forall i j, (j <= i < N)%nat -> fin (l i j) = true /\ 0 < val (l j j) /\
    Rabs (S i j - Rsum (j + 1) (fun k => val (l i k) * val (l j k))) <= 4 * downs u (N + 5) * (sqrt (S i i) * sqrt (S j j)) /\
    Rsum (i + 1) (fun k => val (l i k) * val (l i k)) <= 25 / 16 * S i i.
Proof.
  intros SS cc T O val fin u eta big al A L m S lam del B RA RG HSS Hcc P N FA PD WS. destruct (C28_potrf_dense_ops SS cc T O al A L m HSS Hcc P) as (m' & E & H & _).
  exists m'. split; auto. intros l.
  apply (complete_gen T O val fin u eta big (cc * SS) (fun x => omul O (o1 O) x) (fun i j => m (v_addr SS A i j)) l N lam S del B); auto; try lia.
  - intros x. apply (ra_1 _ _ _ _ _ RA).
  - intros i j Hi. apply H. destruct P as [_ _ (z1 & z2 & z3) _ _ _ _]. unfold lower. lia.
Qed.
Theorem C66_potrf_panel_completes : forall SS cc T (O : Ops T) val fin u eta big al A L m S lam del B,
  rounded O val fin u eta -> ranged O val fin big -> (0 < SS)%nat -> (0 < cc)%nat -> potrf_pre SS cc al A L ->
  let N := v_n A in
  (forall i j, (j <= i < N)%nat -> fin (m (v_addr SS A i j)) = true /\ val (m (v_addr SS A i j)) = S i j) ->
  pos_def_margin N lam S -> well_scaled u eta big N lam S del B ->
  exists m', potrf_panel SS cc (cc * SS) T O al A L m = Ok m' /\
  let l i j := m' (v_addr SS L i j) in
  forall i j, (j <= i < N)%nat -> fin (l i j) = true /\ 0 < val (l j j) /\
    Rabs (S i j - Rsum (j + 1) (fun k => val (l i k) * val (l j k))) <= 4 * downs u (N + 5) * (sqrt (S i i) * sqrt (S j j)) /\
    Rsum (i + 1) (fun k => val (l i k) * val (l i k)) <= 25 / 16 * S i i.
Proof.
  intros SS cc T O val fin u eta big al A L m S lam del B RA RG HSS Hcc P N FA PD WS. destruct (C28_potrf_panel_ops SS cc T O al A L m HSS Hcc P) as (m' & E & H & _).
  exists m'. split; auto. intros l.
  apply (complete_gen T O val fin u eta big (cc * SS) (fun x => x) (fun i j => m (v_addr SS A i j)) l N lam S del B); auto; try lia.
  intros i j Hi. apply H. destruct P as [_ _ (z1 & z2 & z3) _ _ _ _]. unfold lower. lia.
Qed.

(** ** Example, in double: the 6x4 matrix of C50_example, A(i,j) = min(i,j) + 1 + [i = j], has margin 1/5. *)
Lemma d64_exact : forall z, (Z.abs z < 2 ^ 53)%Z -> is_finite (d64 z) = true /\ B2R (d64 z) = IZR z.
Proof.
  intros z Hz. pose proof (binary_normalize_correct 53 1024 eq_refl eq_refl mode_NE z 0 false) as C. cbv zeta in C. fold (d64 z) in C.
  assert (F : F2R (beta := radix2) {| Fnum := z; Fexp := 0 |} = IZR z) by (unfold F2R; cbn; ring). rewrite F in C.
  assert (G : generic_format radix2 (SpecFloat.fexp 53 1024) (IZR z)).
  { apply (FLT.generic_format_FLT radix2 (3 - 1024 - 53) 53). exists (Float radix2 z 0); auto. cbn. lia. }
  rewrite round_generic in C; auto; try apply valid_rnd_round_mode. rewrite Rlt_bool_true in C; [destruct C as (C1 & C2 & _); auto|].
  apply Rlt_le_trans with (bpow radix2 53); [|apply bpow_le; lia]. rewrite <- abs_IZR. rewrite <- (IZR_Zpower radix2 53) by lia. apply IZR_lt. exact Hz.
Qed.
Definition e_S (i j : nat) : R := INR (min i j + (if (i =? j)%nat then 2 else 1)).
Example C66_example_margin : pos_def_margin 4 (/ 5) e_S.
Proof.
  split; [|split; [lra|]].
  - intros i j _ _. unfold e_S. rewrite Nat.min_comm, Nat.eqb_sym. reflexivity.
  - intros v. unfold e_S. cbn [Rsum]. cbn [Nat.min Nat.eqb Nat.add]. change (INR 1) with 1. replace (INR 2) with 2 by (cbn; lra). replace (INR 3) with 3 by (cbn; lra).
    replace (INR 4) with 4 by (cbn; lra). replace (INR 5) with 5 by (cbn; lra).
    set (a := v 0%nat). set (b := v 1%nat). set (c := v 2%nat). set (d := v 3%nat).
    pose proof (Rle_0_sqr (a + b + c + d)) as Q1. pose proof (Rle_0_sqr (b + c + d)) as Q2. pose proof (Rle_0_sqr (c + d)) as Q3. pose proof (Rle_0_sqr d) as Q4.
    pose proof (Rle_0_sqr a) as A. pose proof (Rle_0_sqr b) as B. pose proof (Rle_0_sqr c) as C. unfold Rsqr in *. lra.
Qed.
Lemma pow53 : 10000 < 2 ^ 53.
Proof. apply Rlt_le_trans with (2 ^ 14); [lra|]. apply Rle_pow; [lra|lia]. Qed.
Lemma u53 : 0 < / 2 ^ 53 <= / 10000.
Proof. pose proof pow53. split; [apply Rinv_0_lt_compat; lra|]. apply Rinv_le_contravar; lra. Qed.
Lemma q53 : 1 <= / (1 - / 2 ^ 53) <= 10000 / 9999.
Proof.
  pose proof u53 as H. split.
  - rewrite <- Rinv_1 at 1. apply Rinv_le_contravar; lra.
  - replace (10000 / 9999) with (/ (9999 / 10000)) by lra. apply Rinv_le_contravar; lra.
Qed.
Lemma q53_pow : forall n, (n <= 9)%nat -> (/ (1 - / 2 ^ 53)) ^ n <= 1001 / 1000.
Proof.
  intros n Hn. destruct q53 as [A B]. apply Rle_trans with ((10000 / 9999) ^ 9); [|lra].
  eapply Rle_trans; [apply pow_incr; split; [lra|exact B]|]. apply Rle_pow; [lra|auto].
Qed.
Example C66_example_scaled : well_scaled (/ 2 ^ 53) (/ 2 ^ 1075) (2 ^ 1023) 4 (/ 5) e_S 1 5.
Proof.
  constructor; try lra.
  - unfold downs. pose proof (q53_pow (4 + 5) ltac:(lia)). replace (INR 4) with 4 by (cbn; lra). lra.
  - intros i Hi. unfold e_S. rewrite Nat.min_id, Nat.eqb_refl. split.
    + change 1 with (INR 1). apply le_INR. lia.
    + replace 5 with (INR 5) by (cbn; lra). apply le_INR. lia.
  - replace (INR 4) with 4 by (cbn; lra). replace (/ 2 ^ 1075) with (/ 2 ^ 1022 * / 2 ^ 53).
    2: { rewrite <- Rinv_mult. f_equal. change 1075%nat with (1022 + 53)%nat. rewrite pow_add. reflexivity. }
    pose proof (q53_pow (4 + 4) ltac:(lia)) as Q8. pose proof u53 as U. assert (E : / 2 ^ 1022 <= / 16).
    { apply Rinv_le_contravar; [lra|]. apply Rle_trans with (2 ^ 4); [lra|]. apply Rle_pow; [lra|lia]. }
    assert (P : 0 <= / 2 ^ 1022) by (apply Rlt_le, Rinv_0_lt_compat, pow_lt; lra).
    set (q := (/ (1 - / 2 ^ 53)) ^ (4 + 4)) in *. assert (Pq : 0 <= q) by (apply pow_le; pose proof q53; lra). set (w := / 2 ^ 1022) in *. set (u := / 2 ^ 53) in *. clearbody q w u.
    assert (X : q * (4 + 3) * w <= 1) by (apply Rle_trans with (1001 / 1000 * (4 + 3) * / 16); [|lra]; apply Rmult_le_compat; try lra).
    replace (q * (4 + 3) * (w * u)) with (q * (4 + 3) * w * u) by ring. rewrite Rmult_1_r. rewrite <- (Rmult_1_l u) at 2. apply Rmult_le_compat_r; lra.
  - replace (INR 4) with 4 by (cbn; lra). assert (2 ^ 11 <= 2 ^ 1023) by (apply Rle_pow; [lra|lia]). assert (2 ^ 11 = 2048) by (cbn; lra). lra.
Qed.
Example C66_example : exists m', potrf_dense 4 1 4 b64 b64ops x_al (whole xA) (whole xL) x_m64 = Ok m' /\
  forall i j, (j <= i < 4)%nat -> is_finite (m' (c_addr 4 xL i j)) = true /\ 0 < B2R (m' (c_addr 4 xL j j)).
Proof.
  destruct (C66_potrf_dense_completes 4 1 b64 b64ops B2R is_finite (/ 2 ^ 53) (/ 2 ^ 1075) (2 ^ 1023) x_al (whole xA) (whole xL) x_m64 e_S (/ 5) 1 5
    C49_double C49_double_range ltac:(lia) ltac:(lia) C28_example) as (m' & E & H).
  - change (v_n (whole xA)) with 4%nat. intros i j Hi.
    assert (A : v_addr 4 (whole xA) i j = (i + 8 * j)%nat).
    { assert (i = 0 \/ i = 1 \/ i = 2 \/ i = 3)%nat as [-> | [-> | [-> | ->]]] by lia; assert (j = 0 \/ j = 1 \/ j = 2 \/ j = 3)%nat as [-> | [-> | [-> | ->]]] by lia;
        reflexivity. }
    rewrite A. unfold x_m64. destruct (Nat.ltb_spec (i + 8 * j) 32); [|lia].
    replace ((i + 8 * j) mod 8)%nat with i by (rewrite Nat.mul_comm, Nat.mod_add by lia; rewrite Nat.mod_small; lia).
    replace ((i + 8 * j) / 8)%nat with j by (rewrite Nat.mul_comm, Nat.div_add by lia; rewrite Nat.div_small; lia).
    destruct (d64_exact (Z.of_nat (min i j + (if (i =? j)%nat then 2 else 1))) ltac:(destruct (i =? j)%nat; lia)) as (F & V).
    split; auto. rewrite V. unfold e_S. symmetry. apply INR_IZR_INZ.
  - exact C66_example_margin.
  - exact C66_example_scaled.
  - exists m'. split; auto. intros i j Hi. destruct (H i j Hi) as (H1 & H2 & _). auto.
Qed.
