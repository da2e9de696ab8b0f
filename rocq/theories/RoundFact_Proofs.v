(** RoundFact_Proofs.v -- backward errors of the factorisations and of triangular solves, element by element, for any rounded arithmetic. *)
From Coq Require Import Reals Lra Lia Arith.
From Verif Require Import Base Spec Round_Spec Round_Proofs RoundElem_Proofs Properties_Potrf.
Local Open Scope R_scope.

Section Fact.
Context {T : Type} (O : Ops T) (val : T -> R) (fin : T -> bool) (u eta : R) (RA : rounded O val fin u eta).
Let Hu := rHu O val fin u eta RA.
Let He := rHeta O val fin u eta RA.
Notation Q := (/ (1 - u)).

(** ** Cholesky *)
Lemma chol_num_backward : forall TS ld a l i j, (0 < TS)%nat -> (forall x, fin (ld x) = true -> fin x = true /\ val (ld x) = val x) ->
  fin (chol_num O TS ld a l i j) = true ->
  (forall k, (k < j)%nat -> fin (l i k) = true /\ fin (l j k) = true) /\ fin (a i j) = true /\
  Rabs (val (a i j) - Rsum j (fun k => val (l i k) * val (l j k)) - val (chol_num O TS ld a l i j)) <=
    downs u j * (Rsum j (fun k => Rabs (val (l i k) * val (l j k))) + Rabs (val (chol_num O TS ld a l i j))) + INR j * Q ^ j * eta.
Proof.
  intros TS ld a l i j HT Hld. unfold chol_num. pose proof (Nat.mul_div_le j TS ltac:(lia)) as Hk. set (k := (TS * (j / TS))%nat) in *. clearbody k.
  set (z := fma_chain O k (fun c => omul O (om1 O) (l i c)) (fun c => l j c) (ld (a i j))). intros F.
  destruct (fnma_chain_steps O val fin u eta RA _ _ _ _ F) as (Fz & H2). unfold z in Fz.
  destruct (fma_chain_steps O val fin u eta RA _ _ _ _ Fz) as (Fa & H1). fold z in Fz. destruct (Hld _ Fa) as (Fa' & Va).
  assert (G : forall c, (c < j)%nat -> fin (l i c) = true /\ fin (l j c) = true).
  { intros c Hc. destruct (le_lt_dec k c) as [L|L].
    - destruct (H2 (c - k)%nat ltac:(lia)) as (A & B & _). replace (k + (c - k))%nat with c in * by lia. auto.
    - destruct (H1 c L) as (A & B & _). rewrite (proj1 (ra_m1 _ _ _ _ _ RA _)) in A. auto. }
  split; auto. split; auto.
  set (s := fun n => val (if (n <=? k)%nat then fma_chain O n (fun c => omul O (om1 O) (l i c)) (fun c => l j c) (ld (a i j))
                          else fnma_chain O (n - k) (fun c => l j (k + c)%nat) (fun c => l i (k + c)%nat) z)).
  assert (E0 : s 0%nat = val (a i j)) by (unfold s; cbn [Nat.leb fma_chain]; auto).
  assert (Ej : s j = val (fnma_chain O (j - k) (fun c => l j (k + c)%nat) (fun c => l i (k + c)%nat) z)).
  { unfold s. destruct (Nat.leb_spec j k); auto. assert (j = k) as -> by lia. rewrite Nat.sub_diag. reflexivity. }
  rewrite <- E0, <- Ej. apply (backward_rec u eta Hu He j s). intros n Hn. unfold s.
  destruct (Nat.leb_spec (S n) k) as [L|L].
  - destruct (Nat.leb_spec n k); [|lia]. destruct (H1 n L) as (A & B & R). rewrite (proj2 (ra_m1 _ _ _ _ _ RA _)) in R by (apply G; auto).
    replace (val (fma_chain O n (fun c => omul O (om1 O) (l i c)) (fun c => l j c) (ld (a i j))) - val (l i n) * val (l j n))
      with (val (fma_chain O n (fun c => omul O (om1 O) (l i c)) (fun c => l j c) (ld (a i j))) + - val (l i n) * val (l j n)) by ring. exact R.
  - replace (S n - k)%nat with (S (n - k)) by lia. destruct (H2 (n - k)%nat ltac:(lia)) as (A & B & R). replace (k + (n - k))%nat with n in R by lia.
    rewrite (Rmult_comm (val (l i n))). destruct (Nat.leb_spec n k); [|exact R]. assert (n = k) as -> by lia. rewrite Nat.sub_diag in *. exact R.
Qed.

Lemma chol_backward : forall TS ld a l i j, (0 < TS)%nat -> (forall x, fin (ld x) = true -> fin x = true /\ val (ld x) = val x) ->
  chol_elem O TS ld a l i j -> chol_elem O TS ld a l j j -> fin (l i j) = true -> fin (l j j) = true ->
  fin (a i j) = true /\
  Rabs (val (a i j) - Rsum (S j) (fun k => val (l i k) * val (l j k))) <=
    downs u (j + 4) * Rsum (S j) (fun k => Rabs (val (l i k) * val (l j k))) +
    Q ^ (j + 4) * (eta * (INR j + (Rabs (val (l i j)) + Rabs (val (l j j)) + eta))).
Proof.
  intros TS ld a l i j HT Hld Ei Ej Fi Fj. apply chol_elem_cases in Ei, Ej; auto.
  assert (Ej' : l j j = odiv O (chol_num O TS ld a l j j) (osqrt O (chol_num O TS ld a l j j))) by (destruct Ej as [E|[E _]]; [auto|lia]). clear Ej.
  set (s := chol_num O TS ld a l j j) in *. set (t := chol_num O TS ld a l i j) in *.
  rewrite Ej' in Fj. destruct (ra_div _ _ _ _ _ RA _ _ Fj) as (Fs & Dj). pose proof (ra_div_sqrt _ _ _ _ _ RA _ _ Fj Fs) as Ps.
  destruct (ra_sqrt _ _ _ _ _ RA s Fs ltac:(lra)) as (Fr & Rr). destruct (Dj Fr) as (N0 & Rj). rewrite <- Ej' in Fj, Rj.
  pose proof (Rabs_pos (val (l i j))) as Pi. pose proof (Rabs_pos (val (l j j))) as Pj.
  assert (C : fin t = true /\ Rabs (val t) <= Q ^ 4 * (Rabs (val (l i j) * val (l j j)) + eta * (Rabs (val (l i j)) + Rabs (val (l j j)) + eta)) /\
          Rabs (val t - val (l i j) * val (l j j)) <=
            downs u 4 * Rabs (val (l i j) * val (l j j)) + Q ^ 4 * (eta * (Rabs (val (l i j)) + Rabs (val (l j j)) + eta))).
  { destruct Ei as [E|[Hlt E]]; fold s t in E.
    - rewrite E in Fi. destruct (ra_div _ _ _ _ _ RA _ _ Fi) as (Ft & Di). destruct (Di Fr) as (_ & Ri). rewrite <- E in Ri. split; auto.
      destruct (sqrt_error u eta Hu He _ _ _ _ _ Ps Rr Rj Ri) as (_ & X & Y). auto.
    - rewrite E in Fi. destruct (ra_div _ _ _ _ _ RA _ _ Fi) as (Ft & Di). destruct (Di Fj) as (N1 & Ri). rewrite <- E in Ri. split; auto.
      destruct (quot_error u eta Hu He _ _ _ N1 Ri) as (X & Y). pose proof (powQ_mono u Hu 1 4 ltac:(lia)) as M. rewrite pow_1 in M.
      pose proof (downs_mono u Hu 1 4 ltac:(lia)) as M'. pose proof (Q_ge1 u Hu) as Q1. pose proof (Rabs_pos (val (l i j) * val (l j j))) as Pp.
      assert (0 <= eta * eta) by (apply Rle_0_sqr). assert (0 <= eta * Rabs (val (l i j))) by (apply Rmult_le_pos; auto).
      assert (0 <= Rabs (val (l j j)) * eta) by (apply Rmult_le_pos; auto).
      split.
      + eapply Rle_trans; [exact X|]. apply Rmult_le_compat; lra.
      + eapply Rle_trans; [exact Y|]. apply Rplus_le_compat; [apply Rmult_le_compat_r; auto|]. apply Rmult_le_compat; lra. }
  destruct C as (Ft & X & Y). destruct (chol_num_backward TS ld a l i j HT Hld Ft) as (_ & Fa & B). fold t in B.
  split; auto.
  cbn [Rsum]. apply (join_error u eta Hu He) with (t := val t); auto; try lra. apply Rsum_nonneg. intros. apply Rabs_pos.
Qed.

(** ** Triangular solves: x = (b - sum a k * x k) / d *)
Lemma solve_backward : forall n a x b d y, y = odiv O (sub_chain O n a x b) d -> fin y = true -> fin d = true ->
  (forall k, (k < n)%nat -> fin (a k) = true /\ fin (x k) = true) /\ fin b = true /\ val d <> 0 /\
  Rabs (val b - (Rsum n (fun k => val (a k) * val (x k)) + val y * val d)) <=
    downs u (n + 2) * (Rsum n (fun k => Rabs (val (a k) * val (x k))) + Rabs (val y * val d)) + Q ^ (n + 2) * (eta * (2 * INR n + Rabs (val d))).
Proof.
  intros n a x b d y E Fy Fd. rewrite E in Fy. destruct (ra_div _ _ _ _ _ RA _ _ Fy) as (Ft & D). destruct (D Fd) as (N & R). rewrite <- E in R.
  destruct (sub_chain_backward O val fin u eta RA _ _ _ _ Ft) as (G & Fb & B). do 3 (split; auto). set (t := val (sub_chain O n a x b)) in *.
  destruct (quot_error u eta Hu He _ _ _ N R) as (X & Y).
  assert (B' : Rabs (val b - Rsum n (fun k => val (a k) * val (x k)) - t) <=
     downs u (S n) * (Rsum n (fun k => Rabs (val (a k) * val (x k))) + Rabs t) + 2 * INR n * Q ^ S n * eta) by exact B.
  set (S0 := Rsum n (fun k => Rabs (val (a k) * val (x k)))) in *. assert (PS : 0 <= S0) by (apply Rsum_nonneg; intros; apply Rabs_pos).
  set (P0 := Rsum n (fun k => val (a k) * val (x k))) in *.
  replace (val b - (P0 + val y * val d)) with ((val b - P0 - t) + (t - val y * val d)) by ring. eapply Rle_trans; [apply Rabs_triang|].
  pose proof (downs_nonneg u Hu (S n)) as D1. pose proof (powQ u Hu (S n)) as PQ. pose proof (Q_ge1 u Hu) as Q1. pose proof (pos_INR n) as Pn.
  pose proof (Rabs_pos (val d)) as Pd. pose proof (Rabs_pos (val y * val d)) as Pyd.
  replace (n + 2)%nat with (S n + 1)%nat by lia.
  assert (DE : forall j, downs u j = Q ^ j - 1) by reflexivity. assert (E2 : Q ^ (S n + 1) = Q ^ S n * Q) by (rewrite pow_add, pow_1; reflexivity).
  rewrite !DE, !pow_1 in *. rewrite E2. set (A := Q ^ S n) in *. set (q := Q) in *. clearbody A q S0 P0 t.
  assert (Z1 : (A - 1) * Rabs t <= (A - 1) * (q * (Rabs (val y * val d) + Rabs (val d) * eta))) by (apply Rmult_le_compat_l; auto).
  assert (AQ : A * 1 <= A * q) by (apply Rmult_le_compat_l; lra).
  assert (Z2 : (A - 1) * S0 <= (A * q - 1) * S0) by (apply Rmult_le_compat_r; auto; lra).
  assert (PN : 0 <= 2 * (INR n * eta)) by (pose proof (Rmult_le_pos _ _ Pn He); lra).
  assert (Z3 : A * (2 * (INR n * eta)) <= A * q * (2 * (INR n * eta))) by (apply Rmult_le_compat_r; lra).
  lra.
Qed.
Lemma solve_unit_backward : forall n a x b y, y = sub_chain O n a x b -> fin y = true ->
  (forall k, (k < n)%nat -> fin (a k) = true /\ fin (x k) = true) /\ fin b = true /\
  Rabs (val b - (Rsum n (fun k => val (a k) * val (x k)) + val y)) <=
    downs u (n + 2) * (Rsum n (fun k => Rabs (val (a k) * val (x k))) + Rabs (val y)) + Q ^ (n + 2) * (eta * (2 * INR n)).
Proof.
  intros n a x b y E Fy. rewrite E in Fy. destruct (sub_chain_backward O val fin u eta RA _ _ _ _ Fy) as (G & Fb & B). do 2 (split; auto). rewrite <- E in B.
  set (S0 := Rsum n (fun k => Rabs (val (a k) * val (x k)))) in *. assert (PS : 0 <= S0) by (apply Rsum_nonneg; intros; apply Rabs_pos).
  set (P0 := Rsum n (fun k => val (a k) * val (x k))) in *. replace (val b - (P0 + val y)) with (val b - P0 - val y) by ring.
  eapply Rle_trans; [exact B|]. pose proof (Rabs_pos (val y)) as Py.
  pose proof (downs_mono u Hu (S n) (n + 2) ltac:(lia)) as D. pose proof (powQ_mono u Hu (S n) (n + 2) ltac:(lia)) as P. pose proof (pos_INR n) as Pn.
  apply Rplus_le_compat; [apply Rmult_le_compat_r; lra|]. assert (PN : 0 <= 2 * (INR n * eta)) by (pose proof (Rmult_le_pos _ _ Pn He); lra).
  assert (Z3 : Q ^ S n * (2 * (INR n * eta)) <= Q ^ (n + 2) * (2 * (INR n * eta))) by (apply Rmult_le_compat_r; lra). lra.
Qed.
End Fact.
