(** Cholesky_Proofs.v -- positive definite matrices have positive Cholesky pivots (real arithmetic). *)
From Coq Require Import Arith Lia List Bool PeanoNat Reals Lra.
From Verif Require Import Base Spec Algebra_Proofs Instances.
Local Open Scope R_scope.

Notation S_ := (sum rops).
Lemma S_ext : forall n f g, (forall k, (k < n)%nat -> f k = g k) -> S_ n f = S_ n g.
Proof. apply sum_ext. Qed.
Lemma S_scale : forall n a f, S_ n (fun k => a * f k) = a * S_ n f.
Proof. intros. apply (sum_scale rops rops_ring). Qed.
Lemma S_plus : forall n f g, S_ n (fun k => f k + g k) = S_ n f + S_ n g.
Proof. intros. apply (sum_plus rops rops_ring). Qed.
Lemma S_0 : forall n f, (forall k, (k < n)%nat -> f k = 0) -> S_ n f = 0.
Proof. intros. apply (sum_0 rops rops_ring). auto. Qed.
Lemma S_trunc : forall n l f, (l <= n)%nat -> (forall k, (l <= k < n)%nat -> f k = 0) -> S_ n f = S_ l f.
Proof. intros. apply (sum_trunc rops rops_ring); auto. Qed.
Lemma S_swap : forall m n f, S_ m (fun i => S_ n (fun j => f i j)) = S_ n (fun j => S_ m (fun i => f i j)).
Proof. intros. apply (sum_swap rops rops_ring). Qed.
Lemma S_delta : forall n l f, (l < n)%nat -> S_ n (fun i => if (i =? l)%nat then f i else 0) = f l.
Proof.
  intros n l f H. rewrite (S_trunc n (S l)); [|lia|intros k Hk; destruct (Nat.eqb_spec k l); [lia|auto]].
  cbn [sum oadd rops]. rewrite Nat.eqb_refl. rewrite S_0; [lra|].
  intros k Hk. destruct (Nat.eqb_spec k l); [lia|auto].
Qed.

Section Pivots.
Variables (N : nat) (A L : nat -> nat -> R).
Definition pivot (j : nat) : R := A j j - S_ j (fun k => L j k * L j k).
(** L is computed from A: a positive pivot gives a correct column. *)
Hypothesis HL : forall j, (j < N)%nat -> 0 < pivot j ->
  0 < L j j /\ forall i, (j <= i < N)%nat -> S_ (S j) (fun k => L i k * L j k) = A i j.
Hypothesis Sym : forall i j, (i < N)%nat -> (j < N)%nat -> A i j = A j i.
Hypothesis PD : forall v, (exists i, (i < N)%nat /\ v i <> 0) -> 0 < S_ N (fun i => S_ N (fun j => v i * A i j * v j)).

Definition Lt (i k : nat) : R := if (k <=? i)%nat then L i k else 0.

Lemma back_solve : forall j, (forall l, (l < j)%nat -> 0 < L l l) -> forall n, (n <= j)%nat ->
  exists v, v j = 1 /\ (forall i, (j < i)%nat -> v i = 0) /\
    forall l, (j - n <= l < j)%nat -> S_ (S j) (fun i => Lt i l * v i) = 0.
Proof.
  intros j Hd. induction n as [|n IH]; intros Hn.
  - exists (fun i => if (i =? j)%nat then 1 else 0). rewrite Nat.eqb_refl. split; [auto|]. split.
    + intros i Hi. destruct (Nat.eqb_spec i j); [lia|auto].
    + intros l Hl. lia.
  - destruct IH as (v & V1 & V2 & V3); [lia|]. set (l0 := (j - S n)%nat).
    set (c := - S_ (S j) (fun i => Lt i l0 * v i) / L l0 l0).
    exists (fun i => v i + (if (i =? l0)%nat then c else 0)).
    assert (Hl0 : (l0 < j)%nat) by (unfold l0; lia).
    split; [|split].
    + destruct (Nat.eqb_spec j l0); [lia|]. rewrite V1. lra.
    + intros i Hi. destruct (Nat.eqb_spec i l0); [lia|]. rewrite V2 by auto. lra.
    + intros l Hl.
      assert (E : S_ (S j) (fun i => Lt i l * (v i + (if (i =? l0)%nat then c else 0))) = S_ (S j) (fun i => Lt i l * v i) + Lt l0 l * c).
      { rewrite (S_ext _ _ (fun i => Lt i l * v i + (if (i =? l0)%nat then Lt i l * c else 0))).
        - rewrite S_plus. f_equal. rewrite (S_delta (S j) l0 (fun i => Lt i l * c)) by lia. reflexivity.
        - intros k Hk. destruct (k =? l0)%nat; lra. }
      rewrite E. unfold Lt at 2. destruct (Nat.leb_spec l l0) as [Le|Gt].
      * assert (l = l0) by (unfold l0 in *; lia). subst l. unfold c. specialize (Hd l0 Hl0). field. lra.
      * rewrite V3 by (unfold l0 in *; lia). lra.
Qed.

Theorem pivots_positive : forall j, (j < N)%nat -> 0 < pivot j.
Proof.
  induction j as [j IH] using lt_wf_ind. intros Hj.
  destruct (back_solve j (fun l Hl => proj1 (HL l ltac:(lia) (IH l Hl ltac:(lia)))) j (Nat.le_refl j)) as (v & V1 & V2 & V3).
  assert (EA : forall i i', (i <= j)%nat -> (i' <= j)%nat ->
     A i i' = S_ j (fun k => Lt i k * Lt i' k) + (if (i =? j)%nat then if (i' =? j)%nat then pivot j else 0 else 0)).
  { assert (G : forall i i', (i' <= i <= j)%nat ->
     A i i' = S_ j (fun k => Lt i k * Lt i' k) + (if (i =? j)%nat then if (i' =? j)%nat then pivot j else 0 else 0)).
    { intros i i' H. destruct (Nat.eq_dec i' j) as [->|Ne].
      - assert (i = j) by lia. subst i. rewrite Nat.eqb_refl. unfold pivot.
        rewrite (S_ext j (fun k => Lt j k * Lt j k) (fun k => L j k * L j k)); [lra|].
        intros k Hk. unfold Lt. rewrite (proj2 (Nat.leb_le k j)) by lia. reflexivity.
      - assert (Hi' : (i' < j)%nat) by lia. destruct (HL i' ltac:(lia) (IH i' Hi' ltac:(lia))) as [_ X].
        rewrite <- (X i) by lia. destruct (Nat.eqb_spec i' j); [lia|].
        rewrite (S_trunc j (S i')).
        + replace (if (i =? j)%nat then 0 else 0) with 0 by (destruct (i =? j)%nat; auto). rewrite Rplus_0_r.
          apply S_ext. intros k Hk. unfold Lt. rewrite !(proj2 (Nat.leb_le _ _)) by lia. reflexivity.
        + lia.
        + intros k Hk. unfold Lt at 2. destruct (Nat.leb_spec k i'); [lia|]. lra. }
    intros i i' Hi Hi'. destruct (Nat.le_gt_cases i' i).
    - apply G. lia.
    - rewrite Sym by lia. rewrite G by lia. f_equal.
      + apply S_ext. intros. lra.
      + destruct (i =? j)%nat, (i' =? j)%nat; auto. }
  pose proof (PD v) as P. rewrite (S_trunc N (S j)) in P.
  2: lia. 2: { intros k Hk. apply S_0. intros. rewrite V2 by lia. lra. }
  assert (E : S_ (S j) (fun i => S_ N (fun j0 => v i * A i j0 * v j0)) = pivot j).
  { rewrite (S_ext (S j) _ (fun i => if (i =? j)%nat then pivot j else 0)).
    - rewrite (S_delta (S j) j (fun _ => pivot j)) by lia. reflexivity.
    - intros i Hi. rewrite (S_trunc N (S j)); [|lia|intros k Hk; rewrite (V2 k) by lia; lra].
      rewrite (S_ext (S j) _ (fun i' => v i * S_ j (fun k => Lt i k * (Lt i' k * v i')) +
          (if (i' =? j)%nat then (if (i =? j)%nat then v i * pivot j * v i' else 0) else 0))).
      + rewrite S_plus. rewrite (S_delta (S j) j (fun i' => if (i =? j)%nat then v i * pivot j * v i' else 0)) by lia.
        rewrite S_scale, S_swap.
        rewrite (S_0 j).
        * destruct (Nat.eqb_spec i j) as [->|]; [rewrite V1|]; lra.
        * intros k Hk. rewrite S_scale. rewrite V3 by lia. lra.
      + intros i' Hi'. rewrite EA by lia.
        replace (S_ j (fun k => Lt i k * (Lt i' k * v i'))) with (v i' * S_ j (fun k => Lt i k * Lt i' k)).
        * destruct (i =? j)%nat, (i' =? j)%nat; ring.
        * rewrite <- S_scale. apply S_ext. intros. ring. }
  rewrite E in P. apply P. exists j. split; auto. rewrite V1. lra.
Qed.
End Pivots.
