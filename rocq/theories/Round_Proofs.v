(** Round_Proofs.v -- propagation of rounding errors through the accumulation chains of Spec.v. *)
From Coq Require Import Arith Reals Lra Lia Bool Psatz.
From Verif Require Import Base Spec Round_Spec.
Local Open Scope R_scope.

Lemma Rsum_ext : forall n f g, (forall k, (k < n)%nat -> f k = g k) -> Rsum n f = Rsum n g.
Proof. induction n as [|n IH]; intros f g H; cbn; auto. rewrite (IH f g), (H n); auto. Qed.
Lemma Rsum_nonneg : forall n f, (forall k, (k < n)%nat -> 0 <= f k) -> 0 <= Rsum n f.
Proof. induction n as [|n IH]; intros f H; cbn; [lra|]. apply Rplus_le_le_0_compat; auto. Qed.
Lemma Rsum_le : forall n f g, (forall k, (k < n)%nat -> f k <= g k) -> Rsum n f <= Rsum n g.
Proof. induction n as [|n IH]; intros f g H; cbn; [lra|]. apply Rplus_le_compat; auto. Qed.
Lemma Rsum_abs : forall n f, Rabs (Rsum n f) <= Rsum n (fun k => Rabs (f k)).
Proof.
  induction n as [|n IH]; intros f; cbn; [rewrite Rabs_R0; lra|]. eapply Rle_trans; [apply Rabs_triang|]. apply Rplus_le_compat_r, IH.
Qed.
Lemma Rsum_scale : forall n c f, Rsum n (fun k => c * f k) = c * Rsum n f.
Proof. induction n as [|n IH]; intros c f; cbn; [ring|]. rewrite IH. ring. Qed.
Lemma Rsum_plus : forall n f g, Rsum n (fun k => f k + g k) = Rsum n f + Rsum n g.
Proof. induction n as [|n IH]; intros f g; cbn; [ring|]. rewrite IH. ring. Qed.
Lemma Rsum_minus : forall n f g, Rsum n (fun k => f k - g k) = Rsum n f - Rsum n g.
Proof. induction n as [|n IH]; intros f g; cbn; [ring|]. rewrite IH. ring. Qed.
Lemma Rsum_const : forall n c, Rsum n (fun _ => c) = INR n * c.
Proof. induction n as [|n IH]; intros c; [cbn; ring|]. rewrite S_INR. cbn [Rsum]. rewrite IH. ring. Qed.
Lemma Rsum_app : forall n m f, Rsum (n + m) f = Rsum n f + Rsum m (fun k => f (n + k)%nat).
Proof. intros n m f. induction m as [|m IH]; [rewrite Nat.add_0_r; cbn; ring|]. rewrite Nat.add_succ_r. cbn. rewrite IH. ring. Qed.

Lemma rounds_abs : forall u eta x y, 0 <= u -> rounds u eta x y -> Rabs x <= (1 + u) * Rabs y + eta.
Proof. intros u eta x y Hu H. unfold rounds in H. replace x with (y + (x - y)) by ring. eapply Rle_trans; [apply Rabs_triang|]. lra. Qed.
(** The exact value in terms of the rounded one. *)
Lemma rounds_inv : forall u eta x y, u < 1 -> rounds u eta x y -> Rabs y <= / (1 - u) * (Rabs x + eta).
Proof.
  intros u eta x y Hu H. unfold rounds in H. apply (Rmult_le_reg_l (1 - u)); [lra|]. rewrite <- Rmult_assoc, Rinv_r by lra.
  assert (Rabs y <= Rabs x + Rabs (x - y)). { replace y with (x - (x - y)) at 1 by ring. unfold Rminus at 1. eapply Rle_trans; [apply Rabs_triang|]. rewrite Rabs_Ropp. lra. }
  lra.
Qed.

(** ** The constants *)
Section Const.
Variable u : R.
Hypothesis Hu : 0 <= u < 1.
Lemma pow1u : forall n, 1 <= (1 + u) ^ n.
Proof. intros. apply pow_R1_Rle. lra. Qed.
Lemma Q_ge1 : 1 <= / (1 - u).
Proof. rewrite <- Rinv_1. apply Rinv_le_contravar; lra. Qed.
Lemma powQ : forall n, 1 <= (/ (1 - u)) ^ n.
Proof. intros. apply pow_R1_Rle, Q_ge1. Qed.
Lemma Q_u : / (1 - u) * (1 - u) = 1.
Proof. apply Rinv_l. lra. Qed.
Lemma ups_nonneg : forall n, 0 <= ups u n.
Proof. intros. unfold ups. pose proof (pow1u n). lra. Qed.
Lemma downs_nonneg : forall n, 0 <= downs u n.
Proof. intros. unfold downs. pose proof (powQ n). lra. Qed.
Lemma ups_mono : forall n m, (n <= m)%nat -> ups u n <= ups u m.
Proof. intros. unfold ups. assert ((1 + u) ^ n <= (1 + u) ^ m) by (apply Rle_pow; auto; lra). lra. Qed.
Lemma powQ_mono : forall n m, (n <= m)%nat -> (/ (1 - u)) ^ n <= (/ (1 - u)) ^ m.
Proof. intros. apply Rle_pow; auto. apply Q_ge1. Qed.
Lemma downs_mono : forall n m, (n <= m)%nat -> downs u n <= downs u m.
Proof. intros. unfold downs. pose proof (powQ_mono n m H). lra. Qed.
Lemma Q_1u : 1 + u <= / (1 - u).
Proof. apply (Rmult_le_reg_r (1 - u)); [lra|]. rewrite Q_u. nra. Qed.
End Const.

(** ** Recurrences of rounded additions *)
Section Rec.
Variables u eta : R.
Hypothesis Hu : 0 <= u < 1.
Hypothesis Heta : 0 <= eta.

(** Backward: s (k+1) is s k - p k rounded; the residual in terms of the computed s K. *)
Lemma backward_rec : forall K (s p : nat -> R), (forall k, (k < K)%nat -> rounds u eta (s (S k)) (s k - p k)) ->
  Rabs (s 0%nat - Rsum K p - s K) <= downs u K * (Rsum K (fun k => Rabs (p k)) + Rabs (s K)) + INR K * (/ (1 - u)) ^ K * eta.
Proof.
  induction K as [|K IH]; intros s p HH.
  - cbn. rewrite Rminus_0_r, Rminus_diag_eq by auto. rewrite Rabs_R0. unfold downs. cbn. lra.
  - specialize (IH s p ltac:(auto)) as B. pose proof (HH K ltac:(auto)) as R. clear IH. cbn [Rsum].
    set (E := Rsum K p) in *. set (A := Rsum K (fun k => Rabs (p k))) in *.
    pose proof (rounds_inv u eta (s (S K)) (s K - p K) (proj2 Hu) R) as I. unfold rounds in R. set (Q := / (1 - u)) in *.
    assert (HQ : 1 <= Q) by (apply Q_ge1; auto). assert (QU : Q * (1 - u) = 1) by (apply Q_u; auto).
    assert (D : Rabs (s 0%nat - (E + p K) - s (S K)) <= Rabs (s 0%nat - E - s K) + Rabs (s (S K) - (s K - p K))).
    { replace (s 0%nat - (E + p K) - s (S K)) with ((s 0%nat - E - s K) + - (s (S K) - (s K - p K))) by ring. eapply Rle_trans; [apply Rabs_triang|]. rewrite Rabs_Ropp. lra. }
    assert (SS : Rabs (s K) <= Rabs (p K) + Rabs (s K - p K)).
    { replace (s K) with (p K + (s K - p K)) at 1 by ring. apply Rabs_triang. }
    pose proof (Rabs_pos (p K)). pose proof (Rabs_pos (s (S K))). pose proof (downs_nonneg u Hu K) as G. pose proof (powQ u Hu K) as PW. fold Q in PW. pose proof (pos_INR K) as PK.
    assert (GE : downs u K = Q ^ K - 1) by reflexivity.
    assert (U : downs u (S K) = downs u K * Q + u * Q). { unfold downs. fold Q. cbn [pow]. replace (u * Q) with (Q - 1) by lra. ring. }
    assert (A0 : 0 <= A) by (apply Rsum_nonneg; intros; apply Rabs_pos).
    eapply Rle_trans; [exact D|].
    assert (S1 : Rabs (s 0%nat - E - s K) + Rabs (s (S K) - (s K - p K)) <=
       downs u K * (A + (Rabs (p K) + Q * (Rabs (s (S K)) + eta))) + INR K * Q ^ K * eta + (u * (Q * (Rabs (s (S K)) + eta)) + eta)).
    { apply Rplus_le_compat.
      - eapply Rle_trans; [exact B|]. apply Rplus_le_compat_r. apply Rmult_le_compat_l; auto. lra.
      - eapply Rle_trans; [exact R|]. apply Rplus_le_compat_r. apply Rmult_le_compat_l; lra. }
    eapply Rle_trans; [exact S1|]. rewrite U, S_INR. cbn [pow].
    replace ((INR K + 1) * (Q * Q ^ K) * eta) with (INR K * (Q * Q ^ K) * eta + Q * Q ^ K * eta) by ring.
    assert (X1 : INR K * Q ^ K * eta <= INR K * (Q * Q ^ K) * eta).
    { apply Rmult_le_compat_r; auto. apply Rmult_le_compat_l; auto. nra. }
    assert (X2 : downs u K * (Q * eta) + (u * (Q * eta) + eta) = Q * Q ^ K * eta).
    { rewrite GE. assert (X : u * Q = Q - 1) by lra. replace (u * (Q * eta)) with (u * Q * eta) by ring. rewrite X. ring. }
    assert (X3 : downs u K * (A + Rabs (p K)) <= (downs u K * Q + u * Q) * (A + Rabs (p K))).
    { apply Rmult_le_compat_r; [lra|]. nra. }
    assert (X4 : downs u K * (A + (Rabs (p K) + Q * (Rabs (s (S K)) + eta))) + INR K * Q ^ K * eta + (u * (Q * (Rabs (s (S K)) + eta)) + eta) =
      downs u K * (A + Rabs (p K)) + (downs u K * Q + u * Q) * Rabs (s (S K)) + INR K * Q ^ K * eta + (downs u K * (Q * eta) + (u * (Q * eta) + eta))) by ring.
    rewrite X4, X2. lra.
Qed.

(** Products rounded as well: p k is q k rounded. *)
Lemma backward_rec2 : forall K (s p q : nat -> R), (forall k, (k < K)%nat -> rounds u eta (s (S k)) (s k - p k)) ->
  (forall k, (k < K)%nat -> rounds u eta (p k) (q k)) ->
  Rabs (s 0%nat - Rsum K q - s K) <= downs u (S K) * (Rsum K (fun k => Rabs (q k)) + Rabs (s K)) + 2 * INR K * (/ (1 - u)) ^ (S K) * eta.
Proof.
  intros K s p q H H'. pose proof (backward_rec K s p H) as B. set (Q := / (1 - u)) in *.
  assert (HQ : 1 <= Q) by (apply Q_ge1; auto). assert (QU : Q * (1 - u) = 1) by (apply Q_u; auto).
  assert (D1 : Rabs (Rsum K p - Rsum K q) <= u * Rsum K (fun k => Rabs (q k)) + INR K * eta).
  { rewrite <- Rsum_minus. eapply Rle_trans; [apply Rsum_abs|]. rewrite <- Rsum_scale, <- Rsum_const, <- Rsum_plus. apply Rsum_le. intros k Hk. apply H'. auto. }
  assert (D2 : Rsum K (fun k => Rabs (p k)) <= (1 + u) * Rsum K (fun k => Rabs (q k)) + INR K * eta).
  { rewrite <- Rsum_scale, <- Rsum_const, <- Rsum_plus. apply Rsum_le. intros k Hk. apply rounds_abs; [lra|]. apply H'. auto. }
  set (A := Rsum K (fun k => Rabs (q k))) in *. assert (A0 : 0 <= A) by (apply Rsum_nonneg; intros; apply Rabs_pos).
  replace (s 0%nat - Rsum K q - s K) with ((s 0%nat - Rsum K p - s K) + (Rsum K p - Rsum K q)) by ring.
  eapply Rle_trans; [apply Rabs_triang|]. eapply Rle_trans; [apply Rplus_le_compat; [exact B|exact D1]|].
  pose proof (downs_nonneg u Hu K) as G. pose proof (powQ u Hu K) as PW. fold Q in PW. pose proof (pos_INR K) as PK. pose proof (Rabs_pos (s K)) as P0.
  assert (GE : downs u K = Q ^ K - 1) by reflexivity.
  assert (U : downs u (S K) = downs u K * Q + u * Q). { unfold downs. fold Q. cbn [pow]. replace (u * Q) with (Q - 1) by lra. ring. }
  assert (Q1 : 1 + u <= Q) by (apply Q_1u; auto).
  assert (S1 : downs u K * (Rsum K (fun k => Rabs (p k)) + Rabs (s K)) <= downs u K * ((1 + u) * A + INR K * eta + Rabs (s K))).
  { apply Rmult_le_compat_l; auto. lra. }
  assert (S2 : downs u K * ((1 + u) * A) <= downs u K * Q * A).
  { rewrite Rmult_assoc. apply Rmult_le_compat_l; auto. apply Rmult_le_compat_r; auto. }
  assert (S3 : u * A <= u * Q * A). { apply Rmult_le_compat_r; auto. rewrite <- (Rmult_1_r u) at 1. apply Rmult_le_compat_l; lra. }
  assert (S4 : downs u K * Rabs (s K) <= downs u (S K) * Rabs (s K)). { apply Rmult_le_compat_r; auto. apply downs_mono; auto. }
  assert (S5 : downs u K * (INR K * eta) + INR K * Q ^ K * eta + INR K * eta <= 2 * INR K * Q ^ S K * eta).
  { rewrite GE. cbn [pow]. assert (0 <= INR K * eta) by (apply Rmult_le_pos; auto). assert (Q ^ K <= Q * Q ^ K) by nra. nra. }
  rewrite U in *. lra.
Qed.
End Rec.

(** ** Forward errors: x approximates E, a sum of terms of total magnitude at most A, with n roundings in sequence *)
Section Close.
Variables u eta : R.
Hypothesis Hu : 0 <= u < 1.
Hypothesis Heta : 0 <= eta.
Definition close (n : nat) (c x E A : R) : Prop :=
  0 <= c /\ Rabs E <= A /\ Rabs (x - E) <= ups u n * A + (1 + u) ^ n * c * eta.

Lemma close_exact : forall x, close 0 0 x x (Rabs x).
Proof. intros x. split; [lra|]. split; [lra|]. rewrite Rminus_diag_eq, Rabs_R0 by auto. unfold ups. cbn. lra. Qed.
Lemma close_weaken : forall n n' c c' x E A A', close n c x E A -> (n <= n')%nat -> c <= c' -> A <= A' -> close n' c' x E A'.
Proof.
  intros n n' c c' x E A A' (H0 & H1 & H2) Hn Hc HA. split; [lra|]. split; [lra|]. eapply Rle_trans; [exact H2|].
  pose proof (ups_mono u Hu n n' Hn) as M. pose proof (ups_nonneg u Hu n) as G. pose proof (pow1u u Hu n) as P.
  assert (P' : (1 + u) ^ n <= (1 + u) ^ n') by (unfold ups in M; lra).
  apply Rplus_le_compat.
  - apply Rmult_le_compat; auto. eapply Rle_trans; [apply Rabs_pos|exact H1].
  - apply Rmult_le_compat_r; auto. apply Rmult_le_compat; auto; lra.
Qed.
Lemma close_round : forall t E, rounds u eta t E -> close 1 1 t E (Rabs E).
Proof.
  intros t E H. split; [lra|]. split; [lra|]. unfold rounds in H. eapply Rle_trans; [exact H|]. unfold ups. cbn [pow]. rewrite !Rmult_1_r.
  replace (1 + u - 1) with u by ring. nra.
Qed.
Lemma close_scale : forall n c x E A a, close n c x E A -> close n (c * Rabs a) (x * a) (E * a) (A * Rabs a).
Proof.
  intros n c x E A a (H0 & H1 & H2). pose proof (Rabs_pos a) as Pa. split; [apply Rmult_le_pos; auto|]. split.
  - rewrite Rabs_mult. apply Rmult_le_compat_r; auto.
  - replace (x * a - E * a) with ((x - E) * a) by ring. rewrite Rabs_mult.
    replace (ups u n * (A * Rabs a) + (1 + u) ^ n * (c * Rabs a) * eta) with ((ups u n * A + (1 + u) ^ n * c * eta) * Rabs a) by ring.
    apply Rmult_le_compat_r; auto.
Qed.
Lemma close_plus : forall n c x E A d y F B, close n c x E A -> close n d y F B -> close n (c + d) (x + y) (E + F) (A + B).
Proof.
  intros n c x E A d y F B (H0 & H1 & H2) (K0 & K1 & K2). split; [lra|]. split; [eapply Rle_trans; [apply Rabs_triang|]; lra|].
  replace (x + y - (E + F)) with ((x - E) + (y - F)) by ring. eapply Rle_trans; [apply Rabs_triang|].
  replace (ups u n * (A + B) + (1 + u) ^ n * (c + d) * eta) with ((ups u n * A + (1 + u) ^ n * c * eta) + (ups u n * B + (1 + u) ^ n * d * eta)) by ring.
  lra.
Qed.
(** one more rounding *)
Lemma close_next : forall n c x E A t, close n c x E A -> rounds u eta t x -> close (S n) (c + 1) t E A.
Proof.
  intros n c x E A t (H0 & H1 & H2) R. split; [lra|]. split; auto. unfold rounds in R.
  assert (X : Rabs x <= A + (ups u n * A + (1 + u) ^ n * c * eta)).
  { replace x with (E + (x - E)) by ring. eapply Rle_trans; [apply Rabs_triang|]. lra. }
  replace (t - E) with ((t - x) + (x - E)) by ring. eapply Rle_trans; [apply Rabs_triang|].
  pose proof (pow1u u Hu n) as P. pose proof (ups_nonneg u Hu n) as G.
  assert (U : ups u (S n) = (1 + u) * ups u n + u) by (unfold ups; cbn; ring). rewrite U. cbn [pow].
  assert (X1 : u * Rabs x <= u * (A + (ups u n * A + (1 + u) ^ n * c * eta))) by (apply Rmult_le_compat_l; lra).
  assert (X2 : eta <= (1 + u) * (1 + u) ^ n * 1 * eta). { assert (1 <= (1 + u) * (1 + u) ^ n * 1) by nra. nra. }
  assert (X3 : Rabs (t - x) + Rabs (x - E) <= u * (A + (ups u n * A + (1 + u) ^ n * c * eta)) + eta + (ups u n * A + (1 + u) ^ n * c * eta)) by lra.
  eapply Rle_trans; [exact X3|]. lra.
Qed.
(** n roundings of an accumulation: each step adds a term that is itself close with n0 roundings *)
Lemma close_acc : forall n0 K (s p P A c : nat -> R) E0 A0 c0, close n0 c0 (s 0%nat) E0 A0 ->
  (forall k, (k < K)%nat -> close n0 (c k) (p k) (P k) (A k)) -> (forall k, (k < K)%nat -> rounds u eta (s (S k)) (s k + p k)) ->
  close (n0 + K) (c0 + Rsum K c + INR K) (s K) (E0 + Rsum K P) (A0 + Rsum K A).
Proof.
  intros n0 K s p P A c E0 A0 c0 H0 Hp Hs. induction K as [|K IH].
  - cbn. rewrite Nat.add_0_r, !Rplus_0_r. auto.
  - rewrite Nat.add_succ_r, S_INR. cbn [Rsum].
    assert (I : close (n0 + K) (c0 + Rsum K c + INR K) (s K) (E0 + Rsum K P) (A0 + Rsum K A)) by auto.
    assert (J : close (n0 + K) (c K) (p K) (P K) (A K)). { apply (close_weaken n0 _ (c K) _ _ _ (A K)); auto; try lia; lra. }
    pose proof (close_next _ _ _ _ _ _ (close_plus _ _ _ _ _ _ _ _ _ I J) (Hs K ltac:(auto))) as N.
    replace (c0 + (Rsum K c + c K) + (INR K + 1)) with (c0 + Rsum K c + INR K + c K + 1) by ring.
    replace (E0 + (Rsum K P + P K)) with (E0 + Rsum K P + P K) by ring. replace (A0 + (Rsum K A + A K)) with (A0 + Rsum K A + A K) by ring. exact N.
Qed.
End Close.

Section Chains.
Context {T : Type} (O : Ops T) (val : T -> R) (fin : T -> bool) (u eta : R) (RA : rounded O val fin u eta).

Lemma rHu : 0 <= u < 1. Proof. apply (ra_u _ _ _ _ _ RA). Qed.
Lemma rHeta : 0 <= eta. Proof. apply (ra_eta _ _ _ _ _ RA). Qed.

Lemma fma_chain_steps : forall K x y z, fin (fma_chain O K x y z) = true ->
  fin z = true /\ forall k, (k < K)%nat -> fin (x k) = true /\ fin (y k) = true /\
  rounds u eta (val (fma_chain O (S k) x y z)) (val (fma_chain O k x y z) + val (x k) * val (y k)).
Proof.
  induction K as [|K IH]; intros x y z F; cbn [fma_chain] in F; [split; auto; intros; lia|].
  destruct (ra_fma _ _ _ _ _ RA _ _ _ F) as (Fx & Fy & Fs & R). destruct (IH x y z Fs) as (Fz & H). split; auto. intros k Hk.
  destruct (Nat.eq_dec k K) as [-> |]; [|apply H; lia]. cbn [fma_chain]. rewrite Rplus_comm. auto.
Qed.
Lemma fnma_chain_steps : forall K x y z, fin (fnma_chain O K x y z) = true ->
  fin z = true /\ forall k, (k < K)%nat -> fin (x k) = true /\ fin (y k) = true /\
  rounds u eta (val (fnma_chain O (S k) x y z)) (val (fnma_chain O k x y z) - val (x k) * val (y k)).
Proof.
  induction K as [|K IH]; intros x y z F; cbn [fnma_chain] in F; [split; auto; intros; lia|].
  destruct (ra_fnma _ _ _ _ _ RA _ _ _ F) as (Fx & Fy & Fs & R). destruct (IH x y z Fs) as (Fz & H). split; auto. intros k Hk.
  destruct (Nat.eq_dec k K) as [-> |]; [|apply H; lia]. cbn [fnma_chain]. auto.
Qed.
Lemma sub_chain_steps : forall K x y z, fin (sub_chain O K x y z) = true ->
  fin z = true /\ forall k, (k < K)%nat -> fin (x k) = true /\ fin (y k) = true /\ rounds u eta (val (omul O (x k) (y k))) (val (x k) * val (y k)) /\
  rounds u eta (val (sub_chain O (S k) x y z)) (val (sub_chain O k x y z) - val (omul O (x k) (y k))).
Proof.
  induction K as [|K IH]; intros x y z F; cbn [sub_chain] in F; [split; auto; intros; lia|].
  destruct (ra_sub _ _ _ _ _ RA _ _ F) as (Fs & Fp & R). destruct (ra_mul _ _ _ _ _ RA _ _ Fp) as (Fx & Fy & Rp).
  destruct (IH x y z Fs) as (Fz & H). split; auto. intros k Hk.
  destruct (Nat.eq_dec k K) as [-> |]; [|apply H; lia]. cbn [sub_chain]. auto.
Qed.
Lemma add_chain_steps : forall K x y z, fin (add_chain O K x y z) = true ->
  fin z = true /\ forall k, (k < K)%nat -> fin (x k) = true /\ fin (y k) = true /\ rounds u eta (val (omul O (x k) (y k))) (val (x k) * val (y k)) /\
  rounds u eta (val (add_chain O (S k) x y z)) (val (add_chain O k x y z) + val (omul O (x k) (y k))).
Proof.
  induction K as [|K IH]; intros x y z F; cbn [add_chain] in F; [split; auto; intros; lia|].
  destruct (ra_add _ _ _ _ _ RA _ _ F) as (Fs & Fp & R). destruct (ra_mul _ _ _ _ _ RA _ _ Fp) as (Fx & Fy & Rp).
  destruct (IH x y z Fs) as (Fz & H). split; auto. intros k Hk.
  destruct (Nat.eq_dec k K) as [-> |]; [|apply H; lia]. cbn [add_chain]. auto.
Qed.

(** Backward form of s := z; s := s - x k * y k *)
Lemma fnma_chain_backward : forall K x y z, fin (fnma_chain O K x y z) = true ->
  (forall k, (k < K)%nat -> fin (x k) = true /\ fin (y k) = true) /\ fin z = true /\
  Rabs (val z - Rsum K (fun k => val (x k) * val (y k)) - val (fnma_chain O K x y z)) <=
    downs u K * (Rsum K (fun k => Rabs (val (x k) * val (y k))) + Rabs (val (fnma_chain O K x y z))) + INR K * (/ (1 - u)) ^ K * eta.
Proof.
  intros K x y z F. destruct (fnma_chain_steps K x y z F) as (Fz & H). split; [intros k Hk; destruct (H k Hk) as (A & B & _); auto|]. split; auto.
  apply (backward_rec u eta rHu rHeta K (fun k => val (fnma_chain O k x y z)) (fun k => val (x k) * val (y k))). intros k Hk. apply H. auto.
Qed.
Lemma sub_chain_backward : forall K x y z, fin (sub_chain O K x y z) = true ->
  (forall k, (k < K)%nat -> fin (x k) = true /\ fin (y k) = true) /\ fin z = true /\
  Rabs (val z - Rsum K (fun k => val (x k) * val (y k)) - val (sub_chain O K x y z)) <=
    downs u (S K) * (Rsum K (fun k => Rabs (val (x k) * val (y k))) + Rabs (val (sub_chain O K x y z))) + 2 * INR K * (/ (1 - u)) ^ S K * eta.
Proof.
  intros K x y z F. destruct (sub_chain_steps K x y z F) as (Fz & H). split; [intros k Hk; destruct (H k Hk) as (A & B & _); auto|]. split; auto.
  apply (backward_rec2 u eta rHu rHeta K (fun k => val (sub_chain O k x y z)) (fun k => val (omul O (x k) (y k))) (fun k => val (x k) * val (y k))); intros k Hk; apply H; auto.
Qed.
End Chains.
