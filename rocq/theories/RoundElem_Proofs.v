(** RoundElem_Proofs.v -- rounding errors of the element-wise formulas of the algorithms (the *_ops theorems), for any rounded arithmetic. *)
From Coq Require Import Reals Lra Lia Arith.
From Verif Require Import Base Spec Round_Spec Round_Proofs.
Local Open Scope R_scope.

(** A rounding as a relative and an absolute perturbation. *)
Lemma rounds_split : forall u eta x y, 0 <= u -> 0 <= eta -> rounds u eta x y ->
  exists d e, Rabs d <= u /\ Rabs e <= eta /\ x = y * (1 + d) + e.
Proof.
  intros u eta x y Hu He H. unfold rounds in H. set (t := x - y) in *. assert (Ex : x = y + t) by (unfold t; ring). clearbody t. subst x.
  destruct (Rle_lt_dec (Rabs t) (u * Rabs y)) as [L|L].
  - destruct (Req_dec y 0) as [-> |N].
    + exists 0, 0. rewrite Rabs_R0 in *. split; [lra|]. split; [lra|]. rewrite Rmult_0_r in L. pose proof (Rabs_pos t) as P.
      assert (Rabs t = 0) as Z by lra. destruct (Req_dec t 0) as [-> |Nt]; [ring|]. exfalso. apply (Rabs_no_R0 t Nt). auto.
    + exists (t / y), 0. rewrite Rabs_R0. split; [|split; [lra|field; auto]]. unfold Rdiv. rewrite Rabs_mult, Rabs_inv.
      pose proof (Rabs_pos_lt y N) as P. apply (Rmult_le_reg_r (Rabs y)); auto. rewrite Rmult_assoc, Rinv_l by lra. lra.
  - pose proof (Rabs_pos y) as Py. assert (PU : 0 <= u * Rabs y) by (apply Rmult_le_pos; auto).
    assert (S : exists d, Rabs d <= u /\ y * d = u * Rabs y).
    { destruct (Rle_lt_dec 0 y) as [P|P].
      - exists u. rewrite (Rabs_right y), (Rabs_right u) by lra. split; lra.
      - exists (- u). rewrite (Rabs_left y), Rabs_Ropp, (Rabs_right u) by lra. split; lra. }
    destruct S as (d & Hd & Ed). destruct (Rle_lt_dec 0 t) as [P|P].
    + exists d, (t - u * Rabs y). split; auto. rewrite (Rabs_right t) in * by lra. rewrite Rabs_right by lra. split; [lra|]. rewrite <- Ed. ring.
    + exists (- d), (t + u * Rabs y). rewrite Rabs_Ropp. split; auto. rewrite (Rabs_left t) in * by lra. rewrite Rabs_left by lra. split; [lra|]. rewrite <- Ed. ring.
Qed.

Section Elem.
Context {T : Type} (O : Ops T) (val : T -> R) (fin : T -> bool) (u eta : R) (RA : rounded O val fin u eta).
Let Hu := rHu O val fin u eta RA.
Let He := rHeta O val fin u eta RA.

Lemma zero_close : close u eta 0 0 (val (o0 O)) 0 0.
Proof. rewrite (proj2 (ra_0 _ _ _ _ _ RA)). split; [lra|]. rewrite Rabs_R0. split; [lra|]. rewrite Rminus_0_r, Rabs_R0. unfold ups. cbn. lra. Qed.

Lemma exact_close : forall n x, close u eta n 0 x x (Rabs x).
Proof. intros n x. apply (close_weaken u eta Hu He 0 n 0 0 x x (Rabs x)); [apply close_exact; auto|lia|lra|lra]. Qed.

(** beta*c + alpha * (fused dot product) *)
Lemma gemm_close : forall K x y alpha beta c, fin (ofma O beta c (omul O (fma_chain O K x y (o0 O)) alpha)) = true ->
  (forall k, (k < K)%nat -> fin (x k) = true /\ fin (y k) = true) /\ fin alpha = true /\ fin beta = true /\ fin c = true /\
  close u eta (K + 2) (INR K * Rabs (val alpha) + 2) (val (ofma O beta c (omul O (fma_chain O K x y (o0 O)) alpha)))
    (val alpha * Rsum K (fun k => val (x k) * val (y k)) + val beta * val c)
    (Rabs (val alpha) * Rsum K (fun k => Rabs (val (x k) * val (y k))) + Rabs (val beta * val c)).
Proof.
  intros K x y alpha beta c F. destruct (ra_fma _ _ _ _ _ RA _ _ _ F) as (Fb & Fc & Fm & R1). destruct (ra_mul _ _ _ _ _ RA _ _ Fm) as (Fs & Fa & R2).
  destruct (fma_chain_steps O val fin u eta RA K x y _ Fs) as (_ & H). split; [intros k Hk; split; apply H; auto|]. do 3 (split; auto).
  assert (C : close u eta (0 + K) (0 + Rsum K (fun _ => 0) + INR K) (val (fma_chain O K x y (o0 O))) (0 + Rsum K (fun k => val (x k) * val (y k)))
                (0 + Rsum K (fun k => Rabs (val (x k) * val (y k))))).
  { apply (close_acc u eta Hu He 0 K (fun k => val (fma_chain O k x y (o0 O))) (fun k => val (x k) * val (y k))).
    - apply zero_close.
    - intros k Hk. apply close_exact; auto.
    - intros k Hk. apply H; auto. }
  rewrite Rsum_const, !Rplus_0_l, Rmult_0_r, Rplus_0_l in C. cbn [Nat.add] in C.
  apply (close_scale u eta) with (a := val alpha) in C.
  apply (close_next u eta Hu He _ _ _ _ _ _ C) in R2.
  pose proof (exact_close (S K) (val beta * val c)) as Z.
  rewrite Rplus_comm in R1.
  pose proof (close_next u eta Hu He _ _ _ _ _ _ (close_plus u eta _ _ _ _ _ _ _ _ _ R2 Z) R1) as Y.
  replace (K + 2)%nat with (S (S K)) by lia. replace (INR K * Rabs (val alpha) + 2) with (INR K * Rabs (val alpha) + 1 + 0 + 1) by ring.
  rewrite (Rmult_comm (val alpha)), (Rmult_comm (Rabs (val alpha))). exact Y.
Qed.

(** No overflow in beta*c + alpha * (fused dot product) *)
Lemma close_abs : forall n c x E A, close u eta n c x E A -> Rabs x <= (1 + u) ^ n * (A + c * eta).
Proof.
  intros n c x E A (H0 & H1 & H2). replace x with (E + (x - E)) by ring. eapply Rle_trans; [apply Rabs_triang|]. unfold ups in H2.
  replace ((1 + u) ^ n * (A + c * eta)) with (A + (((1 + u) ^ n - 1) * A + (1 + u) ^ n * c * eta)) by ring. lra.
Qed.
Lemma gemm_finite : forall big K x y alpha beta c, ranged O val fin big ->
  (forall k, (k < K)%nat -> fin (x k) = true /\ fin (y k) = true) -> fin alpha = true -> fin beta = true -> fin c = true ->
  (1 + u) ^ K * (Rsum K (fun k => Rabs (val (x k) * val (y k))) + INR K * eta) <= big ->
  (1 + u) ^ (K + 1) * (Rabs (val alpha) * Rsum K (fun k => Rabs (val (x k) * val (y k))) + Rabs (val beta * val c) + (INR K * Rabs (val alpha) + 1) * eta) <= big ->
  fin (ofma O beta c (omul O (fma_chain O K x y (o0 O)) alpha)) = true.
Proof.
  intros big K x y alpha beta c RG Fxy Fa Fb Fc H1 H2. pose proof Hu as Hu'. pose proof He as He'.
  assert (P : forall n m, (n <= m)%nat -> (1 + u) ^ n <= (1 + u) ^ m) by (intros; apply Rle_pow; auto; lra).
  assert (P0 : forall n, 0 <= (1 + u) ^ n) by (intros; apply pow_le; lra).
  assert (S0 : forall n, (n <= K)%nat -> 0 <= Rsum n (fun k => Rabs (val (x k) * val (y k))) <= Rsum K (fun k => Rabs (val (x k) * val (y k)))).
  { intros n Hn. split; [apply Rsum_nonneg; intros; apply Rabs_pos|]. replace K with (n + (K - n))%nat by lia. rewrite Rsum_app.
    assert (0 <= Rsum (K - n) (fun k => Rabs (val (x (n + k)%nat) * val (y (n + k)%nat)))) by (apply Rsum_nonneg; intros; apply Rabs_pos). lra. }
  assert (C : forall n, (n <= K)%nat -> fin (fma_chain O n x y (o0 O)) = true /\
     close u eta n (INR n) (val (fma_chain O n x y (o0 O))) (Rsum n (fun k => val (x k) * val (y k))) (Rsum n (fun k => Rabs (val (x k) * val (y k))))).
  { induction n as [|n IH]; intros Hn.
    - split; [apply (ra_0 _ _ _ _ _ RA)|]. apply zero_close.
    - destruct (IH ltac:(lia)) as (F & C). destruct (Fxy n ltac:(lia)) as (Fx & Fy). cbn [fma_chain Rsum].
      pose proof (close_plus u eta _ _ _ _ _ _ _ _ _ C (exact_close n (val (x n) * val (y n)))) as C1.
      assert (B : Rabs (val (x n) * val (y n) + val (fma_chain O n x y (o0 O))) <= big).
      { rewrite Rplus_comm. eapply Rle_trans; [apply (close_abs _ _ _ _ _ C1)|]. eapply Rle_trans; [|exact H1]. destruct (S0 (S n) Hn) as [A1 A2]. cbn [Rsum] in A1, A2.
        pose proof (pos_INR n). assert (INR n <= INR K) by (apply le_INR; lia). assert (INR n * eta <= INR K * eta) by (apply Rmult_le_compat_r; auto).
        assert (0 <= INR n * eta) by (apply Rmult_le_pos; auto).
        apply Rmult_le_compat; auto; try lra. apply P. lia. }
      pose proof (rg_fma _ _ _ _ RG _ _ _ Fx Fy F B) as F1. split; auto.
      destruct (ra_fma _ _ _ _ _ RA _ _ _ F1) as (_ & _ & _ & R). rewrite Rplus_comm in R.
      pose proof (close_next u eta Hu He _ _ _ _ _ _ C1 R) as C2. rewrite S_INR. rewrite Rplus_0_r in C2. exact C2. }
  destruct (C K ltac:(lia)) as (Fs & Cs). clear C. destruct (S0 K ltac:(lia)) as [A1 _]. set (SA := Rsum K (fun k => Rabs (val (x k) * val (y k)))) in *.
  pose proof (close_scale u eta _ _ _ _ _ (val alpha) Cs) as C1. pose proof (Rabs_pos (val alpha)) as Pa. pose proof (pos_INR K) as PK. pose proof (Rabs_pos (val beta * val c)) as Pb.
  assert (X1 : 0 <= SA * Rabs (val alpha)) by (apply Rmult_le_pos; auto).
  assert (X2 : 0 <= INR K * Rabs (val alpha) * eta) by (repeat apply Rmult_le_pos; auto).
  assert (B1 : Rabs (val (fma_chain O K x y (o0 O)) * val alpha) <= big).
  { eapply Rle_trans; [apply (close_abs _ _ _ _ _ C1)|]. eapply Rle_trans; [|exact H2]. apply Rmult_le_compat; auto; try lra. apply P; lia. }
  pose proof (rg_mul _ _ _ _ RG _ _ Fs Fa B1) as F1. destruct (ra_mul _ _ _ _ _ RA _ _ F1) as (_ & _ & R1).
  pose proof (close_next u eta Hu He _ _ _ _ _ _ C1 R1) as C2.
  pose proof (close_plus u eta _ _ _ _ _ _ _ _ _ C2 (exact_close (S K) (val beta * val c))) as C3.
  apply (rg_fma _ _ _ _ RG); auto. rewrite Rplus_comm. eapply Rle_trans; [apply (close_abs _ _ _ _ _ C3)|]. eapply Rle_trans; [|exact H2].
  rewrite Nat.add_1_r. right. ring.
Qed.

(** alpha * (dot product) + beta*c, every operation rounded *)
Lemma ref_gemm_close : forall K x y alpha beta c, fin (oadd O (omul O alpha (add_chain O K x y (o0 O))) (omul O beta c)) = true ->
  (forall k, (k < K)%nat -> fin (x k) = true /\ fin (y k) = true) /\ fin alpha = true /\ fin beta = true /\ fin c = true /\
  close u eta (K + 3) (2 * INR K * Rabs (val alpha) + 3) (val (oadd O (omul O alpha (add_chain O K x y (o0 O))) (omul O beta c)))
    (val alpha * Rsum K (fun k => val (x k) * val (y k)) + val beta * val c)
    (Rabs (val alpha) * Rsum K (fun k => Rabs (val (x k) * val (y k))) + Rabs (val beta * val c)).
Proof.
  intros K x y alpha beta c F. destruct (ra_add _ _ _ _ _ RA _ _ F) as (Fm & Fn & R1). destruct (ra_mul _ _ _ _ _ RA _ _ Fm) as (Fa & Fs & R2).
  destruct (ra_mul _ _ _ _ _ RA _ _ Fn) as (Fb & Fc & R3).
  destruct (add_chain_steps O val fin u eta RA K x y _ Fs) as (_ & H). split; [intros k Hk; split; apply H; auto|]. do 3 (split; auto).
  assert (C : close u eta (1 + K) (0 + Rsum K (fun _ => 1) + INR K) (val (add_chain O K x y (o0 O))) (0 + Rsum K (fun k => val (x k) * val (y k)))
                (0 + Rsum K (fun k => Rabs (val (x k) * val (y k))))).
  { apply (close_acc u eta Hu He 1 K (fun k => val (add_chain O k x y (o0 O))) (fun k => val (omul O (x k) (y k)))).
    - apply (close_weaken u eta Hu He 0 1 0 0 _ _ 0 0 zero_close); [lia|lra|lra].
    - intros k Hk. apply close_round; auto. apply H; auto.
    - intros k Hk. apply H; auto. }
  rewrite Rsum_const, !Rplus_0_l, Rmult_1_r in C. cbn [Nat.add] in C.
  apply (close_scale u eta) with (a := val alpha) in C. rewrite Rmult_comm in R2.
  apply (close_next u eta Hu He _ _ _ _ _ _ C) in R2.
  assert (Z : close u eta (S (S K)) 1 (val (omul O beta c)) (val beta * val c) (Rabs (val beta * val c))).
  { apply (close_weaken u eta Hu He 1 _ 1 1 _ _ (Rabs (val beta * val c))); try lra; try lia. apply close_round; auto. }
  pose proof (close_next u eta Hu He _ _ _ _ _ _ (close_plus u eta _ _ _ _ _ _ _ _ _ R2 Z) R1) as Y.
  replace (K + 3)%nat with (S (S (S K))) by lia. replace (2 * INR K * Rabs (val alpha) + 3) with ((INR K + INR K) * Rabs (val alpha) + 1 + 1 + 1) by ring.
  rewrite (Rmult_comm (val alpha)), (Rmult_comm (Rabs (val alpha))). exact Y.
Qed.

(** beta*c + sum (alpha*x k) * y k: syrk *)
Lemma syrk_close : forall K x y alpha beta c, fin (fma_chain O K (fun k => omul O alpha (x k)) y (omul O beta c)) = true ->
  (forall k, (k < K)%nat -> fin (x k) = true /\ fin (y k) = true /\ fin alpha = true) /\ fin beta = true /\ fin c = true /\
  close u eta (1 + K) (1 + Rsum K (fun k => Rabs (val (y k))) + INR K) (val (fma_chain O K (fun k => omul O alpha (x k)) y (omul O beta c)))
    (val beta * val c + val alpha * Rsum K (fun k => val (x k) * val (y k)))
    (Rabs (val beta * val c) + Rabs (val alpha) * Rsum K (fun k => Rabs (val (x k) * val (y k)))).
Proof.
  intros K x y alpha beta c F. destruct (fma_chain_steps O val fin u eta RA K _ y _ F) as (Fz & H).
  destruct (ra_mul _ _ _ _ _ RA _ _ Fz) as (Fb & Fc & R3).
  assert (G : forall k, (k < K)%nat -> fin (x k) = true /\ fin (y k) = true /\ fin alpha = true /\ rounds u eta (val (omul O alpha (x k))) (val alpha * val (x k))).
  { intros k Hk. destruct (H k Hk) as (A1 & A2 & _). destruct (ra_mul _ _ _ _ _ RA _ _ A1) as (B1 & B2 & B3). auto. }
  split; [intros k Hk; destruct (G k Hk) as (g1 & g2 & g3 & _); auto|]. do 2 (split; auto).
  rewrite <- !Rsum_scale.
  rewrite (Rsum_ext K (fun k => val alpha * (val (x k) * val (y k))) (fun k => val alpha * val (x k) * val (y k))) by (intros; ring).
  rewrite (Rsum_ext K (fun k => Rabs (val alpha) * Rabs (val (x k) * val (y k))) (fun k => Rabs (val alpha * val (x k)) * Rabs (val (y k))))
    by (intros; rewrite !Rabs_mult; ring).
  apply (close_acc u eta Hu He 1 K (fun k => val (fma_chain O k (fun k => omul O alpha (x k)) y (omul O beta c)))
           (fun k => val (omul O alpha (x k)) * val (y k))).
  - apply close_round; auto.
  - intros k Hk. rewrite <- (Rmult_1_l (Rabs (val (y k)))) at 1. apply close_scale. apply close_round; auto. apply G; auto.
  - intros k Hk. apply H; auto.
Qed.
(** sum (alpha*x k) * y k: trmm *)
Lemma trmm_close : forall K x y alpha, fin (fma_chain O K (fun k => omul O alpha (x k)) y (o0 O)) = true ->
  (forall k, (k < K)%nat -> fin (x k) = true /\ fin (y k) = true /\ fin alpha = true) /\
  close u eta (1 + K) (Rsum K (fun k => Rabs (val (y k))) + INR K) (val (fma_chain O K (fun k => omul O alpha (x k)) y (o0 O)))
    (val alpha * Rsum K (fun k => val (x k) * val (y k)))
    (Rabs (val alpha) * Rsum K (fun k => Rabs (val (x k) * val (y k)))).
Proof.
  intros K x y alpha F. destruct (fma_chain_steps O val fin u eta RA K _ y _ F) as (Fz & H).
  assert (G : forall k, (k < K)%nat -> fin (x k) = true /\ fin (y k) = true /\ fin alpha = true /\ rounds u eta (val (omul O alpha (x k))) (val alpha * val (x k))).
  { intros k Hk. destruct (H k Hk) as (A1 & A2 & _). destruct (ra_mul _ _ _ _ _ RA _ _ A1) as (B1 & B2 & B3). auto. }
  split; [intros k Hk; destruct (G k Hk) as (g1 & g2 & g3 & _); auto|].
  rewrite <- !Rsum_scale.
  rewrite (Rsum_ext K (fun k => val alpha * (val (x k) * val (y k))) (fun k => val alpha * val (x k) * val (y k))) by (intros; ring).
  rewrite (Rsum_ext K (fun k => Rabs (val alpha) * Rabs (val (x k) * val (y k))) (fun k => Rabs (val alpha * val (x k)) * Rabs (val (y k))))
    by (intros; rewrite !Rabs_mult; ring).
  rewrite <- (Rplus_0_l (Rsum K (fun k => val alpha * val (x k) * val (y k)))), <- (Rplus_0_l (Rsum K (fun k => Rabs (val alpha * val (x k)) * _))),
    <- (Rplus_0_l (Rsum K (fun k => Rabs (val (y k))))).
  apply (close_acc u eta Hu He 1 K (fun k => val (fma_chain O k (fun k => omul O alpha (x k)) y (o0 O)))
           (fun k => val (omul O alpha (x k)) * val (y k))).
  - apply (close_weaken u eta Hu He 0 1 0 0 _ _ 0 0 zero_close); [lia|lra|lra].
  - intros k Hk. rewrite <- (Rmult_1_l (Rabs (val (y k)))) at 1. apply close_scale. apply close_round; auto. apply G; auto.
  - intros k Hk. apply H; auto.
Qed.
End Elem.

(** ** Quotients in backward form *)
Section Quot.
Variables u eta : R.
Hypothesis Hu : 0 <= u < 1.
Hypothesis He : 0 <= eta.
Notation Q := (/ (1 - u)).

Lemma onep : forall d, Rabs d <= u -> 0 < 1 - u <= 1 + d /\ 1 + d <= 1 + u.
Proof. intros d H. pose proof (Rle_abs d). pose proof (Rle_abs (- d)) as X. rewrite Rabs_Ropp in X. lra. Qed.
Lemma pow_pair : forall n q, 0 < q -> 2 <= q ^ n + (/ q) ^ n.
Proof.
  intros n q Hq. rewrite pow_inv. set (p := q ^ n). assert (P : 0 < p) by (apply pow_lt; auto).
  apply (Rmult_le_reg_r p); auto. rewrite Rmult_plus_distr_r, Rinv_l by lra. assert (0 <= (p - 1) * (p - 1)) by (apply Rle_0_sqr). lra.
Qed.
(** A factor between (1-u)^n and (1-u)^-n differs from one by at most downs u n. *)
Lemma factor_downs : forall n w, (1 - u) ^ n <= w <= Q ^ n -> Rabs (w - 1) <= downs u n.
Proof.
  intros n w [A B]. unfold downs. apply Rabs_le. pose proof (pow_pair n Q) as P. rewrite Rinv_inv in P.
  assert (0 < Q) by (apply Rinv_0_lt_compat; lra). specialize (P H). lra.
Qed.
Lemma inv_onep : forall d, Rabs d <= u -> 1 - u <= / (1 + d) <= Q.
Proof.
  intros d H. pose proof (onep d H) as [[P1 P2] P3]. split.
  - apply (Rmult_le_reg_r (1 + d)); [lra|]. rewrite Rinv_l by lra.
    assert ((1 - u) * (1 + d) <= (1 - u) * (1 + u)) by (apply Rmult_le_compat_l; lra). assert (0 <= u * u) by (apply Rle_0_sqr). lra.
  - apply Rinv_le_contravar; lra.
Qed.

(** x = fl (s / r) : s = (x - e) * r * w *)
Lemma quot_split : forall x s r, r <> 0 -> rounds u eta x (s / r) -> exists e w, Rabs e <= eta /\ 1 - u <= w <= Q /\ s = (x - e) * r * w.
Proof.
  intros x s r Hr H. destruct (rounds_split u eta _ _ (proj1 Hu) He H) as (d & e & Hd & Hee & E).
  pose proof (onep d Hd) as [[P1 P2] P3]. exists e, (/ (1 + d)). split; auto. split; [apply inv_onep; auto|].
  replace (x - e) with (s / r * (1 + d)) by lra. field. lra.
Qed.
Lemma quot_error : forall x s r, r <> 0 -> rounds u eta x (s / r) ->
  Rabs s <= Q * (Rabs (x * r) + Rabs r * eta) /\ Rabs (s - x * r) <= downs u 1 * Rabs (x * r) + Q * (Rabs r * eta).
Proof.
  intros x s r Hr H. destruct (quot_split x s r Hr H) as (e & w & A & B & E). pose proof (Rabs_pos r) as Pr. pose proof (Rabs_pos (x * r)) as Px.
  assert (W : Rabs (w - 1) <= downs u 1) by (apply factor_downs; cbn [pow]; lra). assert (W0 : 0 < w) by lra.
  assert (D : s = x * r * w - e * r * w) by (rewrite E; ring).
  assert (X : Rabs (e * r * w) <= Q * (Rabs r * eta)).
  { rewrite !Rabs_mult, (Rabs_right w) by lra. replace (Rabs e * Rabs r * w) with (w * (Rabs r * Rabs e)) by ring.
    apply Rmult_le_compat; try lra. apply Rmult_le_pos; auto using Rabs_pos. apply Rmult_le_compat_l; auto. }
  split.
  - rewrite D. eapply Rle_trans; [apply Rabs_triang|]. rewrite Rabs_Ropp. rewrite Rmult_plus_distr_l. apply Rplus_le_compat; auto.
    rewrite Rabs_mult, (Rabs_right w), Rmult_comm by lra. apply Rmult_le_compat_r; lra.
  - rewrite D. replace (x * r * w - e * r * w - x * r) with (x * r * (w - 1) - e * r * w) by ring. eapply Rle_trans; [apply Rabs_triang|].
    rewrite Rabs_Ropp. apply Rplus_le_compat; auto. rewrite Rabs_mult, Rmult_comm. apply Rmult_le_compat_r; auto.
Qed.

(** s > 0, r = fl (sqrt s), y = fl (s / r), x = fl (t / r): t is x * y up to four roundings *)
Lemma sqrt_error : forall s r x y t, 0 < s -> rounds u 0 r (sqrt s) -> rounds u eta y (s / r) -> rounds u eta x (t / r) ->
  r <> 0 /\ Rabs t <= Q ^ 4 * (Rabs (x * y) + eta * (Rabs x + Rabs y + eta)) /\
  Rabs (t - x * y) <= downs u 4 * Rabs (x * y) + Q ^ 4 * (eta * (Rabs x + Rabs y + eta)).
Proof.
  intros s r x y t Hs Hr Hy Hx. pose proof (sqrt_lt_R0 s Hs) as Ps.
  destruct (rounds_split u 0 r _ (proj1 Hu) ltac:(lra) Hr) as (d & e0 & Hd & He0 & Er). assert (e0 = 0) as -> by (destruct (Req_dec e0 0); auto; pose proof (Rabs_pos_lt e0 ltac:(auto)); lra).
  pose proof (onep d Hd) as [[P1 P2] P3]. assert (R0 : 0 < r). { rewrite Er, Rplus_0_r. apply Rmult_lt_0_compat; lra. }
  split; [lra|].
  destruct (quot_split y s r ltac:(lra) Hy) as (e2 & w2 & A2 & B2 & E2). destruct (quot_split x t r ltac:(lra) Hx) as (e1 & w1 & A1 & B1 & E1).
  assert (RR : r * r = s * ((1 + d) * (1 + d))). { rewrite Er. replace ((sqrt s * (1 + d) + 0) * (sqrt s * (1 + d) + 0)) with (sqrt s * sqrt s * ((1 + d) * (1 + d))) by ring. rewrite sqrt_sqrt by lra. reflexivity. }
  set (w := w1 * w2 * ((1 + d) * (1 + d))).
  assert (Et : t = (x - e1) * (y - e2) * w).
  { apply (Rmult_eq_reg_r s); [|lra]. unfold w.
    replace ((x - e1) * (y - e2) * (w1 * w2 * ((1 + d) * (1 + d))) * s) with ((x - e1) * w1 * ((y - e2) * w2) * (s * ((1 + d) * (1 + d)))) by ring.
    rewrite <- RR. replace ((x - e1) * w1 * ((y - e2) * w2) * (r * r)) with ((x - e1) * r * w1 * ((y - e2) * r * w2)) by ring. rewrite <- E1, <- E2. reflexivity. }
  assert (Q1 : 1 + u <= Q) by (apply Q_1u; auto). assert (QP : 0 < Q) by (apply Rinv_0_lt_compat; lra).
  assert (WU : w <= Q ^ 4).
  { unfold w. replace (Q ^ 4) with (Q * Q * (Q * Q)) by ring. apply Rmult_le_compat; try (apply Rmult_le_pos; lra); apply Rmult_le_compat; lra. }
  assert (WL : (1 - u) ^ 4 <= w).
  { unfold w. replace ((1 - u) ^ 4) with ((1 - u) * (1 - u) * ((1 - u) * (1 - u))) by ring. apply Rmult_le_compat; try (apply Rmult_le_pos; lra); apply Rmult_le_compat; lra. }
  assert (W : Rabs (w - 1) <= downs u 4) by (apply factor_downs; auto).
  assert (W0 : 0 < w) by (pose proof (pow_lt (1 - u) 4 ltac:(lra)); lra). clearbody w.
  assert (D : t = x * y * w + (e1 * e2 - x * e2 - e1 * y) * w) by (rewrite Et; ring).
  assert (X : Rabs ((e1 * e2 - x * e2 - e1 * y) * w) <= Q ^ 4 * (eta * (Rabs x + Rabs y + eta))).
  { rewrite Rabs_mult, (Rabs_right w), Rmult_comm by lra.
    assert (Y : Rabs (e1 * e2 - x * e2 - e1 * y) <= eta * (Rabs x + Rabs y + eta)).
    { eapply Rle_trans; [apply Rabs_triang|]. rewrite Rabs_Ropp. eapply Rle_trans; [apply Rplus_le_compat_r; apply Rabs_triang|]. rewrite Rabs_Ropp, !Rabs_mult.
      pose proof (Rabs_pos x) as Px. pose proof (Rabs_pos y) as Py. pose proof (Rabs_pos e1) as Pe1. pose proof (Rabs_pos e2) as Pe2.
      assert (Rabs e1 * Rabs e2 <= eta * eta) by (apply Rmult_le_compat; auto).
      assert (Rabs x * Rabs e2 <= Rabs x * eta) by (apply Rmult_le_compat_l; auto).
      assert (Rabs e1 * Rabs y <= eta * Rabs y) by (apply Rmult_le_compat_r; auto). lra. }
    apply Rmult_le_compat; auto using Rabs_pos; lra. }
  split.
  - rewrite D. eapply Rle_trans; [apply Rabs_triang|]. rewrite Rmult_plus_distr_l. apply Rplus_le_compat; auto.
    rewrite Rabs_mult, (Rabs_right w), Rmult_comm by lra. apply Rmult_le_compat_r; auto using Rabs_pos.
  - rewrite D. replace (x * y * w + (e1 * e2 - x * e2 - e1 * y) * w - x * y) with (x * y * (w - 1) + (e1 * e2 - x * e2 - e1 * y) * w) by ring.
    eapply Rle_trans; [apply Rabs_triang|]. apply Rplus_le_compat; auto. rewrite Rabs_mult, Rmult_comm. apply Rmult_le_compat_r; auto using Rabs_pos.
Qed.

(** residual of a numerator with n roundings, t, that is x * y up to k roundings *)
Lemma join_error_c : forall n k cn a P S t xy c, 0 <= cn -> 0 <= c -> Rabs (a - P - t) <= downs u n * (S + Rabs t) + cn * Q ^ n * eta ->
  Rabs t <= Q ^ k * (Rabs xy + eta * c) -> Rabs (t - xy) <= downs u k * Rabs xy + Q ^ k * (eta * c) -> 0 <= S ->
  Rabs (a - (P + xy)) <= downs u (n + k) * (S + Rabs xy) + Q ^ (n + k) * (eta * (cn + c)).
Proof.
  intros n k cn a P S t xy c Pn Hc H1 H2 H3 HS. replace (a - (P + xy)) with ((a - P - t) + (t - xy)) by ring. eapply Rle_trans; [apply Rabs_triang|].
  pose proof (downs_nonneg u Hu n) as D. pose proof (powQ u Hu n) as PQ. pose proof (powQ u Hu k) as PK.
  assert (DE : forall j, downs u j = Q ^ j - 1) by reflexivity. assert (E : Q ^ (n + k) = Q ^ n * Q ^ k) by apply pow_add.
  rewrite !DE in *. rewrite E. set (A := Q ^ n) in *. set (B := Q ^ k) in *. clearbody A B.
  assert (X : (A - 1) * Rabs t <= (A - 1) * (B * (Rabs xy + eta * c))) by (apply Rmult_le_compat_l; auto).
  assert (Y : (A - 1) * S <= (A * B - 1) * S). { apply Rmult_le_compat_r; auto. assert (A * 1 <= A * B) by (apply Rmult_le_compat_l; lra). lra. }
  assert (Z : cn * A * eta <= A * B * eta * cn).
  { assert (0 <= cn * eta) by (apply Rmult_le_pos; auto). assert (A * 1 <= A * B) by (apply Rmult_le_compat_l; lra).
    assert (A * (cn * eta) <= A * B * (cn * eta)) by (apply Rmult_le_compat_r; lra). lra. }
  lra.
Qed.
Lemma join_error : forall n k a P S t xy c, (0 <= c) -> Rabs (a - P - t) <= downs u n * (S + Rabs t) + INR n * Q ^ n * eta ->
  Rabs t <= Q ^ k * (Rabs xy + eta * c) -> Rabs (t - xy) <= downs u k * Rabs xy + Q ^ k * (eta * c) -> 0 <= S ->
  Rabs (a - (P + xy)) <= downs u (n + k) * (S + Rabs xy) + Q ^ (n + k) * (eta * (INR n + c)).
Proof. intros n k a P S t xy c Hc H1 H2 H3 HS. apply (join_error_c n k (INR n) a P S t xy c); auto. apply pos_INR. Qed.
End Quot.
