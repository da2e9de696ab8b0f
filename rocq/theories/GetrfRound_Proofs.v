(** GetrfRound_Proofs.v -- rounding errors of the blocked factorisation. *)
From Coq Require Import Reals Lra Lia Arith Bool.
From Verif Require Import Base Spec Round_Spec Round_Proofs RoundElem_Proofs Instances Algebra_Proofs LU_Theory LU_Proofs RoundFact_Proofs RoundLU_Proofs Getrf_Spec.
Local Open Scope R_scope.

Section GR.
Context {T : Type} (O : Ops T) (val : T -> R) (fin : T -> bool) (u eta : R) (RA : rounded O val fin u eta).
Let Hu := rHu O val fin u eta RA.
Let He := rHeta O val fin u eta RA.
Notation Q := (/ (1 - u)).

(** Subtracting terms that are themselves approximations. *)
Lemma backward_rec_close : forall K n c (s p P A : nat -> R), 0 <= c ->
  (forall k, (k < K)%nat -> rounds u eta (s (S k)) (s k - p k)) ->
  (forall k, (k < K)%nat -> close u eta n c (p k) (P k) (A k)) ->
  Rabs (s 0%nat - Rsum K P - s K) <= downs u (K + n) * (Rsum K A + Rabs (s K)) + INR K * (c + 1) * Q ^ (K + n) * eta.
Proof.
  intros K n c s p P A Hc H HP. pose proof Hu as Hu'. pose proof He as He'.
  pose proof (backward_rec u eta Hu He K s p H) as B.
  assert (D : Rabs (Rsum K p - Rsum K P) <= ups u n * Rsum K A + INR K * ((1 + u) ^ n * c * eta)).
  { rewrite <- Rsum_minus. eapply Rle_trans; [apply Rsum_abs|]. rewrite <- Rsum_scale, <- Rsum_const, <- Rsum_plus. apply Rsum_le. intros k Hk. apply HP. auto. }
  assert (S1 : Rsum K (fun k => Rabs (p k)) <= (1 + u) ^ n * Rsum K A + INR K * ((1 + u) ^ n * c * eta)).
  { rewrite <- Rsum_scale, <- Rsum_const, <- Rsum_plus. apply Rsum_le. intros k Hk. pose proof (close_abs u eta n c _ _ _ (HP k Hk)). lra. }
  assert (A0 : 0 <= Rsum K A). { apply Rsum_nonneg. intros k Hk. destruct (HP k Hk) as (_ & X & _). pose proof (Rabs_pos (P k)). lra. }
  pose proof (pos_INR K) as PK. pose proof (powQ u Hu K) as QK. pose proof (powQ u Hu n) as Qn. pose proof (pow1u u Hu n) as P1.
  assert (PQ : (1 + u) ^ n <= Q ^ n). { apply pow_incr. split; [lra|apply Q_1u; auto]. }
  assert (EQ : Q ^ (K + n) = Q ^ K * Q ^ n) by apply pow_add.
  replace (s 0%nat - Rsum K P - s K) with ((s 0%nat - Rsum K p - s K) + (Rsum K p - Rsum K P)) by ring.
  eapply Rle_trans; [apply Rabs_triang|]. unfold downs, ups in *. set (q := Q ^ K) in *. set (r := Q ^ n) in *. set (w := (1 + u) ^ n) in *. rewrite EQ.
  set (a := Rsum K A) in *. set (e := INR K * (c * eta)). assert (E0 : 0 <= e) by (apply Rmult_le_pos; auto; apply Rmult_le_pos; auto).
  replace (INR K * (w * c * eta)) with (w * e) in * by (unfold e; ring).
  assert (B' : Rabs (s 0%nat - Rsum K p - s K) <= (q - 1) * (w * a + w * e + Rabs (s K)) + INR K * q * eta).
  { eapply Rle_trans; [exact B|]. apply Rplus_le_compat_r. apply Rmult_le_compat_l; lra. }
  replace (INR K * (c + 1) * (q * r) * eta) with (q * r * e + INR K * eta * (q * r)) by (unfold e; ring).
  pose proof (Rabs_pos (s K)) as PS.
  assert (X1 : q * w * a <= q * r * a) by (apply Rmult_le_compat_r; auto; apply Rmult_le_compat_l; lra).
  assert (X2 : q * w * e <= q * r * e) by (apply Rmult_le_compat_r; auto; apply Rmult_le_compat_l; lra).
  assert (X3 : q * 1 <= q * r) by (apply Rmult_le_compat_l; lra). rewrite Rmult_1_r in X3.
  assert (X4 : (q - 1) * Rabs (s K) <= (q * r - 1) * Rabs (s K)) by (apply Rmult_le_compat_r; lra).
  assert (X5 : INR K * eta * q <= INR K * eta * (q * r)) by (apply Rmult_le_compat_l; auto; apply Rmult_le_pos; auto).
  lra.
Qed.

(** Whole blocks. *)
Lemma blocks_backward : forall NB q x y b, fin (block_updates O NB q x y b) = true ->
  (forall k, (k < NB * q)%nat -> fin (x k) = true /\ fin (y k) = true) /\ fin b = true /\
  Rabs (val b - Rsum (NB * q) (fun k => val (x k) * val (y k)) - val (block_updates O NB q x y b)) <=
    downs u (q + (NB + 1)) * (Rsum (NB * q) (fun k => Rabs (val (x k) * val (y k))) + Rabs (val (block_updates O NB q x y b))) +
    INR q * (INR NB + 2) * Q ^ (q + (NB + 1)) * eta.
Proof.
  intros NB q x y b F. pose proof Hu as Hu'. pose proof He as He'.
  assert (BS : forall (f : nat -> R) q, Rsum (NB * q) f = Rsum q (fun t => Rsum NB (fun k => f (NB * t + k)%nat))).
  { intros f. induction q0 as [|t IH]; [rewrite Nat.mul_0_r; reflexivity|]. cbn [Rsum]. rewrite <- IH. replace (NB * S t)%nat with (NB * t + NB)%nat by lia. apply Rsum_app. }
  set (ch := fun t => fma_chain O NB (fun k => x (NB * t + k)%nat) (fun k => y (NB * t + k)%nat) (o0 O)).
  assert (H : fin b = true /\ forall t, (t < q)%nat ->
     (forall k, (k < NB)%nat -> fin (x (NB * t + k)%nat) = true /\ fin (y (NB * t + k)%nat) = true) /\
     rounds u eta (val (block_updates O NB (S t) x y b)) (val (block_updates O NB t x y b) - (- val (omul O (ch t) (om1 O)))) /\
     close u eta (NB + 1) (INR NB + 1) (- val (omul O (ch t) (om1 O))) (Rsum NB (fun k => val (x (NB * t + k)%nat) * val (y (NB * t + k)%nat)))
       (Rsum NB (fun k => Rabs (val (x (NB * t + k)%nat) * val (y (NB * t + k)%nat))))).
  { revert F. induction q as [|q IH]; intros F; [split; auto; intros; lia|]. cbn [block_updates] in F. fold (ch q) in F.
    destruct (ra_fma _ _ _ _ _ RA _ _ _ F) as (_ & Fs & Fm & R). destruct (ra_v1 _ _ _ _ _ RA) as [_ V1]. rewrite V1, Rmult_1_l in R.
    destruct (IH Fs) as (Fb & H). split; auto. intros t Ht. destruct (Nat.eq_dec t q) as [-> |]; [|apply H; lia].
    destruct (ra_mul _ _ _ _ _ RA _ _ Fm) as (Fc & _ & R2). destruct (ra_vm1 _ _ _ _ _ RA) as [_ V2]. rewrite V2 in R2.
    destruct (fma_chain_steps O val fin u eta RA NB _ _ _ Fc) as (_ & H2).
    split; [intros k Hk; destruct (H2 k Hk) as (X & Y & _); auto|]. split.
    - cbn [block_updates]. fold (ch q). replace (val (block_updates O NB q x y b) - - val (omul O (ch q) (om1 O))) with (val (block_updates O NB q x y b) + val (omul O (ch q) (om1 O))) by ring. exact R.
    - assert (C : close u eta NB (INR NB) (val (ch q)) (Rsum NB (fun k => val (x (NB * q + k)%nat) * val (y (NB * q + k)%nat))) (Rsum NB (fun k => Rabs (val (x (NB * q + k)%nat) * val (y (NB * q + k)%nat))))).
      { pose proof (close_acc u eta Hu He 0 NB (fun k => val (fma_chain O k (fun k => x (NB * q + k)%nat) (fun k => y (NB * q + k)%nat) (o0 O)))
           (fun k => val (x (NB * q + k)%nat) * val (y (NB * q + k)%nat)) (fun k => val (x (NB * q + k)%nat) * val (y (NB * q + k)%nat))
           (fun k => Rabs (val (x (NB * q + k)%nat) * val (y (NB * q + k)%nat))) (fun _ => 0) 0 0 0) as CA.
        cbn beta in CA. rewrite Rsum_const, Rmult_0_r, !Rplus_0_l in CA. apply CA.
        - apply (zero_close O val fin u eta RA).
        - intros k Hk. apply close_exact; auto.
        - intros k Hk. apply H2; auto. }
      replace (NB + 1)%nat with (S NB) by lia. apply (close_next u eta Hu He NB (INR NB) (val (ch q))); auto.
      unfold rounds in *. replace (val (ch q) * -1) with (- val (ch q)) in R2 by ring. rewrite Rabs_Ropp in R2.
      replace (- val (omul O (ch q) (om1 O)) - val (ch q)) with (- (val (omul O (ch q) (om1 O)) - - val (ch q))) by ring. rewrite Rabs_Ropp. exact R2. }
  destruct H as (Fb & H). split; [|split; auto].
  - intros k Hk. assert (NB <> 0%nat) by lia. pose proof (Nat.div_mod k NB ltac:(auto)) as E. pose proof (Nat.mod_upper_bound k NB ltac:(auto)).
    destruct (H (k / NB)%nat) as (X & _); [apply Nat.div_lt_upper_bound; lia|]. rewrite E. apply X. auto.
  - rewrite !BS. replace (INR NB + 2) with (INR NB + 1 + 1) by ring.
    apply (backward_rec_close q (NB + 1) (INR NB + 1) (fun t => val (block_updates O NB t x y b)) (fun t => - val (omul O (ch t) (om1 O)))).
    + pose proof (pos_INR NB). lra.
    + intros t Ht. apply H. auto.
    + intros t Ht. apply H. auto.
Qed.

(** Two backward bounds in sequence. *)
Lemma backward_join : forall a b ca cb z s v P1 P2 S1 S2, 0 <= ca -> 0 <= cb -> 0 <= S1 -> 0 <= S2 -> Rabs P2 <= S2 ->
  Rabs (z - P1 - s) <= downs u a * (S1 + Rabs s) + ca * Q ^ a * eta -> Rabs (s - P2 - v) <= downs u b * (S2 + Rabs v) + cb * Q ^ b * eta ->
  Rabs (z - (P1 + P2) - v) <= downs u (a + b) * (S1 + S2 + Rabs v) + (ca + cb) * Q ^ (a + b) * eta.
Proof.
  intros a b ca cb z s v P1 P2 S1 S2 Ha Hb HS1 HS2 HP H1 H2. pose proof Hu as Hu'. pose proof He as He'.
  replace (z - (P1 + P2) - v) with ((z - P1 - s) + (s - P2 - v)) by ring. eapply Rle_trans; [apply Rabs_triang|].
  assert (X : Rabs s <= Q ^ b * (S2 + Rabs v) + cb * Q ^ b * eta).
  { replace s with ((s - P2 - v) + (P2 + v)) by ring. eapply Rle_trans; [apply Rabs_triang|]. pose proof (Rabs_triang P2 v). unfold downs in H2. lra. }
  pose proof (powQ u Hu a) as QA. pose proof (powQ u Hu b) as QB. assert (EQ : Q ^ (a + b) = Q ^ a * Q ^ b) by apply pow_add.
  unfold downs in *. rewrite EQ. set (q := Q ^ a) in *. set (r := Q ^ b) in *. pose proof (Rabs_pos v) as PV.
  assert (Y : (q - 1) * (S1 + Rabs s) <= (q - 1) * (S1 + (r * (S2 + Rabs v) + cb * r * eta))) by (apply Rmult_le_compat_l; lra).
  assert (X3 : q * 1 <= q * r) by (apply Rmult_le_compat_l; lra). rewrite Rmult_1_r in X3.
  assert (Z1 : (q - 1) * S1 <= (q * r - 1) * S1) by (apply Rmult_le_compat_r; lra).
  assert (Z2 : ca * eta * q <= ca * eta * (q * r)) by (apply Rmult_le_compat_l; auto; apply Rmult_le_pos; auto).
  lra.
Qed.

(** One element before the division: the exponent c/NB + 2 NB + 1 instead of c for the unblocked algorithm. *)
Lemma num_backward : forall NB M F B i j, (0 < NB)%nat -> fin (lu_num O NB M F B i j) = true ->
  let c := min i j in
  (forall l, (l < c)%nat -> fin (F i l) = true /\ fin (F l j) = true) /\ fin (B i j) = true /\
  Rabs (val (B i j) - Rsum c (fun l => val (F i l) * val (F l j)) - val (lu_num O NB M F B i j)) <=
    downs u (c / NB + 2 * NB + 1) * (Rsum c (fun l => Rabs (val (F i l) * val (F l j))) + Rabs (val (lu_num O NB M F B i j))) +
    4 * INR c * Q ^ (c / NB + 2 * NB + 1) * eta.
Proof.
  intros NB M F B i j HNB FN c. pose proof Hu as Hu'. pose proof He as He'.
  set (q := (c / NB)%nat). set (r := (c - NB * q)%nat).
  assert (Hr : (c = NB * q + r /\ r < NB)%nat).
  { unfold r, q. pose proof (Nat.div_mod c NB ltac:(lia)). pose proof (Nat.mod_upper_bound c NB ltac:(lia)). lia. }
  set (s := block_updates O NB q (F i) (fun k => F k j) (B i j)).
  set (v := lu_num O NB M F B i j) in *.
  assert (R2 : fin s = true /\ (forall k, (k < r)%nat -> fin (F i (NB * q + k)%nat) = true /\ fin (F (NB * q + k)%nat j) = true) /\
     Rabs (val s - Rsum r (fun k => val (F i (NB * q + k)%nat) * val (F (NB * q + k)%nat j)) - val v) <=
       downs u (r + 1) * (Rsum r (fun k => Rabs (val (F i (NB * q + k)%nat) * val (F (NB * q + k)%nat j))) + Rabs (val v)) + 2 * INR r * Q ^ (r + 1) * eta).
  { unfold v, lu_num in FN |- *. fold c in FN |- *. fold q in FN |- *. fold r in FN |- *. fold s in FN |- *.
    destruct (_ && _).
    - destruct (sub_chain_backward O val fin u eta RA _ _ _ _ FN) as (X & Fs & Y). rewrite Nat.add_1_r. auto.
    - destruct (el_cm_chain O val fin u eta RA _ _ _ _ FN) as (X & Fs & Y). split; auto. split; auto. eapply Rle_trans; [exact Y|].
      change (INR 1) with 1. rewrite Nat.add_0_r. pose proof (pos_INR r) as Pr.
      assert (Q1 : Q ^ r <= Q ^ (r + 1)) by (apply powQ_mono; auto; lia). pose proof (powQ u Hu r).
      apply Rplus_le_compat.
      + apply Rmult_le_compat_r; [|apply downs_mono; auto; lia].
        apply Rplus_le_le_0_compat; [apply Rsum_nonneg; intros; apply Rabs_pos|apply Rabs_pos].
      + apply Rmult_le_compat_r; auto. apply Rmult_le_compat; try lra. }
  destruct R2 as (Fs & F2 & B2). destruct (blocks_backward NB q _ _ _ Fs) as (F1 & FB & B1). fold s in B1.
  split; [|split; auto].
  { intros l Hl. destruct (Nat.lt_ge_cases l (NB * q)); [apply F1; auto|]. replace l with (NB * q + (l - NB * q))%nat by lia. apply F2. lia. }
  assert (ES : forall f : nat -> R, Rsum c f = Rsum (NB * q) f + Rsum r (fun k => f (NB * q + k)%nat)) by (intros f; rewrite (proj1 Hr); apply Rsum_app).
  rewrite !ES.
  pose proof (pos_INR r) as Pr. pose proof (pos_INR q) as Pq. pose proof (pos_INR NB) as PN.
  eapply Rle_trans.
  { eapply (backward_join (q + (NB + 1)) (r + 1)); [| | | | |exact B1|exact B2].
    - apply Rmult_le_pos; lra.
    - lra.
    - apply Rsum_nonneg. intros. apply Rabs_pos.
    - apply Rsum_nonneg. intros. apply Rabs_pos.
    - apply Rsum_abs. }
  assert (LE : (q + (NB + 1) + (r + 1) <= q + 2 * NB + 1)%nat) by lia.
  apply Rplus_le_compat.
  - apply Rmult_le_compat_r; [|apply downs_mono; auto].
    repeat apply Rplus_le_le_0_compat; try apply Rabs_pos; apply Rsum_nonneg; intros; apply Rabs_pos.
  - apply Rmult_le_compat_r; auto. apply Rmult_le_compat.
    + apply Rplus_le_le_0_compat; [apply Rmult_le_pos; lra|lra].
    + pose proof (powQ u Hu (q + (NB + 1) + (r + 1))). lra.
    + assert (EC : INR c = INR NB * INR q + INR r) by (rewrite (proj1 Hr), plus_INR, mult_INR; ring).
      assert (INR q <= INR NB * INR q). { rewrite <- (Rmult_1_l (INR q)) at 1. apply Rmult_le_compat_r; auto. apply (le_INR 1). lia. }
      lra.
    + apply powQ_mono; auto.
Qed.

(** All elements. *)
Lemma blocked_backward : forall NB M N F B, (0 < NB)%nat ->
  (forall i j, (i < M)%nat -> (j < N)%nat -> F i j = blocked_elem O NB M F B i j) ->
  (forall i j, (i < M)%nat -> (j < N)%nat -> fin (F i j) = true) ->
  forall i j, (i < M)%nat -> (j < N)%nat ->
  let L := unit_lower rops (fun i j => val (F i j)) in let U := upper_trap rops (fun i j => val (F i j)) in let r := min M N in
  let g := (r / NB + 2 * NB + 2)%nat in
  fin (B i j) = true /\
  Rabs (val (B i j) - Rsum r (fun l => L i l * U l j)) <=
    downs u g * Rsum r (fun l => Rabs (L i l * U l j)) + Q ^ g * (eta * (4 * INR r + (if (j <? i)%nat then Rabs (val (F j j)) else 0))).
Proof.
  intros NB M N F B HNB HF FF i j Hi Hj L U r g. pose proof Hu as Hu'. pose proof He as He'.
  pose proof (FF i j Hi Hj) as Fij. pose proof (HF i j Hi Hj) as EF. set (P := fun l => val (F i l) * val (F l j)).
  set (c := min i j). assert (Hc : (c <= r)%nat) by (unfold c, r; lia).
  assert (Hg : (c / NB + 2 * NB + 1 + 1 <= g)%nat) by (unfold g; pose proof (Nat.div_le_mono c r NB ltac:(lia) Hc); lia).
  assert (W : forall n (x S0 c c' : R), (n <= g)%nat -> 0 <= S0 -> 0 <= c -> c <= c' -> x <= downs u n * S0 + Q ^ n * (eta * c) -> x <= downs u g * S0 + Q ^ g * (eta * c')).
  { intros n x S0 c1 c' Hn P0 Pc Hc1 X. eapply Rle_trans; [exact X|]. pose proof (powQ u Hu n). pose proof (powQ_mono u Hu n g Hn). pose proof (downs_mono u Hu n g Hn).
    apply Rplus_le_compat; [apply Rmult_le_compat_r; auto|]. apply Rmult_le_compat; auto; try lra. apply Rmult_le_pos; auto. apply Rmult_le_compat_l; auto. }
  assert (IC : 0 <= 4 * INR c <= 4 * INR r) by (pose proof (pos_INR c); pose proof (le_INR c r Hc); lra).
  assert (PS : 0 <= Rsum c (fun l => Rabs (P l))) by (apply Rsum_nonneg; intros; apply Rabs_pos).
  unfold blocked_elem in EF. destruct (Nat.ltb_spec j i) as [J|J].
  - rewrite EF in Fij. set (t := lu_num O NB M F B i j) in *.
    destruct (ra_div _ _ _ _ _ RA _ _ Fij) as (Ft & D). destruct (D (FF j j ltac:(lia) Hj)) as (N0 & R). rewrite <- EF in R.
    destruct (num_backward NB M F B i j HNB Ft) as (_ & FB & Bw). fold t c in Bw. split; auto.
    destruct (quot_error u eta Hu He _ _ _ N0 R) as (X & Y). assert (c = j) by (unfold c; lia).
    unfold L, U. rewrite (lu_sum_low (fun x => x) _ r i j eq_refl ltac:(lia) ltac:(unfold r; lia)), (lu_sum_low Rabs _ r i j Rabs_R0 ltac:(lia) ltac:(unfold r; lia)).
    replace (Q ^ 1) with Q in * by (rewrite pow_1; auto). pose proof (Rabs_pos (val (F j j))) as Pj.
    apply (W (c / NB + 2 * NB + 1 + 1)%nat _ _ (4 * INR c + Rabs (val (F j j)))); try lra; try lia.
    + pose proof (Rabs_pos (val (F i j) * val (F j j))). rewrite H in PS. unfold P in PS. lra.
    + replace (Rsum j) with (Rsum c) by (f_equal; auto).
      apply (join_error_c u eta Hu He (c / NB + 2 * NB + 1) 1) with (t := val t); auto; rewrite ?pow_1, ?(Rmult_comm eta); auto; try lra.
  - rewrite EF in Fij. destruct (num_backward NB M F B i j HNB Fij) as (_ & FB & Bw). rewrite <- EF in Bw. fold c in Bw. split; auto.
    assert (c = i) by (unfold c; lia). unfold L, U.
    rewrite (lu_sum_up (fun x => x) _ r i j eq_refl ltac:(lia) ltac:(unfold r; lia)), (lu_sum_up Rabs _ r i j Rabs_R0 ltac:(lia) ltac:(unfold r; lia)).
    replace (Rsum i) with (Rsum c) by (f_equal; auto).
    apply (W (c / NB + 2 * NB + 1)%nat _ _ (4 * INR c)); try lra; try lia.
    + pose proof (Rabs_pos (val (F i j))). unfold P in PS. lra.
    + replace (val (B i j) - (Rsum c (fun l => val (F i l) * val (F l j)) + val (F i j))) with (val (B i j) - Rsum c (fun l => val (F i l) * val (F l j)) - val (F i j)) by ring.
      eapply Rle_trans; [exact Bw|]. apply Rplus_le_compat_l. right. ring.
Qed.
Lemma blocked_multipliers : forall NB M N F B, (forall i j, (i < M)%nat -> (j < N)%nat -> F i j = blocked_elem O NB M F B i j) ->
  (forall i j, (i < M)%nat -> (j < N)%nat -> fin (F i j) = true) -> (forall l, (l < min M N)%nat -> good_pivot O NB M F B l) ->
  forall i l, (l < min M N)%nat -> (l < i < M)%nat -> Rabs (val (F i l)) <= 1.
Proof.
  intros NB M N F B HF FF GP i l Hl Hi. destruct (GP l Hl) as [Z X].
  assert (ND : lu_num O NB M F B l l = F l l). { rewrite (HF l l) by lia. unfold blocked_elem. rewrite Nat.ltb_irrefl. reflexivity. }
  assert (FN : forall i', (l <= i' < M)%nat -> fin (lu_num O NB M F B i' l) = true).
  { intros i' Hi'. destruct (Nat.eq_dec i' l) as [-> |]; [rewrite ND; apply FF; lia|]. pose proof (FF i' l ltac:(lia) ltac:(lia)) as Y. rewrite HF in Y by lia.
    unfold blocked_elem in Y. destruct (Nat.ltb_spec l i'); [|lia]. destruct (ra_div _ _ _ _ _ RA _ _ Y) as (Y' & _). exact Y'. }
  specialize (X (finite_comparable O val fin u eta RA (M - l) _ (fun i' Hi' => FN (l + i')%nat ltac:(lia))) i ltac:(lia)).
  assert (FD : fin (F l l) = true) by (apply FF; lia).
  assert (VN : val (F l l) <> 0).
  { intros E. destruct (ra_0 _ _ _ _ _ RA) as [F0 V0]. rewrite <- V0 in E. apply (ra_eqb _ _ _ _ _ RA) in E; auto. congruence. }
  rewrite HF by lia. unfold blocked_elem. destruct (Nat.ltb_spec l i); [|lia].
  apply (ra_div_le _ _ _ _ _ RA); auto; [apply FN; lia|].
  apply Rnot_lt_le. intros Y. apply not_true_iff_false in X. apply X. apply (ra_ltb _ _ _ _ _ RA); rewrite ?(proj1 (ra_abs _ _ _ _ _ RA _)); auto; try (apply FN; lia).
  rewrite !(proj2 (ra_abs _ _ _ _ _ RA _)) by (auto; apply FN; lia). auto.
Qed.
End GR.
