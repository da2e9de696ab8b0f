(** RoundChol_Proofs.v -- the Cholesky factorisation runs to completion in rounded arithmetic when the matrix is sufficiently positive definite. *)
From Coq Require Import Reals Lra Lia Arith.
From Verif Require Import Base Spec Round_Spec Round_Proofs RoundElem_Proofs RoundFact_Proofs Properties_Potrf.
Local Open Scope R_scope.

(** ** Sums *)
Lemma Rsum_0 : forall n f, (forall k, (k < n)%nat -> f k = 0) -> Rsum n f = 0.
Proof. intros n f H. rewrite (Rsum_ext n f (fun _ => 0)) by auto. rewrite Rsum_const. ring. Qed.
Lemma Rsum_trunc : forall n l f, (l <= n)%nat -> (forall k, (l <= k < n)%nat -> f k = 0) -> Rsum n f = Rsum l f.
Proof. intros n l f Hl H. replace n with (l + (n - l))%nat by lia. rewrite Rsum_app, (Rsum_0 (n - l)); [ring|]. intros k Hk. apply H. lia. Qed.
Lemma Rsum_delta : forall n l f, (l < n)%nat -> Rsum n (fun i => if (i =? l)%nat then f i else 0) = f l.
Proof.
  intros n l f H. rewrite (Rsum_trunc n (S l)); [|lia|intros k Hk; destruct (Nat.eqb_spec k l); [lia|auto]].
  cbn [Rsum]. rewrite Nat.eqb_refl, Rsum_0; [ring|]. intros k Hk. destruct (Nat.eqb_spec k l); [lia|auto].
Qed.
Lemma Rsum_exch : forall m n f, Rsum m (fun i => Rsum n (fun j => f i j)) = Rsum n (fun j => Rsum m (fun i => f i j)).
Proof. induction m as [|m IH]; intros n f; cbn [Rsum]; [rewrite Rsum_0; auto|]. rewrite IH, <- Rsum_plus. reflexivity. Qed.
Lemma Rsum_scale_r : forall n c f, Rsum n (fun k => f k * c) = Rsum n f * c.
Proof. intros. rewrite Rmult_comm, <- Rsum_scale. apply Rsum_ext. intros. ring. Qed.
Lemma Rsum_sqr_nonneg : forall n f, 0 <= Rsum n (fun k => f k * f k).
Proof. intros. apply Rsum_nonneg. intros. apply Rle_0_sqr. Qed.
(** Cauchy-Schwarz, in the forms used below *)
Lemma cauchy_sq : forall n f g, Rsum n (fun k => f k * g k) * Rsum n (fun k => f k * g k) <= Rsum n (fun k => f k * f k) * Rsum n (fun k => g k * g k).
Proof.
  induction n as [|n IH]; intros f g; cbn [Rsum]; [lra|]. specialize (IH f g).
  pose proof (Rsum_sqr_nonneg n f) as A. pose proof (Rsum_sqr_nonneg n g) as B.
  set (a := Rsum n (fun k => f k * f k)) in *. set (b := Rsum n (fun k => g k * g k)) in *. set (c := Rsum n (fun k => f k * g k)) in *.
  set (x := f n). set (y := g n).
  assert (2 * c * (x * y) <= a * (y * y) + b * (x * x)); [|nra].
  apply Rsqr_incr_0_var.
  2: { pose proof (Rle_0_sqr x). pose proof (Rle_0_sqr y). unfold Rsqr in *. nra. }
  unfold Rsqr. assert (0 <= (a * (y * y) - b * (x * x)) * (a * (y * y) - b * (x * x))) by apply Rle_0_sqr.
  assert (c * c * ((x * y) * (x * y)) <= a * b * ((x * y) * (x * y))) by (apply Rmult_le_compat_r; [apply Rle_0_sqr|auto]). nra.
Qed.
Lemma sqr_bound : forall x A, x * x <= A * A -> 0 <= A -> x <= A.
Proof. intros x A H HA. apply Rnot_lt_le. intros L. assert (A * A < x * x) by nra. lra. Qed.
Lemma cauchy : forall n f g A B, 0 <= A -> 0 <= B -> Rsum n (fun k => f k * f k) <= A * A -> Rsum n (fun k => g k * g k) <= B * B ->
  Rsum n (fun k => Rabs (f k * g k)) <= A * B.
Proof.
  intros n f g A B HA HB Hf Hg. rewrite (Rsum_ext n _ (fun k => Rabs (f k) * Rabs (g k))) by (intros; apply Rabs_mult).
  apply sqr_bound; [|apply Rmult_le_pos; auto]. eapply Rle_trans; [apply (cauchy_sq n (fun k => Rabs (f k)) (fun k => Rabs (g k)))|]. cbv beta.
  assert (E : forall h, Rsum n (fun k => Rabs (h k) * Rabs (h k)) = Rsum n (fun k => h k * h k)).
  { intros h. apply Rsum_ext. intros k _. rewrite <- Rabs_mult. apply Rabs_pos_eq. apply Rle_0_sqr. }
  rewrite (E f), (E g). pose proof (Rsum_sqr_nonneg n f). pose proof (Rsum_sqr_nonneg n g). replace (A * B * (A * B)) with ((A * A) * (B * B)) by ring.
  apply Rmult_le_compat; auto.
Qed.

Lemma Rsum_term : forall n f k, (forall i, (i < n)%nat -> 0 <= f i) -> (k < n)%nat -> f k <= Rsum n f.
Proof.
  intros n f k P Hk. replace n with (S k + (n - S k))%nat by lia. rewrite Rsum_app. cbn [Rsum].
  assert (0 <= Rsum k f) by (apply Rsum_nonneg; intros; apply P; lia).
  assert (0 <= Rsum (n - S k) (fun i => f (S k + i)%nat)) by (apply Rsum_nonneg; intros; apply P; lia). lra.
Qed.
Lemma Rsum_prefix : forall n m f, (forall i, (i < m)%nat -> 0 <= f i) -> (n <= m)%nat -> Rsum n f <= Rsum m f.
Proof.
  intros n m f P Hk. replace m with (n + (m - n))%nat by lia. rewrite Rsum_app.
  assert (0 <= Rsum (m - n) (fun i => f (n + i)%nat)) by (apply Rsum_nonneg; intros; apply P; lia). lra.
Qed.
Lemma abs_sqr : forall x, Rabs (x * x) = x * x.
Proof. intros. apply Rabs_pos_eq, Rle_0_sqr. Qed.
Lemma term_abs : forall n f k A, 0 <= A -> Rsum n (fun i => f i * f i) <= A * A -> (k < n)%nat -> Rabs (f k) <= A.
Proof.
  intros n f k A HA Hs Hk. apply sqr_bound; auto. rewrite <- Rabs_mult, abs_sqr. eapply Rle_trans; [|exact Hs].
  apply (Rsum_term n (fun i => f i * f i)); auto. intros. apply Rle_0_sqr.
Qed.

(** ** The key inequality, for unit diagonals *)
Section Key.
Variable L : nat -> nat -> R.
Definition low (i k : nat) : R := if (k <=? i)%nat then L i k else 0.
Lemma up_solve : forall n r, (forall l, (l < n)%nat -> L l l <> 0) -> forall m, (m <= n)%nat ->
  exists x, (forall i, (i < n - m)%nat -> x i = 0) /\ forall l, (n - m <= l < n)%nat -> Rsum n (fun i => low i l * x i) = r l.
Proof.
  intros n r HL. induction m as [|m IH]; intros Hm; [exists (fun _ => 0); split; auto; intros; lia|].
  destruct (IH ltac:(lia)) as (x & X0 & X). set (q := (n - S m)%nat). set (t := (r q - Rsum n (fun i => low i q * x i)) / L q q).
  assert (E : forall l, Rsum n (fun i => low i l * (x i + (if (i =? q)%nat then t else 0))) = Rsum n (fun i => low i l * x i) + low q l * t).
  { intros l. rewrite <- (Rsum_delta n q (fun i => low i l * t)) by (unfold q; lia). rewrite <- Rsum_plus. apply Rsum_ext. intros k _. destruct (k =? q)%nat; ring. }
  exists (fun i => x i + (if (i =? q)%nat then t else 0)). split.
  - intros i Hi. rewrite X0 by (unfold q in Hi; lia). destruct (Nat.eqb_spec i q); [lia|]. ring.
  - intros l Hl. rewrite E. destruct (Nat.eq_dec l q) as [->|Nq].
    + unfold low at 2. rewrite Nat.leb_refl. unfold t. pose proof (HL q ltac:(lia)). field. auto.
    + rewrite X by (unfold q in Hl, Nq; lia). unfold low. destruct (Nat.leb_spec l q); [unfold q in *; lia|]. ring.
Qed.

Lemma key_bound : forall n H h r rho g1 g2 eps,
  (forall l, (l < n)%nat -> L l l <> 0) ->
  (forall i k, (i < n)%nat -> (k < n)%nat -> Rabs (H i k - Rsum n (fun l => low i l * low k l)) <= g1) ->
  (forall k, (k < n)%nat -> Rabs (h k - Rsum n (fun l => r l * low k l)) <= g2 * (1 + rho)) ->
  0 <= rho -> Rsum n (fun k => r k * r k) = rho * rho ->
  (forall x, eps * ((1 + Rsum n (fun i => Rabs (x i))) * (1 + Rsum n (fun i => Rabs (x i)))) <=
     Rsum n (fun i => Rsum n (fun k => x i * x k * H i k)) - 2 * Rsum n (fun i => x i * h i) + 1) ->
  0 <= g1 -> 0 <= g2 -> g1 + g2 <= eps -> (1 - g2) * (rho * rho) <= 1 - eps.
Proof.
  intros n H h r rho g1 g2 eps HL E1 E2 Prho Hr PD G1 G2 Ge.
  destruct (up_solve n r HL n (le_n n)) as (x & _ & X). rewrite Nat.sub_diag in X.
  specialize (PD x). set (S1 := Rsum n (fun i => Rabs (x i))) in *.
  assert (PS : 0 <= S1) by (apply Rsum_nonneg; intros; apply Rabs_pos).
  (* the quadratic form *)
  assert (Q1 : Rsum n (fun i => Rsum n (fun k => x i * x k * H i k)) <= rho * rho + g1 * (S1 * S1)).
  { assert (Z : Rsum n (fun i => Rsum n (fun k => x i * x k * Rsum n (fun l => low i l * low k l))) = rho * rho).
    { rewrite <- Hr. rewrite (Rsum_ext n (fun k => r k * r k) (fun l => Rsum n (fun i => Rsum n (fun k => (low i l * x i) * (low k l * x k))))).
      - rewrite (Rsum_exch n n (fun l i => Rsum n (fun k => (low i l * x i) * (low k l * x k)))). apply Rsum_ext. intros i Hi.
        rewrite (Rsum_exch n n (fun l k => (low i l * x i) * (low k l * x k))). apply Rsum_ext. intros k Hk. rewrite <- Rsum_scale. apply Rsum_ext. intros. ring.
      - intros l Hl. rewrite (Rsum_ext n _ (fun i => low i l * x i * r l)).
        + rewrite Rsum_scale_r, X by lia. reflexivity.
        + intros i Hi. rewrite Rsum_scale, X by lia. reflexivity. }
    rewrite <- Z. assert (Y : Rsum n (fun i => Rsum n (fun k => Rabs (x i) * Rabs (x k) * g1)) = g1 * (S1 * S1)).
    { rewrite (Rsum_ext n _ (fun i => Rabs (x i) * (S1 * g1))).
      - rewrite Rsum_scale_r. fold S1. ring.
      - intros i _. rewrite Rsum_scale_r. rewrite Rsum_scale. fold S1. ring. }
    rewrite <- Y, <- Rsum_plus. apply Rsum_le. intros i Hi. rewrite <- Rsum_plus. apply Rsum_le. intros k Hk.
    set (e := Rsum n (fun l => low i l * low k l)). specialize (E1 i k Hi Hk). fold e in E1.
    replace (x i * x k * H i k) with (x i * x k * e + x i * x k * (H i k - e)) by ring. apply Rplus_le_compat_l.
    eapply Rle_trans; [apply Rle_abs|]. rewrite !Rabs_mult. apply Rmult_le_compat_l; auto. apply Rmult_le_pos; apply Rabs_pos. }
  assert (Q2 : rho * rho - g2 * (1 + rho) * S1 <= Rsum n (fun i => x i * h i)).
  { assert (Z : Rsum n (fun i => x i * Rsum n (fun l => r l * low i l)) = rho * rho).
    { rewrite <- Hr. rewrite (Rsum_ext n _ (fun i => Rsum n (fun l => r l * (low i l * x i)))).
      - rewrite Rsum_exch. apply Rsum_ext. intros l Hl. rewrite Rsum_scale, X by lia. reflexivity.
      - intros i _. rewrite <- Rsum_scale. apply Rsum_ext. intros. ring. }
    rewrite <- Z. assert (Y : Rsum n (fun i => g2 * (1 + rho) * Rabs (x i)) = g2 * (1 + rho) * S1) by (rewrite Rsum_scale; reflexivity).
    rewrite <- Y, <- Rsum_minus. apply Rsum_le. intros i Hi. specialize (E2 i Hi). set (e := Rsum n (fun l => r l * low i l)) in *.
    assert (x i * e - x i * h i <= g2 * (1 + rho) * Rabs (x i)); [|lra].
    replace (x i * e - x i * h i) with (- (x i * (h i - e))) by ring. eapply Rle_trans; [apply Rle_abs|]. rewrite Rabs_Ropp, Rabs_mult, Rmult_comm.
    apply Rmult_le_compat_r; auto. apply Rabs_pos. }
  assert (Y : 2 * (rho * S1) <= rho * rho + S1 * S1) by (pose proof (Rle_0_sqr (rho - S1)); unfold Rsqr in *; lra).
  assert (Y2 : g2 * (2 * (rho * S1)) <= g2 * (rho * rho + S1 * S1)) by (apply Rmult_le_compat_l; auto).
  assert (PS2 : 0 <= S1 * S1) by (apply Rle_0_sqr).
  assert (Y3 : (g1 + g2) * (S1 * S1) <= eps * (S1 * S1)) by (apply Rmult_le_compat_r; auto).
  assert (Y4 : g2 * S1 <= eps * S1) by (apply Rmult_le_compat_r; lra). lra.
Qed.
End Key.

(** ** One column, unit diagonals.  [gam] relative error and [tau] underflow of the elements computed so far. *)
Section Col.
Variables (N j : nat) (H L : nat -> nat -> R) (gam tau eps : R).
Hypothesis (Hg : 0 <= gam) (Ht : 0 <= tau) (Hge : 8 * (gam + tau) <= eps) (He1 : eps <= 1).
Hypothesis Hsym : forall i k, H i k = H k i.
Hypothesis Hdiag : forall i, (i < N)%nat -> H i i = 1.
Hypothesis PD : forall v, eps * (Rsum N (fun i => Rabs (v i)) * Rsum N (fun i => Rabs (v i))) <= Rsum N (fun i => Rsum N (fun k => v i * v k * H i k)).
Hypothesis HjN : (j <= N)%nat.
Hypothesis HB : forall i k, (k < j)%nat -> (k <= i < N)%nat ->
  Rabs (H i k - Rsum (S k) (fun l => L i l * L k l)) <= gam * Rsum (S k) (fun l => Rabs (L i l * L k l)) + tau * (1 + Rabs (L i k) + Rabs (L k k)).
Hypothesis HL0 : forall k, (k < j)%nat -> L k k <> 0.

Lemma diag_sum : forall k, (k < j)%nat -> Rsum (S k) (fun l => L k l * L k l) <= 5 / 4 * (5 / 4).
Proof.
  intros k Hk. specialize (HB k k Hk ltac:(lia)). rewrite Hdiag in HB by lia.
  rewrite (Rsum_ext (S k) (fun l => Rabs (L k l * L k l)) (fun l => L k l * L k l)) in HB by (intros; apply abs_sqr).
  pose proof (Rsum_term (S k) (fun l => L k l * L k l) k ltac:(intros; apply Rle_0_sqr) ltac:(lia)) as T1. cbv beta in T1.
  pose proof (Rsum_sqr_nonneg (S k) (fun l => L k l)) as S0. set (s := Rsum (S k) (fun l => L k l * L k l)) in *.
  assert (A2 : 2 * Rabs (L k k) <= 1 + L k k * L k k).
  { pose proof (Rle_0_sqr (Rabs (L k k) - 1)) as X. unfold Rsqr in X. assert (Rabs (L k k) * Rabs (L k k) = L k k * L k k) by (rewrite <- Rabs_mult; apply abs_sqr). lra. }
  assert (X : s - 1 <= Rabs (1 - s)) by (rewrite Rabs_minus_sym; apply Rle_abs).
  assert (tau * (1 + Rabs (L k k) + Rabs (L k k)) <= tau * (2 + s)) by (apply Rmult_le_compat_l; lra).
  assert ((gam + tau) * s <= / 8 * s) by (apply Rmult_le_compat_r; lra). lra.
Qed.

Lemma low_sum : forall i k, (k <= i)%nat -> (i < j)%nat -> Rsum j (fun l => low L i l * low L k l) = Rsum (S k) (fun l => L i l * L k l).
Proof.
  intros i k Hk Hi. rewrite (Rsum_trunc j (S k)); [|lia|].
  - apply Rsum_ext. intros l Hl. unfold low. destruct (Nat.leb_spec l i); [|lia]. destruct (Nat.leb_spec l k); [|lia]. reflexivity.
  - intros l Hl. unfold low. destruct (Nat.leb_spec l k); [lia|]. ring.
Qed.

Lemma embed : forall p x, (j <= p < N)%nat ->
  let v i := if (i =? p)%nat then 1 else if (i <? j)%nat then - x i else 0 in
  Rsum N (fun i => Rabs (v i)) = 1 + Rsum j (fun i => Rabs (x i)) /\
  Rsum N (fun i => Rsum N (fun k => v i * v k * H i k)) = Rsum j (fun i => Rsum j (fun k => x i * x k * H i k)) - 2 * Rsum j (fun i => x i * H p i) + 1.
Proof.
  intros p x Hp v.
  assert (Spl : forall f g, (forall i, (i < j)%nat -> f i = g i) -> (forall i, (j <= i < N)%nat -> i <> p -> f i = 0) ->
     Rsum N f = f p + Rsum j g).
  { intros f g Fj F0. rewrite (Rsum_ext N f (fun i => (if (i =? p)%nat then f i else 0) + (if (i <? j)%nat then g i else 0))).
    - rewrite Rsum_plus, Rsum_delta by lia. f_equal. rewrite (Rsum_trunc N j); [|lia|].
      + apply Rsum_ext. intros i Hi. destruct (Nat.ltb_spec i j); [auto|lia].
      + intros i Hi. destruct (Nat.ltb_spec i j); [lia|auto].
    - intros i Hi. destruct (Nat.eqb_spec i p) as [Ep|Np]; destruct (Nat.ltb_spec i j); try lia; try lra.
      + rewrite Fj by auto. ring.
      + rewrite F0 by (auto; lia). ring. }
  assert (Vp : v p = 1) by (unfold v; rewrite Nat.eqb_refl; auto).
  assert (Vj : forall i, (i < j)%nat -> v i = - x i).
  { intros i Hi. unfold v. destruct (Nat.eqb_spec i p); [lia|]. destruct (Nat.ltb_spec i j); [auto|lia]. }
  assert (V0 : forall i, (j <= i < N)%nat -> i <> p -> v i = 0).
  { intros i Hi Np. unfold v. destruct (Nat.eqb_spec i p); [lia|]. destruct (Nat.ltb_spec i j); [lia|auto]. }
  clearbody v. split.
  - rewrite (Spl _ (fun i => Rabs (x i))).
    + rewrite Vp, Rabs_R1. reflexivity.
    + intros i Hi. rewrite Vj by auto. apply Rabs_Ropp.
    + intros i Hi Np. rewrite V0 by auto. apply Rabs_R0.
  - assert (In : forall i, (i < N)%nat -> Rsum N (fun k => v i * v k * H i k) = v i * (H i p - Rsum j (fun k => x k * H i k))).
    { intros i Hi. rewrite (Spl _ (fun k => - v i * (x k * H i k))).
      - rewrite Vp, Rsum_scale. ring.
      - intros k Hk. rewrite (Vj k) by auto. ring.
      - intros k Hk Np. rewrite (V0 k) by auto. ring. }
    rewrite (Rsum_ext N _ _ In). rewrite (Spl _ (fun i => - (x i * H p i) + x i * Rsum j (fun k => x k * H i k))).
    + rewrite Vp, Hdiag by lia. rewrite Rsum_plus. rewrite (Rsum_ext j (fun k => - (x k * H p k)) (fun k => -1 * (x k * H p k))) by (intros; ring).
      rewrite Rsum_scale. rewrite (Rsum_ext j (fun i => Rsum j (fun k => x i * x k * H i k)) (fun i => x i * Rsum j (fun k => x k * H i k))); [ring|].
      intros i Hi. rewrite <- Rsum_scale. apply Rsum_ext. intros. ring.
    + intros i Hi. rewrite Vj, (Hsym i p) by auto. ring.
    + intros i Hi Np. rewrite V0 by auto. ring.
Qed.

Lemma row_bound : forall p, (j <= p < N)%nat ->
  Rsum j (fun k => L p k * L p k) <= 1 /\ eps - (5 / 4 * gam + 9 / 4 * tau) <= 1 - Rsum j (fun k => L p k * L p k).
Proof.
  intros p Hp. set (s := Rsum j (fun k => L p k * L p k)). assert (S0 : 0 <= s) by apply Rsum_sqr_nonneg.
  set (g2 := 5 / 4 * gam + 9 / 4 * tau). set (rho := sqrt s). assert (R0 : 0 <= rho) by apply sqrt_pos. assert (R2 : rho * rho = s) by (apply sqrt_sqrt; auto).
  assert (K : (1 - g2) * (rho * rho) <= 1 - eps).
  { apply (key_bound L j H (H p) (L p) rho (25 / 16 * gam + 7 / 2 * tau) g2 eps); auto; unfold g2; try lra.
    - assert (G : forall i k, (k <= i)%nat -> (i < j)%nat -> Rabs (H i k - Rsum j (fun l => low L i l * low L k l)) <= 25 / 16 * gam + 7 / 2 * tau).
      { intros i k Hk Hi. rewrite low_sum by auto. eapply Rle_trans; [apply HB; lia|].
        pose proof (diag_sum i Hi) as Di. pose proof (diag_sum k ltac:(lia)) as Dk.
        assert (Di' : Rsum (S k) (fun l => L i l * L i l) <= 5 / 4 * (5 / 4)).
        { eapply Rle_trans; [|exact Di]. apply (Rsum_prefix (S k) (S i) (fun l => L i l * L i l)); [intros; apply Rle_0_sqr|lia]. }
        pose proof (cauchy (S k) (fun l => L i l) (fun l => L k l) (5 / 4) (5 / 4) ltac:(lra) ltac:(lra) Di' Dk) as C. cbv beta in C.
        pose proof (term_abs (S i) (fun l => L i l) k (5 / 4) ltac:(lra) Di ltac:(lia)) as T1. pose proof (term_abs (S k) (fun l => L k l) k (5 / 4) ltac:(lra) Dk ltac:(lia)) as T2.
        cbv beta in T1, T2.
        assert (gam * Rsum (S k) (fun l => Rabs (L i l * L k l)) <= gam * (5 / 4 * (5 / 4))) by (apply Rmult_le_compat_l; auto).
        assert (tau * (1 + Rabs (L i k) + Rabs (L k k)) <= tau * (7 / 2)) by (apply Rmult_le_compat_l; lra). lra. }
      intros i k Hi Hk. destruct (le_lt_dec k i) as [Hk'|Hk']; [apply G; auto|]. rewrite Hsym.
      rewrite (Rsum_ext j _ (fun l => low L k l * low L i l)) by (intros; ring). apply G; lia.
    - intros k Hk. pose proof (diag_sum k Hk) as Dk.
      replace (Rsum j (fun l => L p l * low L k l)) with (Rsum (S k) (fun l => L p l * L k l)).
      2: { rewrite (Rsum_trunc j (S k)); [|lia|intros l Hl; unfold low; destruct (Nat.leb_spec l k); [lia|ring]].
           apply Rsum_ext. intros l Hl. unfold low. destruct (Nat.leb_spec l k); [reflexivity|lia]. }
      eapply Rle_trans; [apply HB; lia|].
      assert (Dp : Rsum (S k) (fun l => L p l * L p l) <= rho * rho).
      { rewrite R2. apply (Rsum_prefix (S k) j (fun l => L p l * L p l)); [intros; apply Rle_0_sqr|lia]. }
      pose proof (cauchy (S k) (fun l => L p l) (fun l => L k l) rho (5 / 4) R0 ltac:(lra) Dp Dk) as C. cbv beta in C.
      pose proof (term_abs j (fun l => L p l) k rho R0 ltac:(rewrite R2; apply Rle_refl) Hk) as T1.
      pose proof (term_abs (S k) (fun l => L k l) k (5 / 4) ltac:(lra) Dk ltac:(lia)) as T2. cbv beta in T1, T2.
      assert (gam * Rsum (S k) (fun l => Rabs (L p l * L k l)) <= gam * (rho * (5 / 4))) by (apply Rmult_le_compat_l; auto).
      assert (tau * (1 + Rabs (L p k) + Rabs (L k k)) <= tau * (1 + rho + 5 / 4)) by (apply Rmult_le_compat_l; lra).
      assert (0 <= tau * rho) by (apply Rmult_le_pos; auto). lra.
    - intros x. destruct (embed p x Hp) as (X1 & X2). rewrite <- X1, <- X2. apply PD. }
  rewrite R2 in K. assert (G2 : 0 <= g2 <= eps) by (unfold g2; lra).
  assert (S1 : s <= 1).
  { apply Rnot_lt_le. intros X. assert ((1 - g2) * 1 < (1 - g2) * s) by (apply Rmult_lt_compat_l; unfold g2 in *; lra). lra. }
  split; auto. assert (g2 * s <= g2 * 1) by (apply Rmult_le_compat_l; lra). lra.
Qed.

Lemma off_bound : forall i k, (i < N)%nat -> (k < N)%nat -> Rabs (H i k) <= 1.
Proof.
  intros i k Hi Hk. destruct (Nat.eq_dec i k) as [->|Nik]; [rewrite Hdiag, Rabs_R1 by auto; lra|].
  assert (G : forall t, 0 <= 1 + 2 * t * H i k + t * t).
  { intros t. specialize (PD (fun l => (if (l =? i)%nat then 1 else 0) + (if (l =? k)%nat then t else 0))). cbv beta in PD.
    match type of PD with ?X <= ?Y => assert (0 <= X); [apply Rmult_le_pos; [lra|apply Rle_0_sqr]|]; assert (EY : Y = 1 + 2 * t * H i k + t * t) end; [|lra].
    set (v := fun l => (if (l =? i)%nat then 1 else 0) + (if (l =? k)%nat then t else 0)).
    assert (D : forall f, Rsum N (fun l => v l * f l) = f i + t * f k).
    { intros f. rewrite (Rsum_ext N _ (fun l => (if (l =? i)%nat then f l else 0) + (if (l =? k)%nat then t * f l else 0))).
      - rewrite Rsum_plus, (Rsum_delta N i f), (Rsum_delta N k (fun l => t * f l)) by auto. reflexivity.
      - intros l _. unfold v. destruct (l =? i)%nat, (l =? k)%nat; ring. }
    transitivity (Rsum N (fun l => v l * Rsum N (fun k => v k * H l k))).
    { apply Rsum_ext. intros l _. rewrite <- Rsum_scale. apply Rsum_ext. intros. unfold v. ring. }
    rewrite D, !D, !Hdiag, (Hsym k i) by auto. ring. }
  pose proof (G 1) as A. pose proof (G (-1)) as B. apply Rabs_le. lra.
Qed.

Lemma pivot_bound : forall nu, (j < N)%nat ->
  Rabs (1 - Rsum j (fun k => L j k * L j k) - nu) <= gam * (Rsum j (fun k => Rabs (L j k * L j k)) + Rabs nu) + tau -> eps / 2 <= nu.
Proof.
  intros nu Hj B. destruct (row_bound j ltac:(lia)) as (S1 & S2).
  rewrite (Rsum_ext j (fun l => Rabs (L j l * L j l)) (fun l => L j l * L j l)) in B by (intros; apply abs_sqr).
  set (s := Rsum j (fun k => L j k * L j k)) in *. assert (X : 1 - s - nu <= Rabs (1 - s - nu)) by apply Rle_abs.
  assert (gam * s <= gam * 1) by (apply Rmult_le_compat_l; auto).
  assert (Y : 19 / 32 * eps <= nu + gam * Rabs nu) by lra.
  destruct (Rle_dec 0 nu) as [P|P].
  - rewrite Rabs_pos_eq in Y by auto. assert (gam * nu <= / 8 * nu) by (apply Rmult_le_compat_r; lra). lra.
  - rewrite Rabs_left in Y by lra. assert (gam * - nu <= / 8 * - nu) by (apply Rmult_le_compat_r; lra). lra.
Qed.
End Col.

(** ** Completion *)
Section Fin.
Context {T : Type} (O : Ops T) (val : T -> R) (fin : T -> bool) (u eta big : R) (RA : rounded O val fin u eta) (RG : ranged O val fin big).
Let Hu := rHu O val fin u eta RA.
Let He := rHeta O val fin u eta RA.
Notation Q := (/ (1 - u)).

Lemma chol_num_finite : forall TS ld a l i j, (0 < TS)%nat -> (forall x, fin x = true -> fin (ld x) = true /\ val (ld x) = val x) ->
  (forall k, (k < j)%nat -> fin (l i k) = true /\ fin (l j k) = true) -> fin (a i j) = true ->
  (1 + u) ^ j * (Rabs (val (a i j)) + Rsum j (fun k => Rabs (val (l i k) * val (l j k))) + INR j * eta) <= big ->
  fin (chol_num O TS ld a l i j) = true /\
  Rabs (val (chol_num O TS ld a l i j)) <= (1 + u) ^ j * (Rabs (val (a i j)) + Rsum j (fun k => Rabs (val (l i k) * val (l j k))) + INR j * eta).
Proof.
  intros TS ld a l i j HT Hld Fl Fa HB. unfold chol_num. pose proof (Nat.mul_div_le j TS ltac:(lia)) as Hk. set (k := (TS * (j / TS))%nat) in *. clearbody k.
  destruct (Hld _ Fa) as (Fa' & Va). set (p := fun c => val (l i c) * val (l j c)) in *.
  assert (P : forall n m, (n <= m)%nat -> (1 + u) ^ n <= (1 + u) ^ m) by (intros; apply Rle_pow; auto; lra).
  assert (P0 : forall n, 0 <= (1 + u) ^ n) by (intros; apply pow_le; lra).
  assert (S0 : forall n, (n <= j)%nat -> 0 <= Rsum n (fun c => Rabs (p c)) <= Rsum j (fun c => Rabs (p c))).
  { intros n Hn. split; [apply Rsum_nonneg; intros; apply Rabs_pos|]. apply Rsum_prefix; auto. intros; apply Rabs_pos. }
  set (W := fun n => Rabs (val (a i j)) + Rsum n (fun c => Rabs (p c)) + INR n * eta).
  assert (W0 : forall n, (n <= j)%nat -> 0 <= W n).
  { intros n Hn. unfold W. pose proof (Rabs_pos (val (a i j))). destruct (S0 n Hn). pose proof (Rmult_le_pos _ _ (pos_INR n) He). lra. }
  change (Rabs (val (a i j)) + Rsum j (fun c => Rabs (p c)) + INR j * eta) with (W j) in *.
  assert (Wm : forall n, (S n <= j)%nat -> W n + Rabs (p n) + eta = W (S n)).
  { intros n Hn. unfold W. rewrite S_INR. cbn [Rsum]. ring. }
  assert (Wj : forall n, (n <= j)%nat -> (1 + u) ^ n * W n <= (1 + u) ^ j * W j).
  { intros n Hn. apply Rmult_le_compat; auto. unfold W. assert (INR n * eta <= INR j * eta) by (apply Rmult_le_compat_r; auto; apply le_INR; lia). destruct (S0 n Hn). lra. }
  assert (ST : forall n t x, (S n <= j)%nat -> Rabs x <= (1 + u) ^ n * W n -> Rabs (x - p n) <= big /\ (rounds u eta t (x - p n) -> Rabs t <= (1 + u) ^ S n * W (S n))).
  { intros n t x Hn Hx. pose proof (pow1u u Hu n) as P1. pose proof (Rabs_pos (p n)) as Pp. rewrite <- Wm by auto.
    assert (X : Rabs (x - p n) <= (1 + u) ^ n * (W n + Rabs (p n))).
    { unfold Rminus. eapply Rle_trans; [apply Rabs_triang|]. rewrite Rabs_Ropp. assert (1 * Rabs (p n) <= (1 + u) ^ n * Rabs (p n)) by (apply Rmult_le_compat_r; auto). lra. }
    split.
    - eapply Rle_trans; [exact X|]. eapply Rle_trans; [|exact HB]. eapply Rle_trans; [|apply (Wj (S n)); auto].
      apply Rmult_le_compat; auto; [pose proof (W0 n ltac:(lia)); lra|rewrite <- Wm by auto; lra].
    - intros Rt. apply (rounds_abs u eta) in Rt; [|lra]. eapply Rle_trans; [exact Rt|]. cbn [pow].
      assert ((1 + u) * Rabs (x - p n) <= (1 + u) * ((1 + u) ^ n * (W n + Rabs (p n)))) by (apply Rmult_le_compat_l; lra).
      assert (1 * eta <= (1 + u) * (1 + u) ^ n * eta) by (apply Rmult_le_compat_r; auto; pose proof (pow1u u Hu (S n)); cbn [pow] in *; lra). lra. }
  assert (C1 : forall n, (n <= k)%nat -> let z := fma_chain O n (fun c => omul O (om1 O) (l i c)) (fun c => l j c) (ld (a i j)) in
     fin z = true /\ Rabs (val z) <= (1 + u) ^ n * W n).
  { induction n as [|n IH]; intros Hn z.
    - unfold z. cbn [fma_chain pow]. split; auto. rewrite Va. unfold W. cbn [Rsum INR]. lra.
    - destruct (IH ltac:(lia)) as (F & B). unfold z. cbn [fma_chain]. set (y := fma_chain O n _ _ _) in *. destruct (Fl n ltac:(lia)) as (Fi & Fj).
      destruct (ra_m1 _ _ _ _ _ RA (l i n)) as (M1 & M2). specialize (M2 Fi). rewrite Fi in M1.
      set (t := ofma O (omul O (om1 O) (l i n)) (l j n) y). destruct (ST n (val t) (val y) ltac:(lia) B) as (X & Y).
      assert (EX : val (omul O (om1 O) (l i n)) * val (l j n) + val y = val y - p n) by (rewrite M2; unfold p; ring).
      assert (F1 : fin t = true) by (apply (rg_fma _ _ _ _ RG); auto; rewrite EX; auto). split; auto. apply Y.
      destruct (ra_fma _ _ _ _ _ RA _ _ _ F1) as (_ & _ & _ & Rt). rewrite EX in Rt. exact Rt. }
  destruct (C1 k (le_n k)) as (F1 & B1). clear C1. set (z := fma_chain O k _ _ _) in *. clearbody z.
  assert (C2 : forall n, (k + n <= j)%nat -> let y := fnma_chain O n (fun c => l j (k + c)%nat) (fun c => l i (k + c)%nat) z in
     fin y = true /\ Rabs (val y) <= (1 + u) ^ (k + n) * W (k + n)%nat).
  { induction n as [|n IH]; intros Hn y.
    - rewrite Nat.add_0_r. unfold y. cbn [fnma_chain]. auto.
    - destruct (IH ltac:(lia)) as (F & B). unfold y. cbn [fnma_chain]. set (w := fnma_chain O n _ _ _) in *. destruct (Fl (k + n)%nat ltac:(lia)) as (Fi & Fj).
      set (t := ofnma O (l j (k + n)%nat) (l i (k + n)%nat) w). destruct (ST (k + n)%nat (val t) (val w) ltac:(lia) B) as (X & Y).
      assert (EX : val w - val (l j (k + n)%nat) * val (l i (k + n)%nat) = val w - p (k + n)%nat) by (unfold p; ring).
      assert (F2 : fin t = true) by (apply (rg_fnma _ _ _ _ RG); auto; rewrite EX; auto). split; auto. rewrite Nat.add_succ_r. apply Y.
      destruct (ra_fnma _ _ _ _ _ RA _ _ _ F2) as (_ & _ & _ & Rt). rewrite EX in Rt. exact Rt. }
  destruct (C2 (j - k)%nat ltac:(lia)) as (F2 & B2). replace (k + (j - k))%nat with j in B2 by lia. auto.
Qed.

Section Complete.
Variables (N TS : nat) (ld : T -> T) (a l : nat -> nat -> T) (S_ : nat -> nat -> R) (lam del B : R).
Hypothesis HT : (0 < TS)%nat.
Hypothesis HN : (0 < N)%nat.
Hypothesis Hld : forall x, fin (ld x) = fin x /\ (fin x = true -> val (ld x) = val x).
Hypothesis HE : forall i j, (j <= i < N)%nat -> chol_elem O TS ld a l i j.
Hypothesis FA : forall i j, (j <= i < N)%nat -> fin (a i j) = true /\ val (a i j) = S_ i j.
Hypothesis Ssym : forall i k, S_ i k = S_ k i.
Hypothesis PDl : forall v, lam * Rsum N (fun i => S_ i i * (v i * v i)) <= Rsum N (fun i => Rsum N (fun k => v i * v k * S_ i k)).
Hypothesis Hlam : 0 < lam.
Hypothesis Hlam8 : 8 * INR N * downs u (N + 5) <= lam.
Hypothesis Hdel : 0 < del <= 1.
Hypothesis HSd : forall i, (i < N)%nat -> del <= S_ i i <= B.
Hypothesis HB1 : 1 <= B.
Hypothesis Heta : Q ^ (N + 4) * (INR N + 3) * eta <= u * del.
Hypothesis Hbig : 16 * INR N * B <= lam * big.

Let eps := lam / INR N.
Let gam := downs u (N + 4).
Let d i := sqrt (S_ i i).
Let H i k := if (Nat.eqb i k && (i <? N)%nat)%bool then 1 else S_ i k / (d i * d k).
Let L i k := val (l i k) / d i.

Lemma N1 : 1 <= INR N.
Proof. replace 1 with (INR 1) by reflexivity. apply le_INR. lia. Qed.
Lemma d_pos : forall i, (i < N)%nat -> 0 < d i.
Proof. intros i Hi. apply sqrt_lt_R0. destruct (HSd i Hi). lra. Qed.
Lemma d_sq : forall i, (i < N)%nat -> d i * d i = S_ i i.
Proof. intros i Hi. apply sqrt_sqrt. destruct (HSd i Hi). lra. Qed.
Lemma d_del : forall i, (i < N)%nat -> del <= d i.
Proof. intros i Hi. apply sqr_bound; [|pose proof (d_pos i Hi); lra]. rewrite d_sq by auto. destruct (HSd i Hi). assert (del * del <= 1 * del) by (apply Rmult_le_compat_r; lra). lra. Qed.
Lemma dd_del : forall i k, (i < N)%nat -> (k < N)%nat -> del <= d i * d k.
Proof.
  intros i k Hi Hk. apply sqr_bound; [|apply Rmult_le_pos; apply Rlt_le, d_pos; auto].
  replace (d i * d k * (d i * d k)) with ((d i * d i) * (d k * d k)) by ring. rewrite !d_sq by auto. destruct (HSd i Hi). destruct (HSd k Hk). apply Rmult_le_compat; lra.
Qed.
Lemma dd_B : forall i k, (i < N)%nat -> (k < N)%nat -> d i * d k <= B.
Proof.
  intros i k Hi Hk. apply sqr_bound; [|lra].
  replace (d i * d k * (d i * d k)) with ((d i * d i) * (d k * d k)) by ring. rewrite !d_sq by auto. destruct (HSd i Hi). destruct (HSd k Hk). apply Rmult_le_compat; lra.
Qed.
Lemma d_B : forall i, (i < N)%nat -> d i <= B.
Proof. intros i Hi. apply sqr_bound; [|lra]. rewrite d_sq by auto. destruct (HSd i Hi). assert (1 * B <= B * B) by (apply Rmult_le_compat_r; lra). lra. Qed.
Lemma H_eq : forall i k, (i < N)%nat -> (k < N)%nat -> H i k = S_ i k / (d i * d k).
Proof.
  intros i k Hi Hk. unfold H. destruct (Nat.eqb_spec i k) as [Ek|]; cbn [andb]; [|reflexivity]. destruct (Nat.ltb_spec i N); [|reflexivity]. rewrite <- Ek, d_sq by auto.
  destruct (HSd i Hi). field. lra.
Qed.
Lemma H_sym : forall i k, H i k = H k i.
Proof.
  intros i k. unfold H. rewrite Nat.eqb_sym. destruct (Nat.eqb_spec k i) as [->|]; auto. cbn [andb]. rewrite Ssym, (Rmult_comm (d i)). reflexivity.
Qed.
Lemma H_diag : forall i, (i < N)%nat -> H i i = 1.
Proof. intros i Hi. unfold H. rewrite Nat.eqb_refl. destruct (Nat.ltb_spec i N); [reflexivity|lia]. Qed.
Lemma eps_N : eps * INR N = lam.
Proof. unfold eps. field. pose proof N1. lra. Qed.
Lemma eps_pos : 0 < eps.
Proof. unfold eps. pose proof N1. apply Rdiv_lt_0_compat; lra. Qed.
Lemma H_PD : forall v, eps * (Rsum N (fun i => Rabs (v i)) * Rsum N (fun i => Rabs (v i))) <= Rsum N (fun i => Rsum N (fun k => v i * v k * H i k)).
Proof.
  intros v. specialize (PDl (fun i => v i / d i)). cbv beta in PDl.
  rewrite (Rsum_ext N (fun i => S_ i i * (v i / d i * (v i / d i))) (fun i => v i * v i)) in PDl.
  2: { intros i Hi. rewrite <- d_sq by auto. field. pose proof (d_pos i Hi). lra. }
  rewrite (Rsum_ext N (fun i => Rsum N (fun k => v i / d i * (v k / d k) * S_ i k)) (fun i => Rsum N (fun k => v i * v k * H i k))) in PDl.
  2: { intros i Hi. apply Rsum_ext. intros k Hk. rewrite H_eq by auto. field. pose proof (d_pos i Hi). pose proof (d_pos k Hk). lra. }
  eapply Rle_trans; [|exact PDl]. rewrite <- eps_N, Rmult_assoc. apply Rmult_le_compat_l; [pose proof eps_pos; lra|].
  pose proof (cauchy_sq N (fun _ => 1) (fun i => Rabs (v i))) as C. cbv beta in C.
  rewrite (Rsum_ext N (fun k => 1 * Rabs (v k)) (fun k => Rabs (v k))) in C by (intros; ring).
  rewrite (Rsum_ext N (fun k => Rabs (v k) * Rabs (v k)) (fun k => v k * v k)) in C by (intros; rewrite <- Rabs_mult; apply abs_sqr).
  rewrite Rsum_const in C. lra.
Qed.
Lemma gam_u : gam + u <= downs u (N + 5).
Proof.
  unfold gam, downs. replace (N + 5)%nat with (S (N + 4)) by lia. cbn [pow]. pose proof (Q_1u u Hu) as Q1. pose proof (powQ u Hu (N + 4)) as P.
  assert ((1 + u) * Q ^ (N + 4) <= Q * Q ^ (N + 4)) by (apply Rmult_le_compat_r; lra). assert (u * 1 <= u * Q ^ (N + 4)) by (apply Rmult_le_compat_l; lra). lra.
Qed.
Lemma gam_0 : 0 <= gam.
Proof. apply downs_nonneg. auto. Qed.
Lemma eps_8 : 8 * (gam + u) <= eps.
Proof.
  pose proof gam_u. apply (Rmult_le_reg_r (INR N)); [pose proof N1; lra|]. rewrite eps_N. eapply Rle_trans; [|exact Hlam8].
  assert (INR N * (gam + u) <= INR N * downs u (N + 5)) by (apply Rmult_le_compat_l; auto; apply pos_INR). lra.
Qed.
Lemma eps_1 : eps <= 1.
Proof.
  pose proof (H_PD (fun i => if (i =? 0)%nat then 1 else 0)) as P. cbv beta in P.
  rewrite (Rsum_ext N (fun i => Rabs (if (i =? 0)%nat then 1 else 0)) (fun i => if (i =? 0)%nat then 1 else 0)) in P.
  2: { intros i _. destruct (i =? 0)%nat; [apply Rabs_R1|apply Rabs_R0]. }
  rewrite (Rsum_delta N 0 (fun _ => 1)) in P by auto.
  rewrite (Rsum_ext N _ (fun i => if (i =? 0)%nat then H i 0%nat else 0)) in P.
  - rewrite (Rsum_delta N 0 (fun i => H i 0%nat)), H_diag in P by auto. lra.
  - intros i Hi. rewrite (Rsum_ext N _ (fun k => if (k =? 0)%nat then (if (i =? 0)%nat then 1 else 0) * H i k else 0)).
    + rewrite (Rsum_delta N 0 (fun k => (if (i =? 0)%nat then 1 else 0) * H i k)) by auto. destruct (i =? 0)%nat; ring.
    + intros k Hk. destruct (k =? 0)%nat; ring.
Qed.
Lemma u_8 : u <= / 8.
Proof. pose proof eps_8. pose proof eps_1. pose proof gam_0. lra. Qed.
Lemma Q_eta : Q ^ (N + 4) * eta * (INR N + 3) <= u * del.
Proof. rewrite Rmult_assoc, (Rmult_comm eta), <- Rmult_assoc. auto. Qed.
Lemma eta_u : 3 * eta <= u * del.
Proof.
  eapply Rle_trans; [|exact Q_eta]. pose proof (powQ u Hu (N + 4)) as P. pose proof (pos_INR N) as PN.
  assert (1 * eta <= Q ^ (N + 4) * eta) by (apply Rmult_le_compat_r; auto).
  assert (Q ^ (N + 4) * eta * 3 <= Q ^ (N + 4) * eta * (INR N + 3)) by (apply Rmult_le_compat_l; lra). lra.
Qed.
Lemma eta_1 : eta <= 1.
Proof. pose proof eta_u. assert (u * del <= 1 * 1) by (apply Rmult_le_compat; lra). lra. Qed.
Lemma Rabs_div : forall x y, 0 < y -> Rabs (x / y) = Rabs x / y.
Proof. intros x y Hy. unfold Rdiv. rewrite Rabs_mult, (Rabs_pos_eq (/ y)); auto. apply Rlt_le, Rinv_0_lt_compat. auto. Qed.
Lemma L_sum : forall n i k, (i < N)%nat -> (k < N)%nat -> Rsum n (fun q => L i q * L k q) = Rsum n (fun q => val (l i q) * val (l k q)) / (d i * d k).
Proof.
  intros n i k Hi Hk. unfold Rdiv at 1. rewrite <- Rsum_scale_r. apply Rsum_ext. intros q _. unfold L. field. pose proof (d_pos i Hi). pose proof (d_pos k Hk). lra.
Qed.
Lemma L_abs : forall n i k, (i < N)%nat -> (k < N)%nat -> Rsum n (fun q => Rabs (L i q * L k q)) = Rsum n (fun q => Rabs (val (l i q) * val (l k q))) / (d i * d k).
Proof.
  intros n i k Hi Hk. unfold Rdiv at 1. rewrite <- Rsum_scale_r. apply Rsum_ext. intros q _. unfold L. pose proof (d_pos i Hi). pose proof (d_pos k Hk).
  rewrite !Rabs_mult, !Rabs_div by auto. field. lra.
Qed.

(** what holds of the columns before j *)
Definition done (j : nat) : Prop := forall k, (k < j)%nat -> (forall i, (k <= i < N)%nat -> fin (l i k) = true) /\ 0 < val (l k k).
Lemma done_error : forall j, (j <= N)%nat -> done j -> forall i k, (k < j)%nat -> (k <= i < N)%nat ->
  Rabs (H i k - Rsum (S k) (fun q => L i q * L k q)) <= gam * Rsum (S k) (fun q => Rabs (L i q * L k q)) + u * (1 + Rabs (L i k) + Rabs (L k k)).
Proof.
  intros j Hj D i k Hk Hi. destruct (D k Hk) as (F & _).
  destruct (chol_backward O val fin u eta RA TS ld a l i k HT) as (_ & E); auto; try (apply HE; lia); try (apply F; lia).
  { intros x Fx. destruct (Hld x) as (h1 & h2). rewrite h1 in Fx. auto. }
  destruct (FA i k Hi) as (_ & Va). rewrite Va in E. pose proof (d_pos i ltac:(lia)) as Pi. pose proof (d_pos k ltac:(lia)) as Pk.
  rewrite H_eq, L_sum, L_abs by lia. set (sa := Rsum (S k) (fun q => Rabs (val (l i q) * val (l k q)))) in *. set (s := Rsum (S k) (fun q => val (l i q) * val (l k q))) in *.
  assert (Psa : 0 <= sa) by (apply Rsum_nonneg; intros; apply Rabs_pos).
  assert (PP : 0 < d i * d k) by (apply Rmult_lt_0_compat; auto).
  replace (S_ i k / (d i * d k) - s / (d i * d k)) with ((S_ i k - s) / (d i * d k)) by (field; lra). rewrite Rabs_div by auto.
  apply (Rmult_le_reg_r (d i * d k)); auto. unfold Rdiv at 1. rewrite Rmult_assoc, Rinv_l, Rmult_1_r by lra. eapply Rle_trans; [exact E|]. clear E.
  replace ((gam * (sa / (d i * d k)) + u * (1 + Rabs (L i k) + Rabs (L k k))) * (d i * d k)) with (gam * sa + u * ((1 + Rabs (L i k) + Rabs (L k k)) * (d i * d k))) by (field; lra).
  apply Rplus_le_compat.
  - apply Rmult_le_compat_r; auto. apply downs_mono; auto. lia.
  - assert (Li : Rabs (val (l i k)) = Rabs (L i k) * d i) by (unfold L; rewrite Rabs_div by auto; field; lra).
    assert (Lk : Rabs (val (l k k)) = Rabs (L k k) * d k) by (unfold L; rewrite Rabs_div by auto; field; lra). rewrite Li, Lk.
    pose proof (Rabs_pos (L i k)) as Ai. pose proof (Rabs_pos (L k k)) as Ak. set (x := Rabs (L i k)) in *. set (y := Rabs (L k k)) in *.
    pose proof (powQ_mono u Hu (k + 4) (N + 4) ltac:(lia)) as QM. pose proof (powQ u Hu (k + 4)) as Q0. pose proof Q_eta as QE.
    assert (NK : INR k <= INR N) by (apply le_INR; lia). pose proof (pos_INR k) as Pk0. pose proof eta_1 as E1.
    set (A := Q ^ (k + 4)) in *. set (A' := Q ^ (N + 4)) in *. clearbody A A' x y s sa.
    pose proof (d_del i ltac:(lia)) as Di. pose proof (d_del k ltac:(lia)) as Dk. pose proof (dd_del i k ltac:(lia) ltac:(lia)) as Dik.
    assert (X0 : 0 <= x * d i) by (apply Rmult_le_pos; lra). assert (Y0 : 0 <= y * d k) by (apply Rmult_le_pos; lra).
    assert (Z : A * (eta * (INR k + (x * d i + y * d k + eta))) <= A' * eta * (INR N + 1 + x * d i + y * d k)).
    { rewrite <- Rmult_assoc. apply Rmult_le_compat; try lra. apply Rmult_le_pos; lra. apply Rmult_le_compat_r; lra. }
    eapply Rle_trans; [exact Z|]. set (w := A' * eta) in *. assert (W0 : 0 <= w) by (apply Rmult_le_pos; lra). clearbody w.
    assert (W1 : w * (x * d i) <= u * del * (x * d i)).
    { apply Rmult_le_compat_r; auto. eapply Rle_trans; [|exact QE]. rewrite <- (Rmult_1_r w) at 1. apply Rmult_le_compat_l; lra. }
    assert (W2 : w * (y * d k) <= u * del * (y * d k)).
    { apply Rmult_le_compat_r; auto. eapply Rle_trans; [|exact QE]. rewrite <- (Rmult_1_r w) at 1. apply Rmult_le_compat_l; lra. }
    assert (W3 : w * (INR N + 1) <= u * (d i * d k)).
    { apply Rle_trans with (u * del); [|apply Rmult_le_compat_l; lra]. eapply Rle_trans; [|exact QE]. apply Rmult_le_compat_l; lra. }
    assert (W4 : u * del * (x * d i) <= u * (x * (d i * d k))).
    { rewrite Rmult_assoc. apply Rmult_le_compat_l; [lra|]. replace (x * (d i * d k)) with (d k * (x * d i)) by ring. apply Rmult_le_compat_r; lra. }
    assert (W5 : u * del * (y * d k) <= u * (y * (d i * d k))).
    { rewrite Rmult_assoc. apply Rmult_le_compat_l; [lra|]. replace (y * (d i * d k)) with (d i * (y * d k)) by ring. apply Rmult_le_compat_r; lra. }
    lra.
Qed.
Lemma L_nz : forall j, (j <= N)%nat -> done j -> forall k, (k < j)%nat -> L k k <> 0.
Proof. intros j Hj D k Hk. destruct (D k Hk) as (_ & P). unfold L. apply Rmult_integral_contrapositive_currified; [lra|]. apply Rinv_neq_0_compat. pose proof (d_pos k ltac:(lia)). lra. Qed.

Lemma step_num : forall j, (j < N)%nat -> done j -> forall i, (j <= i < N)%nat ->
  fin (chol_num O TS ld a l i j) = true /\ Rabs (val (chol_num O TS ld a l i j)) <= 3 * (d i * d j).
Proof.
  intros j Hj D i Hi. pose proof (d_pos i ltac:(lia)) as Pi. pose proof (d_pos j ltac:(lia)) as Pj. assert (PP : 0 < d i * d j) by (apply Rmult_lt_0_compat; auto).
  pose proof gam_0 as G0. pose proof eps_8 as E8. pose proof eps_1 as E1. pose proof u_8 as U8. destruct (FA i j Hi) as (Fa & Va).
  assert (RB : forall p, (j <= p < N)%nat -> Rsum j (fun k => L p k * L p k) <= 1 * 1).
  { intros p Hp. destruct (row_bound N j H L gam u eps G0 ltac:(lra) E8 E1 H_sym H_diag H_PD ltac:(lia) (done_error j ltac:(lia) D) (L_nz j ltac:(lia) D) p Hp). lra. }
  pose proof (cauchy j (fun k => L i k) (fun k => L j k) 1 1 ltac:(lra) ltac:(lra) (RB i ltac:(lia)) (RB j ltac:(lia))) as C. cbv beta in C. rewrite L_abs in C by lia.
  assert (C' : Rsum j (fun q => Rabs (val (l i q) * val (l j q))) <= d i * d j).
  { apply (Rmult_le_reg_r (/ (d i * d j))); [apply Rinv_0_lt_compat; auto|]. rewrite Rinv_r by lra. unfold Rdiv in C. lra. }
  pose proof (off_bound N H gam u eps G0 ltac:(lra) E8 H_sym H_diag H_PD i j ltac:(lia) ltac:(lia)) as O1.
  rewrite H_eq, Rabs_div in O1 by (auto; lia).
  assert (O2 : Rabs (S_ i j) <= d i * d j).
  { apply (Rmult_le_reg_r (/ (d i * d j))); [apply Rinv_0_lt_compat; auto|]. rewrite Rinv_r by lra. unfold Rdiv in O1. lra. }
  assert (W : (1 + u) ^ j * (Rabs (val (a i j)) + Rsum j (fun k => Rabs (val (l i k) * val (l j k))) + INR j * eta) <= 3 * (d i * d j)).
  { rewrite Va. assert (P1 : (1 + u) ^ j <= 9 / 8).
    { apply Rle_trans with (Q ^ (N + 4)); [|unfold gam, downs in *; lra]. eapply Rle_trans; [apply (pow_incr (1 + u) Q j); split; [lra|apply Q_1u; auto]|]. apply powQ_mono; auto. lia. }
    assert (NE : INR j * eta <= u * (d i * d j)).
    { apply Rle_trans with (u * del); [|apply Rmult_le_compat_l; [lra|apply dd_del; lia]]. eapply Rle_trans; [|exact Q_eta].
      pose proof (powQ u Hu (N + 4)) as PQ. assert (INR j <= INR N) by (apply le_INR; lia). pose proof (pos_INR j) as Pj0.
      assert (1 * eta <= Q ^ (N + 4) * eta) by (apply Rmult_le_compat_r; auto). rewrite (Rmult_comm (INR j)). apply Rmult_le_compat; lra. }
    assert (u * (d i * d j) <= / 8 * (d i * d j)) by (apply Rmult_le_compat_r; lra).
    apply Rle_trans with (9 / 8 * (17 / 8 * (d i * d j))); [|lra].
    assert (Z : 0 <= Rsum j (fun k => Rabs (val (l i k) * val (l j k)))) by (apply Rsum_nonneg; intros; apply Rabs_pos).
    pose proof (Rmult_le_pos _ _ (pos_INR j) He). pose proof (Rabs_pos (S_ i j)). apply Rmult_le_compat; try lra. apply pow_le. lra. }
  assert (W2 : 3 * (d i * d j) <= big).
  { pose proof (dd_B i j ltac:(lia) ltac:(lia)) as DB. rewrite <- eps_N in Hbig. pose proof N1 as N1. pose proof eps_pos as EP.
    assert (X : 16 * B <= eps * big) by (apply (Rmult_le_reg_l (INR N)); lra).
    assert (BP : 0 <= big) by (apply Rnot_lt_le; intros Y; assert (eps * big < 0) by (assert (eps * big < eps * 0) by (apply Rmult_lt_compat_l; lra); lra); lra).
    assert (eps * big <= 1 * big) by (apply Rmult_le_compat_r; auto). lra. }
  destruct (chol_num_finite TS ld a l i j HT) as (F & Bd); auto.
  - intros x Fx. destruct (Hld x) as (h1 & h2). rewrite h1. auto.
  - intros k Hk. destruct (D k Hk) as (F & _). split; apply F; lia.
  - lra.
  - split; auto. lra.
Qed.

Lemma step_pivot : forall j, (j < N)%nat -> done j -> eps / 2 * (d j * d j) <= val (chol_num O TS ld a l j j).
Proof.
  intros j Hj D. destruct (step_num j Hj D j ltac:(lia)) as (F & _). pose proof (d_pos j Hj) as Pj. assert (PP : 0 < d j * d j) by (apply Rmult_lt_0_compat; auto).
  pose proof gam_0 as G0. pose proof eps_8 as E8. pose proof eps_1 as E1.
  destruct (chol_num_backward O val fin u eta RA TS ld a l j j HT) as (_ & _ & E); auto.
  { intros x Fx. destruct (Hld x) as (h1 & h2). rewrite h1 in Fx. auto. }
  destruct (FA j j ltac:(lia)) as (_ & Va). rewrite Va in E. set (nu := val (chol_num O TS ld a l j j)) in *.
  assert (P : eps / 2 <= nu / (d j * d j)).
  { apply (pivot_bound N j H L gam u eps G0 ltac:(lra) E8 E1 H_sym H_diag H_PD ltac:(lia) (done_error j ltac:(lia) D) (L_nz j ltac:(lia) D)); auto.
    rewrite L_sum, L_abs by lia. rewrite Rabs_div by auto. set (sa := Rsum j (fun q => Rabs (val (l j q) * val (l j q)))) in *. set (s := Rsum j (fun q => val (l j q) * val (l j q))) in *.
    assert (Psa : 0 <= sa) by (apply Rsum_nonneg; intros; apply Rabs_pos).
    replace (1 - s / (d j * d j) - nu / (d j * d j)) with ((S_ j j - s - nu) / (d j * d j)) by (rewrite <- d_sq by auto; field; lra).
    rewrite Rabs_div by auto. apply (Rmult_le_reg_r (d j * d j)); auto. unfold Rdiv at 1. rewrite Rmult_assoc, Rinv_l, Rmult_1_r by lra. eapply Rle_trans; [exact E|].
    replace ((gam * (sa / (d j * d j) + Rabs nu / (d j * d j)) + u) * (d j * d j)) with (gam * (sa + Rabs nu) + u * (d j * d j)) by (field; lra).
    apply Rplus_le_compat.
    - apply Rmult_le_compat_r; [pose proof (Rabs_pos nu); lra|]. apply downs_mono; auto. lia.
    - apply Rle_trans with (u * del); [|apply Rmult_le_compat_l; [lra|apply dd_del; lia]]. eapply Rle_trans; [|exact Q_eta].
      pose proof (powQ_mono u Hu j (N + 4) ltac:(lia)) as QM. pose proof (powQ u Hu j) as Q0. assert (INR j <= INR N) by (apply le_INR; lia). pose proof (pos_INR j) as Pj0.
      replace (INR j * Q ^ j * eta) with (Q ^ j * eta * INR j) by ring. apply Rmult_le_compat; try lra. apply Rmult_le_pos; lra. apply Rmult_le_compat_r; lra. }
  apply (Rmult_le_compat_r (d j * d j)) in P; [|lra]. unfold Rdiv at 2 in P. rewrite Rmult_assoc, Rinv_l, Rmult_1_r in P by lra. exact P.
Qed.

Lemma step_done : forall j, (j < N)%nat -> done j -> done (S j).
Proof.
  intros j Hj D. destruct (step_num j Hj D j ltac:(lia)) as (Fs & Bs). pose proof (step_pivot j Hj D) as Ps. pose proof (d_pos j Hj) as Pj.
  assert (PP : 0 < d j * d j) by (apply Rmult_lt_0_compat; auto). pose proof eps_pos as EP. pose proof eps_1 as E1. pose proof u_8 as U8. pose proof eps_8 as E8. pose proof gam_0 as G0.
  assert (BIG : 16 * B <= eps * big) by (pose proof N1; rewrite <- eps_N in Hbig; apply (Rmult_le_reg_l (INR N)); lra).
  assert (BP : 0 <= big) by (apply Rnot_lt_le; intros Y; assert (eps * big < eps * 0) by (apply Rmult_lt_compat_l; lra); lra).
  assert (BIG1 : 16 * B <= big) by (assert (eps * big <= 1 * big) by (apply Rmult_le_compat_r; auto); lra).
  set (s := chol_num O TS ld a l j j) in *.
  assert (S0 : 0 < val s). { eapply Rlt_le_trans; [|exact Ps]. apply Rmult_lt_0_compat; lra. }
  rewrite Rabs_pos_eq in Bs by lra.
  destruct (ra_sqrt _ _ _ _ _ RA s Fs ltac:(lra)) as (Fr & Rr). set (r := osqrt O s) in *. set (q := sqrt (val s)) in *.
  assert (Q0 : 0 < q) by (apply sqrt_lt_R0; auto). assert (Q2 : q * q = val s) by (apply sqrt_sqrt; lra).
  assert (QL : eps / 2 * d j <= q).
  { apply sqr_bound; [|lra]. rewrite Q2. eapply Rle_trans; [|exact Ps]. replace (eps / 2 * d j * (eps / 2 * d j)) with (eps / 2 * (eps / 2) * (d j * d j)) by ring.
    apply Rmult_le_compat_r; [lra|]. assert (eps / 2 * (eps / 2) <= 1 * (eps / 2)) by (apply Rmult_le_compat_r; lra). lra. }
  assert (QU : q <= 2 * d j).
  { apply sqr_bound; [|lra]. rewrite Q2. lra. }
  unfold rounds in Rr. rewrite Rplus_0_r, (Rabs_pos_eq q) in Rr by lra.
  assert (Rlo : (1 - u) * q <= val r) by (pose proof (Rle_abs (- (val r - q))) as X; rewrite Rabs_Ropp in X; lra).
  assert (Rhi : val r <= (1 + u) * q) by (pose proof (Rle_abs (val r - q)); lra).
  assert (R78 : 7 / 8 * q <= val r) by (eapply Rle_trans; [|exact Rlo]; apply Rmult_le_compat_r; lra).
  assert (R98 : val r <= 9 / 8 * q) by (eapply Rle_trans; [exact Rhi|]; apply Rmult_le_compat_r; lra).
  assert (R0 : 0 < val r) by lra.
  (* the diagonal element *)
  assert (Ejj : l j j = odiv O s r).
  { pose proof (HE j j ltac:(lia)) as X. apply chol_elem_cases in X; auto. destruct X as [X|[X _]]; [auto|lia]. }
  assert (T1 : 8 / 9 * q <= val s / val r <= 8 / 7 * q).
  { assert (SR : val s / val r * val r = q * q) by (rewrite Q2; field; lra). split; apply (Rmult_le_reg_r (val r)); auto; rewrite SR.
    - apply Rle_trans with (8 / 9 * q * (9 / 8 * q)); [apply Rmult_le_compat_l; lra|lra].
    - apply Rle_trans with (8 / 7 * q * (7 / 8 * q)); [lra|apply Rmult_le_compat_l; lra]. }
  pose proof (d_B j Hj) as DB.
  assert (Fjj : fin (l j j) = true).
  { rewrite Ejj. apply (rg_div _ _ _ _ RG); auto; [lra|]. rewrite Rabs_pos_eq by lra. lra. }
  assert (Ljj : q / 2 <= val (l j j)).
  { rewrite Ejj in Fjj. destruct (ra_div _ _ _ _ _ RA _ _ Fjj) as (_ & X). destruct (X Fr) as (_ & Rd). rewrite <- Ejj in Rd. unfold rounds in Rd.
    rewrite (Rabs_pos_eq (val s / val r)) in Rd by lra. pose proof (Rle_abs (- (val (l j j) - val s / val r))) as Y. rewrite Rabs_Ropp in Y.
    pose proof eta_u as EU. assert (u * del <= eps / 8 * d j) by (apply Rmult_le_compat; try lra; apply d_del; auto).
    assert (u * (val s / val r) <= / 8 * (8 / 7 * q)) by (apply Rmult_le_compat; lra). lra. }
  intros k Hk. destruct (Nat.eq_dec k j) as [->|Nk]; [|apply D; lia]. split; [|lra].
  intros i Hi. destruct (step_num j Hj D i Hi) as (Fi & Bi). pose proof (HE i j Hi) as X. apply chol_elem_cases in X; auto. fold s r in X.
  pose proof (d_pos i ltac:(lia)) as Pi. pose proof (d_B i ltac:(lia)) as DBi. set (t := chol_num O TS ld a l i j) in *.
  assert (DV : forall y, q / 2 <= y -> Rabs (val t / y) <= big).
  { intros y Hy. assert (Y0 : 0 < y) by lra. rewrite Rabs_div by auto. apply (Rmult_le_reg_r y); auto. unfold Rdiv. rewrite Rmult_assoc, Rinv_l, Rmult_1_r by lra.
    apply Rle_trans with (big * (eps / 4 * d j)); [|apply Rmult_le_compat_l; lra]. eapply Rle_trans; [exact Bi|].
    assert (16 * B * d j <= eps * big * d j) by (apply Rmult_le_compat_r; lra). assert (d i * d j <= B * d j) by (apply Rmult_le_compat_r; lra).
    assert (0 < d i * d j) by (apply Rmult_lt_0_compat; auto). lra. }
  destruct X as [-> | [_ ->]]; apply (rg_div _ _ _ _ RG); auto; try lra; apply DV; lra.
Qed.
Lemma all_done : done N.
Proof.
  assert (G : forall j, (j <= N)%nat -> done j). { induction j as [|j IH]; intros Hj; [intros k Hk; lia|]. apply step_done; [lia|apply IH; lia]. }
  apply G. lia.
Qed.

Lemma chol_complete : forall i j, (j <= i < N)%nat ->
  fin (l i j) = true /\ 0 < val (l j j) /\
  Rabs (S_ i j - Rsum (S j) (fun k => val (l i k) * val (l j k))) <= 4 * downs u (N + 5) * (sqrt (S_ i i) * sqrt (S_ j j)) /\
  Rsum (S i) (fun k => val (l i k) * val (l i k)) <= 25 / 16 * S_ i i.
Proof.
  intros i j Hi. pose proof all_done as D. destruct (D j ltac:(lia)) as (F & P). split; [apply F; auto|]. split; auto.
  pose proof (done_error N (le_n N) D i j ltac:(lia) Hi) as E. pose proof (d_pos i ltac:(lia)) as Pi. pose proof (d_pos j ltac:(lia)) as Pj.
  assert (PP : 0 < d i * d j) by (apply Rmult_lt_0_compat; auto). pose proof gam_0 as G0. pose proof eps_8 as E8. pose proof eps_1 as E1. pose proof gam_u as GU.
  pose proof (diag_sum N N H L gam u eps G0 ltac:(lra) E8 E1 H_diag (le_n N) (done_error N (le_n N) D)) as DS.
  pose proof (DS i ltac:(lia)) as Di. pose proof (DS j ltac:(lia)) as Dj.
  assert (Di' : Rsum (S j) (fun k => L i k * L i k) <= 5 / 4 * (5 / 4)).
  { eapply Rle_trans; [|exact Di]. apply (Rsum_prefix (S j) (S i) (fun k => L i k * L i k)); [intros; apply Rle_0_sqr|lia]. }
  split.
  2: { rewrite L_sum in Di by lia. rewrite d_sq in Di by lia. destruct (HSd i ltac:(lia)) as [Sd _].
       apply (Rmult_le_compat_r (S_ i i)) in Di; [|lra]. unfold Rdiv at 1 in Di. rewrite Rmult_assoc, Rinv_l, Rmult_1_r in Di by lra. lra. }
  pose proof (cauchy (S j) (fun k => L i k) (fun k => L j k) (5 / 4) (5 / 4) ltac:(lra) ltac:(lra) Di' Dj) as C. cbv beta in C.
  pose proof (term_abs (S i) (fun k => L i k) j (5 / 4) ltac:(lra) Di ltac:(lia)) as T1. pose proof (term_abs (S j) (fun k => L j k) j (5 / 4) ltac:(lra) Dj ltac:(lia)) as T2.
  cbv beta in T1, T2.
  assert (X1 : gam * Rsum (S j) (fun k => Rabs (L i k * L j k)) <= gam * (5 / 4 * (5 / 4))) by (apply Rmult_le_compat_l; auto).
  assert (X2 : u * (1 + Rabs (L i j) + Rabs (L j j)) <= u * (7 / 2)) by (apply Rmult_le_compat_l; lra).
  rewrite H_eq, L_sum in E by lia. set (s := Rsum (S j) (fun q => val (l i q) * val (l j q))) in *.
  replace (S_ i j / (d i * d j) - s / (d i * d j)) with ((S_ i j - s) / (d i * d j)) in E by (field; lra). rewrite Rabs_div in E by auto.
  change (sqrt (S_ i i) * sqrt (S_ j j)) with (d i * d j).
  assert (Y : Rabs (S_ i j - s) / (d i * d j) <= 4 * downs u (N + 5)) by lra.
  apply (Rmult_le_compat_r (d i * d j)) in Y; [|lra]. unfold Rdiv in Y. rewrite Rmult_assoc, Rinv_l, Rmult_1_r in Y by lra. exact Y.
Qed.
End Complete.
End Fin.
