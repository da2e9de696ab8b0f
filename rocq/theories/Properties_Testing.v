(** Properties_Testing.v -- C57: what the approximate and exact comparisons of the test suite guarantee. *)
From Coq Require Import Arith ZArith Reals Lra Lia List Bool.
From Coq Require Import Floats.SpecFloat.
From Flocq Require Import Core BinarySingleNaN.
From Verif Require Import Base Base_Proofs Testing_Model Round_Spec Float_Proofs.
Import ListNotations.

(** Every element before (i, j) in row-by-row order. *)
Definition earlier (N i j i' j' : nat) : Prop := (i' < i /\ j' < N)%nat \/ (i' = i /\ j' < j)%nat.

Lemma first_none : forall A (t : nat -> option A) n lo, first_of (seq lo n) t = None <-> forall i, (lo <= i < lo + n)%nat -> t i = None.
Proof.
  intros A t. induction n; intros lo; cbn [seq first_of].
  - split; auto. intros _ i H. lia.
  - destruct (t lo) eqn:E.
    + split; [discriminate|]. intros H. rewrite H in E by lia. discriminate.
    + rewrite IHn. split; intros H i Hi; [destruct (Nat.eq_dec i lo) as [->|]; auto; apply H; lia|apply H; lia].
Qed.
Lemma first_some : forall A (t : nat -> option A) a n lo, first_of (seq lo n) t = Some a ->
  exists i, (lo <= i < lo + n)%nat /\ t i = Some a /\ forall k, (lo <= k < i)%nat -> t k = None.
Proof.
  intros A t a. induction n; intros lo E; cbn [seq first_of] in E; [discriminate|]. destruct (t lo) eqn:F.
  - injection E as <-. exists lo. split; [lia|]. split; [exact F|]. intros k Hk. lia.
  - destruct (IHn (S lo) E) as (i & Hi & Ht & Hk). exists i. split; [lia|]. split; auto. intros k H. destruct (Nat.eq_dec k lo) as [->|]; auto. apply Hk. lia.
Qed.
Lemma scan2_success : forall M N bad, scan2 M N bad = Success <-> forall i j, (i < M)%nat -> (j < N)%nat -> bad i j = false.
Proof.
  intros M N bad. unfold scan2. destruct (first_of (seq 0 M) _) as [[i j]|] eqn:E.
  - split; [discriminate|]. intros H. apply first_some in E. destruct E as (i' & Hi & E & _). apply first_some in E. destruct E as (j' & Hj & E & _).
    rewrite H in E by lia. discriminate.
  - split; auto. intros _ i j Hi Hj. rewrite first_none in E. specialize (E i ltac:(lia)). rewrite first_none in E. specialize (E j ltac:(lia)). destruct (bad i j); auto; discriminate.
Qed.
Lemma scan2_mismatch : forall M N bad i j, scan2 M N bad = Mismatch i j ->
  (i < M)%nat /\ (j < N)%nat /\ bad i j = true /\ forall i' j', earlier N i j i' j' -> bad i' j' = false.
Proof.
  intros M N bad i j. unfold scan2. destruct (first_of (seq 0 M) _) as [[i0 j0]|] eqn:E; [|discriminate]. intros H. injection H as -> ->.
  apply first_some in E. destruct E as (i' & Hi & E & K1). apply first_some in E. destruct E as (j' & Hj & E & K2).
  destruct (bad i' j') eqn:B; [|discriminate]. injection E as -> ->. split; [lia|]. split; [lia|]. split; auto.
  intros i' j' [[H1 H2]|[-> H2]].
  - specialize (K1 i' ltac:(lia)). rewrite first_none in K1. specialize (K1 j' ltac:(lia)). destruct (bad i' j'); auto; discriminate.
  - specialize (K2 j' ltac:(lia)). destruct (bad i j'); auto; discriminate.
Qed.
Lemma scan1_success : forall N bad, scan1 N bad = Success <-> forall j, (j < N)%nat -> bad j = false.
Proof.
  intros N bad. unfold scan1. destruct (first_of (seq 0 N) _) as [j|] eqn:E.
  - split; [discriminate|]. intros H. apply first_some in E. destruct E as (j' & Hj & E & _). rewrite H in E by lia. discriminate.
  - split; auto. intros _ j Hj. rewrite first_none in E. specialize (E j ltac:(lia)). destruct (bad j); auto; discriminate.
Qed.

Lemma scan1_mismatch : forall N bad j z, scan1 N bad = Mismatch j z ->
  z = 0%nat /\ (j < N)%nat /\ bad j = true /\ forall j', (j' < j)%nat -> bad j' = false.
Proof.
  intros N bad j z. unfold scan1. destruct (first_of (seq 0 N) _) as [j0|] eqn:E; [|discriminate]. intros H. injection H as -> <-.
  apply first_some in E. destruct E as (j' & Hj & E & K). destruct (bad j') eqn:B; [|discriminate]. injection E as ->. repeat split; auto; [lia|].
  intros j' H. specialize (K j' ltac:(lia)). destruct (bad j'); auto; discriminate.
Qed.

(** ** In any arithmetic *)
(** The matrix comparison succeeds exactly if the sizes agree and for all elements both or none are NaN and the difference is not
    larger than the tolerance. *)
Theorem C57_matrix : forall T (O : Ops T) lhs rhs atol rtol,
  approx_matrix O lhs rhs atol rtol = Success <->
  t_rows rhs = t_rows lhs /\ t_cols rhs = t_cols lhs /\
  forall i j, (i < t_rows lhs)%nat -> (j < t_cols lhs)%nat -> let a := t_at lhs i j in let b := t_at rhs i j in
    (oeqb O a a = oeqb O b b) /\ oltb O (oadd O atol (omul O rtol (oabs O b))) (oabs O (osub O a b)) = false.
Proof.
  intros T O lhs rhs atol rtol. unfold approx_matrix.
  destruct (Nat.eqb_spec (t_rows rhs) (t_rows lhs)), (Nat.eqb_spec (t_cols rhs) (t_cols lhs)); cbn [negb orb];
    try (split; [discriminate|intros (? & ? & _); contradiction]).
  rewrite scan2_success. split.
  - intros H. split; [auto|split; [auto|]]. intros i j Hi Hj. specialize (H i j Hi Hj). cbv zeta in H. apply orb_false_elim in H. destruct H as [H1 H2]. split; auto.
    unfold isnan in H1. destruct (oeqb O _ _), (oeqb O _ _); auto; discriminate.
  - intros (_ & _ & H) i j Hi Hj. destruct (H i j Hi Hj) as [H1 H2]. cbv zeta. unfold isnan, gt. rewrite H1, H2. destruct (oeqb O (t_at rhs i j) (t_at rhs i j)); reflexivity.
Qed.
(** A reported position is the first failing one. *)
Theorem C57_matrix_first : forall T (O : Ops T) lhs rhs atol rtol i j, approx_matrix O lhs rhs atol rtol = Mismatch i j ->
  let good := fun i j => let a := t_at lhs i j in let b := t_at rhs i j in
    (oeqb O a a = oeqb O b b) /\ oltb O (oadd O atol (omul O rtol (oabs O b))) (oabs O (osub O a b)) = false in
  (i < t_rows lhs)%nat /\ (j < t_cols lhs)%nat /\ ~ good i j /\ forall i' j', earlier (t_cols lhs) i j i' j' -> good i' j'.
Proof.
  intros T O lhs rhs atol rtol i j. unfold approx_matrix. destruct (negb _ || negb _); [discriminate|]. intros H. apply scan2_mismatch in H.
  destruct H as (Hi & Hj & B & K). cbv zeta in *. repeat split; auto.
  - intros [H1 H2]. unfold isnan, gt in B. rewrite H1, H2 in B. destruct (oeqb O (t_at rhs i j) (t_at rhs i j)); discriminate.
  - specialize (K _ _ H). apply orb_false_elim in K. destruct K as [K1 K2]. unfold isnan in K1. destruct (oeqb O _ _), (oeqb O _ _); auto; discriminate.
  - specialize (K _ _ H). apply orb_false_elim in K. tauto.
Qed.
(** The same for the vector comparisons: they report one index. *)
Theorem C57_vector_first : forall T (O : Ops T) lhs rhs tols atol rtol j z,
  (approx_vector O lhs rhs atol rtol = Mismatch j z ->
    z = 0%nat /\ (j < t_size lhs)%nat /\
    let good := fun j => oltb O (oadd O atol (omul O rtol (oabs O (t_el rhs j)))) (oabs O (osub O (t_el lhs j) (t_el rhs j))) = false in
    ~ good j /\ forall j', (j' < j)%nat -> good j') /\
  (approx_vector_each O lhs rhs tols = Mismatch j z ->
    z = 0%nat /\ (j < t_size tols)%nat /\
    let good := fun j => oltb O (t_el tols j) (oabs O (osub O (t_el lhs j) (t_el rhs j))) = false in ~ good j /\ forall j', (j' < j)%nat -> good j') /\
  (exact_vector O lhs rhs = Mismatch j z ->
    z = 0%nat /\ (j < t_size lhs)%nat /\
    let good := fun j => oeqb O (t_el lhs j) (t_el rhs j) = true in ~ good j /\ forall j', (j' < j)%nat -> good j').
Proof.
  intros T O lhs rhs tols atol rtol j z. unfold approx_vector, approx_vector_each, exact_vector. split; [|split].
  - destruct (negb _); [discriminate|]. intros H. apply scan1_mismatch in H. destruct H as (Z0 & Hj & B & K). unfold gt in *. cbv zeta.
    repeat split; auto. rewrite B. discriminate.
  - destruct (negb _ || negb _); [discriminate|]. intros H. apply scan1_mismatch in H. destruct H as (Z0 & Hj & B & K). unfold gt in *. cbv zeta.
    repeat split; auto. rewrite B. discriminate.
  - destruct (negb _); [discriminate|]. intros H. apply scan1_mismatch in H. destruct H as (Z0 & Hj & B & K). cbv zeta.
    repeat split; auto.
    + intros G. rewrite G in B. discriminate.
    + intros j' Hj'. specialize (K j' Hj'). apply negb_false_iff in K. exact K.
Qed.
Theorem C57_size_mismatch : forall T (O : Ops T) lhs rhs atol rtol, t_rows rhs <> t_rows lhs \/ t_cols rhs <> t_cols lhs ->
  approx_matrix O lhs rhs atol rtol = SizeMismatch /\ exact_matrix O lhs rhs = SizeMismatch.
Proof.
  intros T O lhs rhs atol rtol H. unfold approx_matrix, exact_matrix.
  destruct (Nat.eqb_spec (t_rows rhs) (t_rows lhs)), (Nat.eqb_spec (t_cols rhs) (t_cols lhs)); cbn [negb orb]; auto. destruct H; contradiction.
Qed.
(** exactEqual: sizes and all elements are equal (==). *)
Theorem C57_exact : forall T (O : Ops T) lhs rhs, exact_matrix O lhs rhs = Success <->
  t_rows rhs = t_rows lhs /\ t_cols rhs = t_cols lhs /\ forall i j, (i < t_rows lhs)%nat -> (j < t_cols lhs)%nat -> oeqb O (t_at lhs i j) (t_at rhs i j) = true.
Proof.
  intros T O lhs rhs. unfold exact_matrix.
  destruct (Nat.eqb_spec (t_rows rhs) (t_rows lhs)), (Nat.eqb_spec (t_cols rhs) (t_cols lhs)); cbn [negb orb];
    try (split; [discriminate|intros (? & ? & _); contradiction]).
  rewrite scan2_success. split.
  - intros H. split; [auto|split; [auto|]]. intros i j Hi Hj. specialize (H i j Hi Hj). apply negb_false_iff in H. auto.
  - intros (_ & _ & H) i j Hi Hj. rewrite H; auto.
Qed.
Theorem C57_exact_vector : forall T (O : Ops T) lhs rhs, exact_vector O lhs rhs = Success <->
  t_size rhs = t_size lhs /\ forall j, (j < t_size lhs)%nat -> oeqb O (t_el lhs j) (t_el rhs j) = true.
Proof.
  intros T O lhs rhs. unfold exact_vector. destruct (Nat.eqb_spec (t_size rhs) (t_size lhs)); cbn [negb]; [|split; [discriminate|intros (? & _); contradiction]].
  rewrite scan1_success. split; [intros H; split; auto; intros j Hj; specialize (H j Hj); apply negb_false_iff in H; auto|intros (_ & H) j Hj; rewrite H; auto].
Qed.
(** The vector comparison is the scalar one for each element. *)
Theorem C57_vector : forall T (O : Ops T) lhs rhs atol rtol, approx_vector O lhs rhs atol rtol = Success <->
  t_size rhs = t_size lhs /\ forall j, (j < t_size lhs)%nat -> approx_scalar O (t_el lhs j) (t_el rhs j) atol rtol = true.
Proof.
  intros T O lhs rhs atol rtol. unfold approx_vector, approx_scalar. destruct (Nat.eqb_spec (t_size rhs) (t_size lhs)); cbn [negb]; [|split; [discriminate|intros (? & _); contradiction]].
  rewrite scan1_success. split; [intros H; split; auto; intros j Hj; rewrite (H j Hj); auto|]. intros (_ & H) j Hj. specialize (H j Hj). apply negb_true_iff in H. exact H.
Qed.
Theorem C57_vector_each : forall T (O : Ops T) lhs rhs atol, approx_vector_each O lhs rhs atol = Success <->
  t_size lhs = t_size atol /\ t_size rhs = t_size atol /\
  forall j, (j < t_size atol)%nat -> oltb O (t_el atol j) (oabs O (osub O (t_el lhs j) (t_el rhs j))) = false.
Proof.
  intros T O lhs rhs atol. unfold approx_vector_each. destruct (Nat.eqb_spec (t_size lhs) (t_size atol)), (Nat.eqb_spec (t_size rhs) (t_size atol)); cbn [negb orb];
    try (split; [discriminate|intros (? & ? & _); contradiction]).
  rewrite scan1_success. split; [intros H; repeat split; auto|]. intros (_ & _ & H). exact H.
Qed.

(** ** In IEEE arithmetic *)
Section IEEE.
Variables prec emax : Z.
Context (Hp : Prec_gt_0 prec) (Hm : Prec_lt_emax prec emax).
Notation bf := (binary_float prec emax).
Notation O := (fops prec emax Hp Hm).
Notation u := (f_u prec).
Notation eta := (f_eta prec emax).
Local Open Scope R_scope.

Lemma minus_finite : forall a b t : bf, is_finite a = true -> is_finite b = true -> is_finite t = true ->
  oltb O t (oabs O (osub O a b)) = false -> is_finite (osub O a b) = true.
Proof.
  intros a b t Fa Fb Ft L. cbn [osub oabs oltb fops] in *.
  pose proof (Bminus_correct prec emax Hp Hm mode_NE a b Fa Fb) as C. destruct (Rlt_bool _ _); [tauto|].
  destruct C as [C _]. exfalso. destruct (Bminus mode_NE a b) as [s|s| |s mm ee ?]; cbn in C; try discriminate.
  unfold Bltb, SFltb in L. destruct t as [st|st| |st mt et ?]; cbn in *; try discriminate; try (destruct st; discriminate).
Qed.
(** For finite operands and a finite tolerance the accepted actual values are those whose distance from the expected one is at most
    the (computed) tolerance, up to one rounding. *)
Theorem C57_scalar_accepts : forall a b atol rtol : bf, let t := oadd O atol (omul O rtol (oabs O b)) in
  is_finite a = true -> is_finite b = true -> is_finite t = true -> approx_scalar O a b atol rtol = true ->
  Rabs (B2R a - B2R b) * (1 - u) <= B2R t + eta.
Proof.
  intros a b atol rtol t Fa Fb Ft H. unfold approx_scalar, gt in H. fold t in H. apply negb_true_iff in H.
  pose proof (fops_rounded prec emax Hp Hm) as RA. pose proof (minus_finite a b t Fa Fb Ft H) as Fd.
  destruct (ra_sub _ _ _ _ _ RA a b Fd) as (_ & _ & E). unfold rounds in E.
  destruct (ra_abs _ _ _ _ _ RA (osub O a b)) as [FA VA].
  assert (L : Rabs (B2R (osub O a b)) <= B2R t).
  { apply Rnot_lt_le. intros X. assert (oltb O t (oabs O (osub O a b)) = true).
    { apply (ra_ltb _ _ _ _ _ RA); auto; [rewrite FA; auto|]. rewrite VA; auto. }
    rewrite H in H0. discriminate. }
  pose proof (Rabs_triang_inv (B2R a - B2R b) (B2R (osub O a b))) as T1.
  rewrite (Rabs_minus_sym (B2R a - B2R b)) in T1. lra.
Qed.
Theorem C57_scalar_rejects : forall a b atol rtol : bf, let t := oadd O atol (omul O rtol (oabs O b)) in
  is_finite a = true -> is_finite b = true -> is_finite t = true -> approx_scalar O a b atol rtol = false ->
  is_finite (osub O a b) = false \/ B2R t < Rabs (B2R a - B2R b) * (1 + u) + eta.
Proof.
  intros a b atol rtol t Fa Fb Ft H. unfold approx_scalar, gt in H. fold t in H. apply negb_false_iff in H.
  destruct (is_finite (osub O a b)) eqn:Fd; [right|auto].
  pose proof (fops_rounded prec emax Hp Hm) as RA. destruct (ra_sub _ _ _ _ _ RA a b Fd) as (_ & _ & E). unfold rounds in E.
  destruct (ra_abs _ _ _ _ _ RA (osub O a b)) as [FA VA].
  apply (ra_ltb _ _ _ _ _ RA) in H; auto; [|rewrite FA; auto]. rewrite VA in H by auto.
  pose proof (Rabs_triang_inv (B2R (osub O a b)) (B2R a - B2R b)) as T1. lra.
Qed.
(** For non-negative finite tolerances the computed tolerance is atol + rtol * |b| up to two roundings. *)
Theorem C57_tolerance : forall b atol rtol : bf, let t := oadd O atol (omul O rtol (oabs O b)) in
  is_finite t = true -> is_finite b = true -> 0 <= B2R atol -> 0 <= B2R rtol ->
  B2R t <= (B2R atol + (B2R rtol * Rabs (B2R b) * (1 + u) + eta)) * (1 + u) + eta.
Proof.
  intros b atol rtol t Ft Fb Pa Pr. pose proof (fops_rounded prec emax Hp Hm) as RA.
  destruct (ra_add _ _ _ _ _ RA _ _ Ft) as (Fa & Fm & E1). destruct (ra_mul _ _ _ _ _ RA _ _ Fm) as (_ & _ & E2).
  fold t in E1. rewrite (proj2 (ra_abs _ _ _ _ _ RA b) Fb) in E2. pose proof (ra_u _ _ _ _ _ RA) as Hu. pose proof (ra_eta _ _ _ _ _ RA) as He.
  unfold rounds in *. set (p := B2R (omul O rtol (oabs O b))) in *. set (q := B2R rtol * Rabs (B2R b)) in *.
  assert (0 <= q) by (apply Rmult_le_pos; auto; apply Rabs_pos). rewrite (Rabs_pos_eq q) in E2 by auto.
  assert (P : p <= q * (1 + u) + eta) by (pose proof (Rle_abs (p - q)); lra).
  assert (P' : Rabs p <= q * (1 + u) + eta).
  { pose proof (Rabs_triang_inv p q). rewrite (Rabs_pos_eq q) in H0 by auto. lra. }
  assert (Q : Rabs (B2R atol + p) <= B2R atol + (q * (1 + u) + eta)).
  { eapply Rle_trans; [apply Rabs_triang|]. rewrite (Rabs_pos_eq (B2R atol)) by auto. lra. }
  pose proof (Rle_abs (B2R t - (B2R atol + p))). assert (Rabs (B2R atol + p) * u <= (B2R atol + (q * (1 + u) + eta)) * u) by (apply Rmult_le_compat_r; lra).
  lra.
Qed.

Lemma sign_finite_nonneg : forall x : bf, is_finite x = true -> is_nan x = false. Proof. destruct x; auto; discriminate. Qed.
(** An infinite expected value accepts every number. *)
Theorem C57_infinity_refuted : forall a b atol rtol : bf, is_nan a = false -> is_finite b = false -> is_nan b = false ->
  is_finite atol = true -> is_finite rtol = true -> 0 <= B2R rtol -> 
  approx_scalar O a b atol rtol = true /\
  forall lhs rhs, t_rows lhs = 1%nat -> t_rows rhs = 1%nat -> t_cols lhs = 1%nat -> t_cols rhs = 1%nat ->
    t_at lhs 0 0 = a -> t_at rhs 0 0 = b -> approx_matrix O lhs rhs atol rtol = Success.
Proof.
  intros a b atol rtol Na Nf Nb Fat Frt Pr.
  assert (K : oltb O (oadd O atol (omul O rtol (oabs O b))) (oabs O (osub O a b)) = false).
  { destruct b as [sb|sb| |sb mb eb ?]; try discriminate. cbn [oltb oadd omul oabs osub fops Babs].
    destruct rtol as [sr|sr| |[|] mr er ?]; try discriminate.
    - (* zero times infinity *) destruct atol as [sa|sa| |sa ma ea ?]; try discriminate; unfold Bltb, SFltb; cbn; reflexivity.
    - exfalso. cbn in Pr. assert (F2R (Float radix2 (Z.neg mr) er) < 0) by (apply F2R_lt_0; reflexivity). cbn in H. lra.
    - destruct a as [sx|sx| |sx mx ex ?]; try discriminate; destruct atol as [sa|sa| |sa ma ea ?]; try discriminate;
        unfold Bltb, SFltb; cbn; try reflexivity; destruct sx, sb; reflexivity. }
  split; [unfold approx_scalar, gt; rewrite K; reflexivity|].
  intros lhs rhs R1 R2 R3 R4 Ea Eb. apply C57_matrix. rewrite R1, R2, R3, R4. split; [auto|split; [auto|]]. intros i j Hi Hj.
  replace i with 0%nat by lia. replace j with 0%nat by lia. cbv zeta. rewrite Ea, Eb. split; auto.
  cbn [oeqb fops]. unfold Beqb, SFeqb. destruct b as [sb|sb| |sb mb eb ?]; try discriminate. destruct a as [sx|sx| |sx mx ex ?]; try discriminate; cbn;
    repeat (match goal with |- context [if ?s then _ else _] => destruct s end); rewrite ?Z.compare_refl, ?Pos.compare_cont_refl; reflexivity.
Qed.
(** Unlike the matrix version the scalar and vector versions accept NaN. *)
Theorem C57_nan_refuted : forall a b atol rtol : bf, is_nan a = true \/ is_nan b = true -> approx_scalar O a b atol rtol = true.
Proof.
  intros a b atol rtol H. unfold approx_scalar, gt. apply negb_true_iff. cbn [oltb osub oabs fops].
  assert (E : Bminus mode_NE a b = B754_nan).
  { destruct H as [H|H]; [destruct a as [sx|sx| |sx mx ex ?]; try discriminate; reflexivity|destruct b as [sx|sx| |sx mx ex ?]; try discriminate; destruct a; reflexivity]. }
  rewrite E. unfold Bltb, SFltb. cbn. destruct (B2SF _) as [| [|] | |[|]]; reflexivity.
Qed.
End IEEE.

(** Examples in binary64 with tolerances 1e-11 (test/Tolerance.hpp:18-29): 1/3 + 1/3 + 1/3 against 1; 1 + 1e-9 against 1; infinity. *)
Definition z64 (z : Z) : b64 := binary_normalize 53 1024 eq_refl eq_refl mode_NE z 0 false.
Definition tol64 : b64 := odiv b64ops (z64 1) (z64 100000000000).
Definition third : b64 := odiv b64ops (z64 1) (z64 3).
Definition near1 : b64 := oadd b64ops (oadd b64ops third third) third.
Definition far1 : b64 := oadd b64ops (z64 1) (odiv b64ops (z64 1) (z64 1000000000)).
Definition inf64 : b64 := odiv b64ops (z64 1) (z64 0).
Definition one_by_two (a b : b64) : tmat := TMat 1 2 (fun _ j => if (j =? 0)%nat then a else b).
Example C57_ex_hyp : is_finite near1 = true /\ is_finite (z64 1) = true /\ is_finite (oadd b64ops tol64 (omul b64ops tol64 (oabs b64ops (z64 1)))) = true /\
  approx_scalar b64ops near1 (z64 1) tol64 tol64 = true /\ approx_scalar b64ops far1 (z64 1) tol64 tol64 = false /\ is_finite tol64 = true /\
  is_finite inf64 = false /\ is_nan inf64 = false.
Proof. vm_compute. repeat split. Qed.
Example C57_ex : approx_matrix b64ops (one_by_two near1 near1) (one_by_two (z64 1) (z64 1)) tol64 tol64 = Success /\
  approx_matrix b64ops (one_by_two near1 far1) (one_by_two (z64 1) (z64 1)) tol64 tol64 = Mismatch 0 1 /\
  approx_matrix b64ops (one_by_two near1 far1) (one_by_two (z64 1) inf64) tol64 tol64 = Success /\
  approx_matrix b64ops (one_by_two near1 B754_nan) (one_by_two (z64 1) inf64) tol64 tol64 = Mismatch 0 1.
Proof. vm_compute. repeat split. Qed.
