(** Float_Proofs.v -- IEEE 754 binary floating-point arithmetic, rounding to nearest even (Flocq's BinarySingleNaN), as scalar operations
    of the model, and the proof that it is a [rounded] arithmetic.  binary64 is C++'s double and binary32 its float on the
    supported targets; all NaNs are identified. *)
From Coq Require Import ZArith Reals Lra Lia Bool Psatz.
From Flocq Require Import Core BinarySingleNaN Relative.
From Verif Require Import Base Round_Spec.
Local Open Scope R_scope.

Section Format.
Variables prec emax : Z.
Context (Hp : Prec_gt_0 prec) (Hm : Prec_lt_emax prec emax).
Notation bf := (binary_float prec emax).
Notation emin := (3 - emax - prec)%Z.
Notation fexp := (FLT_exp emin prec).

Definition fops : Ops bf :=
  mkOps bf (B754_zero false) Bone (Bopp Bone) (Bplus mode_NE) (Bminus mode_NE) (Bmult mode_NE) (Bdiv mode_NE)
    (Bfma mode_NE) (fun a b c => Bfma mode_NE (Bopp a) b c) (Bsqrt mode_NE) Babs Bltb Beqb.

(** unit roundoff 2^-prec and half of the smallest subnormal number *)
Definition f_u : R := bpow radix2 (- prec).
Definition f_eta : R := / 2 * bpow radix2 emin.

Notation rnd := (round radix2 fexp ZnearestE).

Lemma f_u_half : / 2 * bpow radix2 (- prec + 1) = f_u.
Proof. unfold f_u. rewrite bpow_plus. simpl (bpow radix2 1). rewrite IZR_Zpower_pos. simpl. field. Qed.
Lemma rnd_rounds : forall x, rounds f_u f_eta (rnd x) x.
Proof.
  intros x. destruct (error_N_FLT radix2 emin prec Hp (fun z => negb (Z.even z)) x) as (e & h & He & Hh & _ & E).
  change (Znearest (fun z => negb (Z.even z))) with ZnearestE in E. rewrite E. rewrite f_u_half in He. unfold rounds.
  replace (x * (1 + e) + h - x) with (x * e + h) by ring. eapply Rle_trans; [apply Rabs_triang|]. rewrite Rabs_mult.
  unfold f_eta. apply Rplus_le_compat; auto. rewrite Rmult_comm. apply Rmult_le_compat_r; auto. apply Rabs_pos.
Qed.
Lemma overflow_not_finite : forall (x : bf) s, B2SF x = binary_overflow prec emax mode_NE s -> is_finite x = false.
Proof. intros x s H. destruct x; cbn in *; auto; discriminate. Qed.
Lemma format_val : forall x : bf, generic_format radix2 fexp (B2R x).
Proof. intros. apply generic_format_B2R. Qed.
Lemma rnd_val : forall x : bf, rnd (B2R x) = B2R x.
Proof. intros. apply round_generic; [apply valid_rnd_N|apply format_val]. Qed.
Lemma rnd_opp : forall x : bf, rnd (- B2R x) = - B2R x.
Proof. intros. rewrite <- B2R_Bopp. apply rnd_val. Qed.

(** One operation: its result is the rounded exact value if it does not overflow, and not finite otherwise. *)
Lemma op_rounds : forall (r : bf) (x : R) s, is_finite r = true ->
  (if Rlt_bool (Rabs (round radix2 (SpecFloat.fexp prec emax) (round_mode mode_NE) x)) (bpow radix2 emax) then B2R r = round radix2 (SpecFloat.fexp prec emax) (round_mode mode_NE) x else B2SF r = binary_overflow prec emax mode_NE s) ->
  rounds f_u f_eta (B2R r) x.
Proof.
  intros r x s F H. destruct (Rlt_bool _ _).
  - rewrite H. apply rnd_rounds.
  - apply overflow_not_finite in H. congruence.
Qed.

Lemma plus_fin : forall x y : bf, is_finite (Bplus mode_NE x y) = true -> is_finite x = true /\ is_finite y = true.
Proof. intros [sx|sx| |sx mx ex Bx] [sy|sy| |sy my ey By] H; cbn in H; auto; try discriminate; destruct sx, sy; cbn in H; discriminate. Qed.
Lemma minus_fin : forall x y : bf, is_finite (Bminus mode_NE x y) = true -> is_finite x = true /\ is_finite y = true.
Proof. intros [sx|sx| |sx mx ex Bx] [sy|sy| |sy my ey By] H; cbn in H; auto; try discriminate; destruct sx, sy; cbn in H; discriminate. Qed.
Lemma mult_fin : forall x y : bf, is_finite (Bmult mode_NE x y) = true -> is_finite x = true /\ is_finite y = true.
Proof. intros [sx|sx| |sx mx ex Bx] [sy|sy| |sy my ey By] H; cbn in H; auto; try discriminate; destruct sx, sy; cbn in H; discriminate. Qed.
Lemma div_fin : forall x y : bf, is_finite (Bdiv mode_NE x y) = true -> is_finite x = true /\ (is_finite y = true -> B2R y <> 0).
Proof.
  intros [sx|sx| |sx mx ex Bx] [sy|sy| |sy my ey By] H; cbn in H; auto; try discriminate; (split; [reflexivity|]); intros K; try discriminate K;
    cbn; intros Q; apply eq_0_F2R in Q; destruct sy; discriminate.
Qed.
Lemma fma_fin : forall x y z : bf, is_finite (Bfma mode_NE x y z) = true -> is_finite x = true /\ is_finite y = true /\ is_finite z = true.
Proof.
  intros [sx|sx| |sx mx ex Bx] [sy|sy| |sy my ey By] [sz|sz| |sz mz ez Bz] H; cbn in H; auto; try discriminate;
    repeat match goal with s : bool |- _ => destruct s end; cbn in H; discriminate.
Qed.

Lemma plus_rounds : forall x y : bf, is_finite (Bplus mode_NE x y) = true -> rounds f_u f_eta (B2R (Bplus mode_NE x y)) (B2R x + B2R y).
Proof.
  intros x y H. destruct (plus_fin x y H) as [Fx Fy]. apply (op_rounds _ _ (Bsign x) H). pose proof (Bplus_correct prec emax Hp Hm mode_NE x y Fx Fy) as C.
  destruct (Rlt_bool _ _); apply C.
Qed.
Lemma minus_rounds : forall x y : bf, is_finite (Bminus mode_NE x y) = true -> rounds f_u f_eta (B2R (Bminus mode_NE x y)) (B2R x - B2R y).
Proof.
  intros x y H. destruct (minus_fin x y H) as [Fx Fy]. apply (op_rounds _ _ (Bsign x) H). pose proof (Bminus_correct prec emax Hp Hm mode_NE x y Fx Fy) as C.
  destruct (Rlt_bool _ _); apply C.
Qed.
Lemma mult_rounds : forall x y : bf, is_finite (Bmult mode_NE x y) = true -> rounds f_u f_eta (B2R (Bmult mode_NE x y)) (B2R x * B2R y).
Proof.
  intros x y H. apply (op_rounds _ _ (xorb (Bsign x) (Bsign y)) H). pose proof (Bmult_correct prec emax Hp Hm mode_NE x y) as C.
  destruct (Rlt_bool _ _); apply C.
Qed.
Lemma fma_rounds : forall x y z : bf, is_finite (Bfma mode_NE x y z) = true -> rounds f_u f_eta (B2R (Bfma mode_NE x y z)) (B2R x * B2R y + B2R z).
Proof.
  intros x y z H. destruct (fma_fin x y z H) as (Fx & Fy & Fz). pose proof (Bfma_correct prec emax Hp Hm mode_NE x y z Fx Fy Fz) as C. cbv zeta in C.
  eapply op_rounds; eauto. destruct (Rlt_bool _ _); apply C.
Qed.
Lemma div_rounds : forall x y : bf, is_finite (Bdiv mode_NE x y) = true -> is_finite y = true -> rounds f_u f_eta (B2R (Bdiv mode_NE x y)) (B2R x / B2R y).
Proof.
  intros x y H K. destruct (div_fin x y H) as [Fx Ny]. apply (op_rounds _ _ (xorb (Bsign x) (Bsign y)) H).
  pose proof (Bdiv_correct prec emax Hp Hm mode_NE x y (Ny K)) as C. destruct (Rlt_bool _ _); apply C.
Qed.

(** Multiplication by 1 and -1 *)
Lemma mul_unit : forall (e x : bf), is_finite e = true -> (B2R e = 1 \/ B2R e = -1) ->
  is_finite (Bmult mode_NE e x) = is_finite x /\ (is_finite x = true -> B2R (Bmult mode_NE e x) = B2R e * B2R x).
Proof.
  intros e x Fe He. pose proof (Bmult_correct prec emax Hp Hm mode_NE e x) as C.
  assert (E : round radix2 (SpecFloat.fexp prec emax) (round_mode mode_NE) (B2R e * B2R x) = B2R e * B2R x).
  { destruct He as [-> | ->]; [rewrite Rmult_1_l; apply rnd_val|]. replace (-1 * B2R x) with (- B2R x) by ring. apply rnd_opp. }
  rewrite E in C. rewrite Rlt_bool_true in C.
  - destruct C as (C1 & C2 & _). rewrite C1, C2, Fe. auto.
  - replace (Rabs (B2R e * B2R x)) with (Rabs (B2R x)). apply abs_B2R_lt_emax.
    destruct He as [-> | ->]; [rewrite Rmult_1_l; auto|]. replace (-1 * B2R x) with (- B2R x) by ring. rewrite Rabs_Ropp. auto.
Qed.

Lemma format_1 : generic_format radix2 fexp 1.
Proof. rewrite <- (Bone_correct prec emax Hp Hm). apply generic_format_B2R. Qed.
Lemma div_le_1 : forall x y : bf, is_finite x = true -> is_finite y = true -> B2R y <> 0 -> Rabs (B2R x) <= Rabs (B2R y) ->
  is_finite (Bdiv mode_NE x y) = true /\ Rabs (B2R (Bdiv mode_NE x y)) <= 1.
Proof.
  intros x y Fx Fy Ny L.
  assert (Q : Rabs (B2R x / B2R y) <= 1).
  { assert (P : 0 < Rabs (B2R y)) by (apply Rabs_pos_lt; auto). unfold Rdiv. rewrite Rabs_mult, Rabs_inv.
    apply (Rmult_le_reg_r (Rabs (B2R y))); auto. rewrite Rmult_assoc, Rinv_l by lra. lra. }
  assert (B : Rabs (rnd (B2R x / B2R y)) <= 1).
  { apply abs_round_le_generic; auto; try apply FLT_exp_valid; auto. apply valid_rnd_N. apply format_1. }
  pose proof (Bdiv_correct prec emax Hp Hm mode_NE x y Ny) as C.
  change (round radix2 (SpecFloat.fexp prec emax) (round_mode mode_NE) (B2R x / B2R y)) with (rnd (B2R x / B2R y)) in C.
  rewrite Rlt_bool_true in C.
  - destruct C as (C1 & C2 & _). rewrite C1, C2. auto.
  - eapply Rle_lt_trans; [exact B|]. change 1 with (bpow radix2 0). apply bpow_lt. unfold Prec_lt_emax, Prec_gt_0 in *. lia.
Qed.

Lemma sqrt_rounds : forall x : bf, is_finite x = true -> 0 <= B2R x ->
  is_finite (Bsqrt mode_NE x) = true /\ rounds f_u 0 (B2R (Bsqrt mode_NE x)) (sqrt (B2R x)).
Proof.
  intros x Fx Px. destruct (Bsqrt_correct prec emax Hp Hm mode_NE x) as (C1 & C2 & _).
  assert (Z : x = B754_zero true \/ x = B754_zero false \/ 0 < B2R x).
  { destruct x as [[|]|s| |s mx ex Bx]; auto; try discriminate Fx. right. right. destruct Px as [|E]; auto. exfalso.
    cbn in E. symmetry in E. apply eq_0_F2R in E. destruct s; discriminate. }
  split.
  - rewrite C2. destruct x as [s|s| |s mx ex Bx]; auto; try discriminate Fx. destruct s; auto. exfalso. cbn in Px. apply ge_0_F2R in Px. cbn in Px. lia.
  - rewrite C1. change (round radix2 (SpecFloat.fexp prec emax) (round_mode mode_NE)) with rnd. unfold rounds.
    destruct Z as [-> |[-> |P]]; try (cbn [B2R]; rewrite sqrt_0, round_0 by apply valid_rnd_N; rewrite Rminus_0_r, Rabs_R0; lra).
    assert (B : bpow radix2 (emin + prec - 1) <= Rabs (sqrt (B2R x))).
    { rewrite Rabs_pos_eq by apply sqrt_ge_0. rewrite <- (sqrt_bpow radix2). apply sqrt_le_1_alt.
      apply (generic_format_ge_bpow radix2 fexp); auto; [|apply format_val].
      intros e. unfold FLT_exp. unfold Prec_lt_emax, Prec_gt_0 in *. lia. }
    rewrite round_FLT_FLX by exact B. rewrite Rplus_0_r.
    eapply Rle_trans; [apply (relative_error_N_FLX radix2 prec Hp)|]. rewrite f_u_half. lra.
Qed.
Lemma div_sqrt_pos : forall x y : bf, is_finite (Bdiv mode_NE x (Bsqrt mode_NE y)) = true -> is_finite y = true -> 0 < B2R y.
Proof.
  intros x y H Fy. destruct y as [s|s| |s my ey By]; try discriminate Fy.
  - cbn in H. destruct x; cbn in H; discriminate.
  - destruct s.
    + cbn in H. destruct x; cbn in H; discriminate.
    + cbn. apply F2R_gt_0. cbn. lia.
Qed.

Theorem fops_rounded : rounded fops B2R is_finite f_u f_eta.
Proof.
  constructor; cbn -[Bplus Bminus Bmult Bdiv Bfma Bsqrt Bone].
  - unfold f_u. split; [apply bpow_ge_0|]. change 1 with (bpow radix2 0). apply bpow_lt. unfold Prec_gt_0 in Hp. lia.
  - unfold f_eta. pose proof (bpow_ge_0 radix2 emin). lra.
  - auto.
  - split; [apply is_finite_Bone|apply Bone_correct].
  - rewrite is_finite_Bopp, B2R_Bopp, Bone_correct. split; [apply is_finite_Bone|reflexivity].
  - intros x. destruct (mul_unit Bone x) as [A B]; [apply is_finite_Bone|left; apply Bone_correct|]. split; auto. intros F. rewrite (B F), Bone_correct. ring.
  - intros x. destruct (mul_unit (Bopp Bone) x) as [A B]; [rewrite is_finite_Bopp; apply is_finite_Bone|right; rewrite B2R_Bopp, Bone_correct; auto|].
    split; auto. intros F. rewrite (B F), B2R_Bopp, Bone_correct. ring.
  - intros x y H. destruct (plus_fin x y H). auto using plus_rounds.
  - intros x y H. destruct (minus_fin x y H). auto using minus_rounds.
  - intros x y H. destruct (mult_fin x y H). auto using mult_rounds.
  - intros x y z H. destruct (fma_fin x y z H) as (? & ? & ?). auto using fma_rounds.
  - intros x y z H. destruct (fma_fin _ y z H) as (F & ? & ?). rewrite is_finite_Bopp in F. repeat split; auto.
    pose proof (fma_rounds _ y z H) as R. rewrite B2R_Bopp in R. replace (B2R z - B2R x * B2R y) with (- B2R x * B2R y + B2R z) by ring. exact R.
  - intros x y H. destruct (div_fin x y H). split; auto. intros F. split; auto. apply div_rounds; auto.
  - apply div_le_1.
  - apply sqrt_rounds.
  - apply div_sqrt_pos.
  - intros x. split; [apply is_finite_Babs|]. intros _. apply B2R_Babs.
  - intros x y Fx Fy. rewrite Bltb_correct by auto. case Rlt_bool_spec; split; auto; try discriminate; lra.
  - intros x y Fx Fy. rewrite Beqb_correct by auto. case Req_bool_spec; split; auto; try discriminate; congruence.
Qed.

(** No overflow up to half of the range. *)
Definition f_big : R := bpow radix2 (emax - 1).
Lemma big_round : forall x, Rabs x <= f_big -> Rlt_bool (Rabs (round radix2 (SpecFloat.fexp prec emax) (round_mode mode_NE) x)) (bpow radix2 emax) = true.
Proof.
  intros x H. apply Rlt_bool_true. apply Rle_lt_trans with f_big; [|apply bpow_lt; lia].
  apply abs_round_le_generic; auto; try apply fexp_correct; try apply valid_rnd_round_mode; auto.
  apply generic_format_bpow. unfold SpecFloat.fexp, SpecFloat.emin. red in Hp, Hm. lia.
Qed.
Lemma fops_ranged : ranged fops B2R is_finite f_big.
Proof.
  constructor.
  - intros x y Fx Fy H. pose proof (Bmult_correct prec emax Hp Hm mode_NE x y) as C. rewrite big_round in C by auto. destruct C as (_ & C & _).
    cbn [omul fops]. rewrite C, Fx, Fy. reflexivity.
  - intros x y z Fx Fy Fz H. pose proof (Bfma_correct prec emax Hp Hm mode_NE x y z Fx Fy Fz) as C. cbv zeta in C. rewrite big_round in C by auto. apply C.
  - intros x y z Fx Fy Fz H. cbn [ofnma fops]. pose proof (Bfma_correct prec emax Hp Hm mode_NE (Bopp x) y z) as C. rewrite is_finite_Bopp, B2R_Bopp in C.
    specialize (C Fx Fy Fz). cbv zeta in C. rewrite big_round in C; [apply C|]. replace (- B2R x * B2R y + B2R z) with (B2R z - B2R x * B2R y) by ring. auto.
  - intros x y Fx Fy Ny H. cbn [odiv fops]. pose proof (Bdiv_correct prec emax Hp Hm mode_NE x y Ny) as C. rewrite big_round in C by auto. destruct C as (_ & C & _).
    rewrite C. auto.
  - intros x y Fx Fy H. cbn [oadd fops]. pose proof (Bplus_correct prec emax Hp Hm mode_NE x y Fx Fy) as C. rewrite big_round in C by auto. apply C.
  - intros x y Fx Fy H. cbn [osub fops]. pose proof (Bminus_correct prec emax Hp Hm mode_NE x y Fx Fy) as C. rewrite big_round in C by auto. apply C.
Qed.
End Format.

(** double and float *)
Definition b64 := binary_float 53 1024.
Definition b64ops : Ops b64 := fops 53 1024 eq_refl eq_refl.
Definition b32 := binary_float 24 128.
Definition b32ops : Ops b32 := fops 24 128 eq_refl eq_refl.
