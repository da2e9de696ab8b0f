(** Instances.v -- exact arithmetics satisfying the laws of Spec.v: the integers (ring, with integer division and square root
    as stand-ins for / and sqrt) and the reals (field). *)
From Coq Require Import ZArith QArith Qabs Qcanon Qcabs Field Reals Lra Lia Bool.
From Verif Require Import Base Spec.

Definition zops : Ops Z := mkOps Z 0%Z 1%Z (-1)%Z Z.add Z.sub Z.mul Z.div (fun a b c => a * b + c)%Z
  (fun a b c => c - a * b)%Z Z.sqrt Z.abs Z.ltb Z.eqb.
Lemma zops_ring : ring_laws zops. Proof. constructor; cbn -[Z.mul Z.add Z.sub]; intros; ring. Qed.

Definition Rltb (x y : R) : bool := if Rlt_dec x y then true else false.
Definition Reqb (x y : R) : bool := if Req_EM_T x y then true else false.
Definition rops : Ops R := mkOps R 0%R 1%R (-1)%R Rplus Rminus Rmult Rdiv (fun a b c => a * b + c)%R
  (fun a b c => c - a * b)%R sqrt Rabs Rltb Reqb.
Lemma rops_ring : ring_laws rops. Proof. constructor; cbn; intros; ring. Qed.
Lemma rops_field : field_laws rops.
Proof. constructor; [apply rops_ring| |]; cbn; intros; [field; auto|lra]. Qed.
Lemma rops_order : exact_order rops.
Proof.
  assert (L : forall x y, Rltb x y = true <-> (x < y)%R).
  { intros x y. unfold Rltb. destruct (Rlt_dec x y); split; auto; discriminate || contradiction. }
  assert (L' : forall x y, Rltb x y = false <-> (y <= x)%R).
  { intros x y. unfold Rltb. destruct (Rlt_dec x y); split; auto; try discriminate; lra. }
  constructor; cbn.
  - split; [|split]; cbn; intros a; [apply L'; lra| |]; intros b c; rewrite ?L, ?L'; lra.
  - intros a b. unfold Reqb. destruct (Req_EM_T a b); split; auto; discriminate || contradiction.
  - intros a H. apply L. rewrite Rabs_R0. apply Rabs_pos_lt. auto.
  - intros a b H. rewrite !L'. intros K. rewrite Rabs_R1. unfold Rdiv. rewrite Rabs_mult, Rabs_inv.
    assert (P : (0 < Rabs b)%R) by (apply Rabs_pos_lt; auto).
    apply (Rmult_le_reg_r (Rabs b)); auto. rewrite Rmult_assoc, Rinv_l by lra. lra.
Qed.
Lemma rops_exact : exact_arith rops. Proof. split; [apply rops_field|apply rops_order]. Qed.

(** The rational numbers: a computable exact arithmetic. *)
Local Open Scope Qc_scope.
Definition Qcltb (x y : Qc) : bool := match x ?= y with Lt => true | _ => false end.
Definition Qcabs (x : Qc) : Qc := if Qcltb x 0 then - x else x.
Definition Qceqb (x y : Qc) : bool := match x ?= y with Eq => true | _ => false end.
Definition qops : Ops Qc := mkOps Qc 0 1 (- (1)) Qcplus Qcminus Qcmult Qcdiv (fun a b c => a * b + c)
  (fun a b c => c - a * b) (fun x => x) Qcabs Qcltb Qceqb.
Lemma qops_ring : ring_laws qops. Proof. constructor; cbn; intros; ring. Qed.
Lemma qops_field : field_laws qops.
Proof. constructor; [apply qops_ring| |]; cbn; intros; [field; auto|discriminate]. Qed.
Lemma Qcltb_lt : forall x y, Qcltb x y = true <-> x < y.
Proof. intros. unfold Qcltb. rewrite Qclt_alt. destruct (x ?= y); split; auto; discriminate. Qed.
Lemma Qcltb_ge : forall x y, Qcltb x y = false <-> y <= x.
Proof.
  intros x y. split; intros H.
  - apply Qcnot_lt_le. intros L. apply Qcltb_lt in L. congruence.
  - destruct (Qcltb x y) eqn:E; auto. apply Qcltb_lt in E. exfalso. apply (Qcle_not_lt y x); auto.
Qed.
Lemma Qcabs_nonneg : forall x, 0 <= Qcabs x.
Proof.
  intros x. unfold Qcabs. destruct (Qcltb x 0) eqn:E.
  - apply Qcltb_lt in E. apply Qclt_le_weak. rewrite <- (Qcplus_opp_r x). rewrite <- (Qcplus_0_l (- x)) at 2.
    rewrite Qclt_minus_iff in *. replace (0 + - x + - (x + - x)) with (0 + - x) by ring. exact E.
  - apply Qcltb_ge in E. auto.
Qed.
Lemma Qcabs_mult : forall x y, Qcabs (x * y) = Qcabs x * Qcabs y.
Proof.
  assert (P : forall x y, 0 <= x -> 0 <= y -> Qcabs (x * y) = x * y).
  { intros x y Hx Hy. unfold Qcabs. destruct (Qcltb (x * y) 0) eqn:E; auto. apply Qcltb_lt in E. exfalso.
    apply (Qcle_not_lt 0 (x * y)); auto. replace 0 with (0 * y) by ring. apply Qcmult_le_compat_r; auto. }
  assert (N : forall x, Qcabs (- x) = Qcabs x).
  { intros x. unfold Qcabs. destruct (Qcltb (- x) 0) eqn:E1, (Qcltb x 0) eqn:E2; auto; try ring.
    - apply Qcltb_lt in E1, E2. exfalso. apply (Qclt_not_eq x x); auto. apply Qclt_trans with 0; auto.
      rewrite Qclt_minus_iff in *. replace (x + - 0) with (0 + - - x) by ring. auto.
    - apply Qcltb_ge in E1, E2. apply Qcle_antisym.
      + rewrite Qcle_minus_iff in *. replace (x + - - x) with ((x + - 0) + (x + - 0)) by ring.
        replace 0 with (0 + 0) at 1 by ring. apply Qcplus_le_compat; auto.
      + rewrite Qcle_minus_iff in *. replace (- x + - x) with ((0 + - x) + (0 + - x)) by ring.
        replace (- x + - 0) with (0 + - x) in E1 by ring. replace 0 with (0 + 0) at 1 by ring. apply Qcplus_le_compat; auto. }
  assert (D : forall x, 0 <= x \/ exists y, x = - y /\ 0 <= y).
  { intros x. destruct (Qclt_le_dec x 0) as [H|H]; auto. right. exists (- x). split; [ring|]. apply Qclt_le_weak in H.
    rewrite Qcle_minus_iff in *. replace (- x + - 0) with (0 + - x) by ring. auto. }
  assert (Q : forall x, 0 <= x -> Qcabs x = x).
  { intros x H. unfold Qcabs. apply Qcltb_ge in H. rewrite H. auto. }
  intros x y. destruct (D x) as [Hx|(x' & -> & Hx)], (D y) as [Hy|(y' & -> & Hy)]; rewrite ?N, ?(Q _ Hx), ?(Q _ Hy).
  - auto.
  - replace (x * - y') with (- (x * y')) by ring. rewrite N. auto.
  - replace (- x' * y) with (- (x' * y)) by ring. rewrite N. auto.
  - replace (- x' * - y') with (x' * y') by ring. auto.
Qed.
Lemma Qcabs_pos : forall x, x <> 0 -> 0 < Qcabs x.
Proof.
  intros x H. destruct (Qcle_lt_or_eq _ _ (Qcabs_nonneg x)) as [L|E]; auto. exfalso. apply H.
  unfold Qcabs in E. destruct (Qcltb x 0); auto. rewrite <- (Qcopp_involutive x), <- E. reflexivity.
Qed.
Lemma qops_order : exact_order qops.
Proof.
  constructor; cbn.
  - split; [|split]; cbn; intros a; [apply Qcltb_ge, Qcle_refl| |]; intros b c; rewrite ?Qcltb_lt, ?Qcltb_ge; intros H K;
      [apply Qclt_trans with (Qcabs b)|apply Qcle_trans with (Qcabs b)]; auto.
  - intros a b. unfold Qceqb. rewrite Qceq_alt. destruct (a ?= b); split; auto; discriminate.
  - intros a H. apply Qcltb_lt. apply Qcabs_pos; auto.
  - intros a b H. rewrite !Qcltb_ge. intros K.
    apply Qcmult_lt_0_le_reg_r with (Qcabs b); [apply Qcabs_pos; auto|]. rewrite <- Qcabs_mult.
    replace (a / b * b) with a by (field; auto). change (Qcabs 1) with 1. rewrite Qcmult_1_l. auto.
Qed.
Lemma qops_exact : exact_arith qops. Proof. split; [apply qops_field|apply qops_order]. Qed.
