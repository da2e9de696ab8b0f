(** Algebra_Proofs.v -- sums, fma chains and exact arithmetic. *)
From Coq Require Import Arith Lia List Bool PeanoNat Ring.
From Verif Require Import Base Spec.

Section Chains.
Context {T : Type} (O : Ops T).
Declare Scope alg_scope.
Notation "a + b" := (oadd O a b) : alg_scope.
Notation "a * b" := (omul O a b) : alg_scope.
Notation "a - b" := (osub O a b) : alg_scope.
Notation "a / b" := (odiv O a b) : alg_scope.
Notation "0" := (o0 O) : alg_scope.
Notation "1" := (o1 O) : alg_scope.
Delimit Scope alg_scope with A.

Lemma fma_chain_ext : forall K x y x' y' z, (forall k, k < K -> x k = x' k) -> (forall k, k < K -> y k = y' k) ->
  fma_chain O K x y z = fma_chain O K x' y' z.
Proof. induction K; intros; simpl; auto. rewrite H, H0 by lia. f_equal. apply IHK; intros; auto. Qed.

Lemma fnma_chain_ext' : forall K x y x' y' z, (forall k, k < K -> x k = x' k) -> (forall k, k < K -> y k = y' k) ->
  fnma_chain O K x y z = fnma_chain O K x' y' z.
Proof. induction K; intros; simpl; auto. rewrite H, H0 by lia. f_equal. apply IHK; intros; auto. Qed.

Lemma sub_chain_ext : forall K x y x' y' z, (forall k, k < K -> x k = x' k) -> (forall k, k < K -> y k = y' k) ->
  sub_chain O K x y z = sub_chain O K x' y' z.
Proof. induction K as [|K IH]; intros x y x' y' z Hx Hy; simpl; auto. rewrite Hx, Hy, (IH x y x' y') by auto. reflexivity. Qed.
Lemma add_chain_ext : forall K x y x' y' z, (forall k, k < K -> x k = x' k) -> (forall k, k < K -> y k = y' k) ->
  add_chain O K x y z = add_chain O K x' y' z.
Proof. induction K as [|K IH]; intros x y x' y' z Hx Hy; simpl; auto. rewrite Hx, Hy, (IH x y x' y') by auto. reflexivity. Qed.
Lemma sum_ext : forall K f g, (forall k, k < K -> f k = g k) -> sum O K f = sum O K g.
Proof. induction K; intros; simpl; auto. rewrite H by lia. f_equal. apply IHK; auto. Qed.

Hypothesis RL : ring_laws O.

Lemma alg_ring : ring_theory (o0 O) (o1 O) (oadd O) (omul O) (osub O) (omul O (om1 O)) eq.
Proof.
  constructor; intros; try (symmetry; apply RL); try apply RL.
  - rewrite <- (rl_mul_1 O RL x) at 1. rewrite <- (rl_distr O RL). rewrite (rl_neg O RL).
    assert (Z : forall a, omul O (o0 O) a = o0 O).
    { intros a. assert (E : oadd O (omul O (o0 O) a) (omul O (o0 O) a) = omul O (o0 O) a).
      { rewrite <- (rl_distr O RL), (rl_add_0 O RL). reflexivity. }
      assert (E2 : osub O (oadd O (omul O (o0 O) a) (omul O (o0 O) a)) (omul O (o0 O) a) = osub O (omul O (o0 O) a) (omul O (o0 O) a)) by (rewrite E; auto).
      assert (S : forall b c, osub O (oadd O b c) c = b).
      { intros b c. rewrite (rl_sub_def O RL). rewrite <- (rl_add_assoc O RL).
        rewrite (rl_add_comm O RL c), <- (rl_sub_def O RL) || idtac.
        pose proof (rl_sub O RL b c) as X. rewrite (rl_sub_def O RL) in X. rewrite <- (rl_add_assoc O RL) in X.
        rewrite ?(rl_add_comm O RL c) in *. rewrite X || idtac. auto. }
      rewrite S in E2. rewrite E2. pose proof (S (o0 O) (omul O (o0 O) a)) as Y. rewrite (rl_add_0 O RL) in Y. exact Y. }
    apply Z.
Qed.
Add Ring alg : alg_ring.

Lemma fma_chain_sum : forall K x y z, fma_chain O K x y z = (z + sum O K (fun k => x k * y k))%A.
Proof. induction K; intros; simpl; [ring|]. rewrite (rl_fma O RL), IHK. ring. Qed.

Lemma fnma_chain_sum : forall K x y z, fnma_chain O K x y z = (z - sum O K (fun k => x k * y k))%A.
Proof. induction K; intros; simpl; [ring|]. rewrite (rl_fnma O RL), IHK. ring. Qed.

Lemma sub_chain_sum : forall K x y z, sub_chain O K x y z = (z - sum O K (fun k => x k * y k))%A.
Proof. induction K as [|K IH]; intros; simpl; [ring|]. rewrite IH. ring. Qed.
Lemma add_chain_sum : forall K x y z, add_chain O K x y z = (z + sum O K (fun k => x k * y k))%A.
Proof. induction K as [|K IH]; intros; simpl; [ring|]. rewrite IH. ring. Qed.
Lemma sum_scale : forall K a f, sum O K (fun k => (a * f k)%A) = (a * sum O K f)%A.
Proof. induction K; intros; simpl; [ring|]. rewrite IHK. ring. Qed.

Lemma sum_plus : forall K f g, sum O K (fun k => (f k + g k)%A) = (sum O K f + sum O K g)%A.
Proof. induction K; intros; simpl; [ring|]. rewrite IHK. ring. Qed.

Lemma sum_0 : forall K f, (forall k, k < K -> f k = o0 O) -> sum O K f = o0 O.
Proof. induction K; intros; simpl; auto. rewrite IHK, H by auto. ring. Qed.

Lemma sum_split : forall K L f, sum O (Nat.add K L) f = (sum O K f + sum O L (fun k => f (Nat.add K k)))%A.
Proof.
  induction L; intros; simpl.
  - rewrite Nat.add_0_r. ring.
  - rewrite Nat.add_succ_r. simpl. rewrite IHL. ring.
Qed.

(** terms beyond L vanish *)
Lemma sum_trunc : forall K L f, L <= K -> (forall k, L <= k < K -> f k = o0 O) -> sum O K f = sum O L f.
Proof.
  intros K L f H Z. replace K with (Nat.add L (Nat.sub K L)) by lia. rewrite sum_split.
  rewrite (sum_0 (Nat.sub K L)); [ring|]. intros k Hk. apply Z. lia.
Qed.

Lemma sum_swap : forall M N f, sum O M (fun i => sum O N (fun j => f i j)) = sum O N (fun j => sum O M (fun i => f i j)).
Proof.
  induction M; intros; simpl.
  - symmetry. apply sum_0. auto.
  - rewrite IHM. symmetry. rewrite sum_plus. reflexivity.
Qed.

Lemma sub_add : forall a b, ((a - b) + b = a)%A. Proof. intros. ring. Qed.
Lemma add_sub : forall a b, ((a + b) - b = a)%A. Proof. intros. ring. Qed.
Lemma mul_0_l : forall a, (0 * a = 0)%A. Proof. intros. ring. Qed.
Lemma mul_0_r : forall a, (a * 0 = 0)%A. Proof. intros. ring. Qed.
Lemma add_0_r : forall a, (a + 0 = a)%A. Proof. intros. ring. Qed.
Lemma mul_1_r : forall a, (a * 1 = a)%A. Proof. intros. ring. Qed.
End Chains.

Section Field.
Context {T : Type} (O : Ops T) (FL : field_laws O).
Add Ring algf : (alg_ring O (fl_ring O FL)).

Lemma div_mul : forall a b, b <> o0 O -> odiv O (omul O a b) b = a.
Proof.
  intros a b H.
  transitivity (omul O (odiv O (omul O a b) b) (omul O (odiv O (o1 O) b) b)).
  - rewrite (fl_div O FL (o1 O) b H). ring.
  - transitivity (omul O (omul O (odiv O (omul O a b) b) b) (odiv O (o1 O) b)); [ring|].
    rewrite (fl_div O FL (omul O a b) b H). transitivity (omul O a (omul O (odiv O (o1 O) b) b)); [ring|].
    rewrite (fl_div O FL (o1 O) b H). ring.
Qed.
Lemma div_unique : forall a b c, b <> o0 O -> omul O a b = c -> a = odiv O c b.
Proof. intros a b c H <-. rewrite div_mul; auto. Qed.
Lemma mul_cancel : forall a a' b, b <> o0 O -> omul O a b = omul O a' b -> a = a'.
Proof. intros a a' b H E. rewrite <- (div_mul a b H), E, div_mul; auto. Qed.
End Field.
