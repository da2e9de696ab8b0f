(** Properties_Bench.v -- C56: the operation counts the benchmarks divide by. *)
From Coq Require Import ZArith List String Lia Bool.
From Verif Require Import Base Base_Proofs Bench_Model.
Import ListNotations.
Open Scope Z_scope.

(** Specification: f 0 + f 1 + ... + f (n-1), and the same starting from lo. *)
Fixpoint Zsum (n : nat) (f : nat -> Z) : Z := match n with O => 0 | S n => Zsum n f + f n end.
Definition Zsum_from (lo hi : nat) (f : nat -> Z) : Z := Zsum (hi - lo) (fun i => f (lo + i)%nat).
(** The counts as documented in the comments of the code. *)
Definition potrf_mul (m n : nat) : Z := Zsum n (fun k => Zsum k (fun j => Zsum_from k m (fun i => 1))).
Definition potrf_div (m n : nat) : Z := Zsum n (fun k => Zsum_from k m (fun i => 1)).
Definition getrf_mul (m n : nat) : Z := Zsum m (fun k => Zsum_from (k + 1) m (fun i => Z.of_nat n - Z.of_nat k)).
Definition getrf_div (m n : nat) : Z := Zsum n (fun k => Zsum_from k m (fun i => 1)).
Definition trsm_mul (m n : nat) : Z := Zsum n (fun j => Zsum j (fun k => Zsum m (fun i => 1))).

Lemma Zsum_const : forall n c, Zsum n (fun _ => c) = Z.of_nat n * c.
Proof. induction n; intros; cbn [Zsum]; [lia|]. rewrite IHn. lia. Qed.
Lemma Zsum_ext : forall n f g, (forall i, (i < n)%nat -> f i = g i) -> Zsum n f = Zsum n g.
Proof. induction n; intros; cbn [Zsum]; auto. rewrite (IHn f g), (H n); auto. Qed.

(** Modular arithmetic: a chain of word operations is the exact value reduced once. *)
Lemma W_pos : 0 < W. Proof. reflexivity. Qed.
Lemma exact6 : forall a q, 0 <= a -> a < W -> a = 6 * q -> wdiv a 6 = q.
Proof. intros a q H1 H2 ->. unfold wdiv. rewrite Z.mul_comm, Z.div_mul; lia. Qed.
Lemma half : forall a q, a = 2 * q -> wdiv a 2 = q.
Proof. intros a q ->. unfold wdiv. rewrite Z.mul_comm, Z.div_mul; lia. Qed.
Definition eqv (a b : Z) : Prop := exists q, a = b + W * q.
Lemma eqv_refl : forall a, eqv a a. Proof. intros a. exists 0. lia. Qed.
Lemma eqv_mul : forall a a' b b', eqv a a' -> eqv b b' -> eqv (wmul a b) (a' * b').
Proof.
  intros a a' b b' [q ->] [r ->]. unfold wmul. rewrite Z.mod_eq by (pose proof W_pos; lia).
  exists (a' * r + q * b' + W * q * r - (a' + W * q) * (b' + W * r) / W). ring.
Qed.
Lemma eqv_add : forall a a' b b', eqv a a' -> eqv b b' -> eqv (wadd a b) (a' + b').
Proof. intros a a' b b' [q ->] [r ->]. unfold wadd. rewrite Z.mod_eq by (pose proof W_pos; lia). exists (q + r - (a' + W * q + (b' + W * r)) / W). ring. Qed.
Lemma eqv_sub : forall a a' b b', eqv a a' -> eqv b b' -> eqv (wsub a b) (a' - b').
Proof. intros a a' b b' [q ->] [r ->]. unfold wsub. rewrite Z.mod_eq by (pose proof W_pos; lia). exists (q - r - (a' + W * q - (b' + W * r)) / W). ring. Qed.
Ltac words := repeat (match goal with |- eqv (wmul _ _) _ => apply eqv_mul | |- eqv (wadd _ _) _ => apply eqv_add | |- eqv (wsub _ _) _ => apply eqv_sub | |- eqv ?x ?x => apply eqv_refl end).
Lemma eqv_small : forall a b, eqv a b -> 0 <= a < W -> 0 <= b < W -> a = b.
Proof. intros a b [q ->] H1 H2. assert (q = 0) by nia. subst. lia. Qed.
Lemma word_mul : forall a b, 0 <= wmul a b < W.
Proof. intros. apply Z.mod_pos_bound, W_pos. Qed.
Lemma word_sub : forall a b, 0 <= wsub a b < W.
Proof. intros. apply Z.mod_pos_bound, W_pos. Qed.
Lemma word_add : forall a b, 0 <= wadd a b < W.
Proof. intros. apply Z.mod_pos_bound, W_pos. Qed.

Lemma potrf_mul_eq : forall n m, (n <= m)%nat -> (1 + 3 * Z.of_nat m - 2 * Z.of_nat n) * (Z.of_nat n - 1) * Z.of_nat n = 6 * potrf_mul m n.
Proof.
  unfold potrf_mul. induction n; intros m H; cbn [Zsum]; [lia|].
  specialize (IHn m ltac:(lia)). unfold Zsum_from at 2. rewrite !Zsum_const. rewrite Nat2Z.inj_sub by lia. lia.
Qed.
Lemma potrf_div_eq : forall n m, (n <= m)%nat -> Z.of_nat n * (1 + 2 * Z.of_nat m - Z.of_nat n) = 2 * potrf_div m n.
Proof.
  unfold potrf_div. induction n; intros m H; cbn [Zsum]; [lia|].
  specialize (IHn m ltac:(lia)). unfold Zsum_from at 2. rewrite !Zsum_const. rewrite Nat2Z.inj_sub by lia. lia.
Qed.
Lemma getrf_mul_part : forall m n c, (c <= m)%nat ->
  6 * Zsum c (fun k => Zsum_from (k + 1) m (fun i => Z.of_nat n - Z.of_nat k)) =
  Z.of_nat c * (6 * Z.of_nat n * (Z.of_nat m - 1) - 3 * (Z.of_nat c - 1) * (Z.of_nat n + Z.of_nat m - 1) + (Z.of_nat c - 1) * (2 * Z.of_nat c - 1)).
Proof.
  intros m n. induction c; intros H; cbn [Zsum]; [lia|]. rewrite Z.mul_add_distr_l, IHc by lia.
  unfold Zsum_from at 1. rewrite Zsum_const, Nat2Z.inj_sub by lia. lia.
Qed.
Lemma getrf_mul_eq : forall m n, (2 - Z.of_nat m + 3 * Z.of_nat n) * (Z.of_nat m - 1) * Z.of_nat m = 6 * getrf_mul m n.
Proof. intros m n. unfold getrf_mul. rewrite getrf_mul_part by lia. ring. Qed.
Lemma trsm_mul_eq : forall m n, Z.of_nat m * (Z.of_nat n - 1) * Z.of_nat n = 2 * trsm_mul m n.
Proof.
  intros m. unfold trsm_mul. induction n; cbn [Zsum]; [lia|]. rewrite !Zsum_const in *. lia.
Qed.
Lemma Zsum_nonneg : forall n f, (forall i, 0 <= f i) -> 0 <= Zsum n f.
Proof. induction n; intros; cbn [Zsum]; [lia|]. specialize (IHn f H). specialize (H n). lia. Qed.

(** potrf: the documented sums, whenever the dividends are representable. *)
Theorem C56_potrf : forall m n, (n <= m)%nat -> 6 * potrf_mul m n < 2 ^ 64 -> 2 * potrf_div m n < 2 ^ 64 ->
  complexity_potrf (Z.of_nat m) (Z.of_nat n) =
  Ok [("add"%string, potrf_mul m n); ("mul"%string, potrf_mul m n); ("div"%string, potrf_div m n); ("sqrt"%string, Z.of_nat n)].
Proof. change (2 ^ 64) with W.
  intros m n H B1 B2. unfold complexity_potrf. destruct (Z.ltb_spec (Z.of_nat m) (Z.of_nat n)); [lia|].
  assert (P1 : 0 <= potrf_mul m n) by (unfold potrf_mul, Zsum_from; repeat (apply Zsum_nonneg; intros); lia).
  assert (P2 : 0 <= potrf_div m n) by (unfold potrf_div, Zsum_from; repeat (apply Zsum_nonneg; intros); lia).
  assert (E1 : wmul (wmul (wsub (wadd 1 (wmul 3 (Z.of_nat m))) (wmul 2 (Z.of_nat n))) (wsub (Z.of_nat n) 1)) (Z.of_nat n) = 6 * potrf_mul m n).
  { apply eqv_small; [|apply word_mul|lia]. rewrite <- potrf_mul_eq by auto. words. }
  assert (E2 : wmul (Z.of_nat n) (wsub (wadd 1 (wmul 2 (Z.of_nat m))) (Z.of_nat n)) = 2 * potrf_div m n).
  { apply eqv_small; [|apply word_mul|lia]. rewrite <- potrf_div_eq by auto. words. }
  rewrite E1, E2. rewrite (exact6 _ (potrf_mul m n)), (half _ (potrf_div m n)) by lia. reflexivity.
Qed.
Theorem C56_potrf_throws : forall m n, (m < n)%nat -> complexity_potrf (Z.of_nat m) (Z.of_nat n) = Throw InvalidArgument.
Proof. intros m n H. unfold complexity_potrf. destruct (Z.ltb_spec (Z.of_nat m) (Z.of_nat n)); [reflexivity|lia]. Qed.

(** trsm: the documented sums; the number of divisions only for n <= m. *)
Theorem C56_trsm : forall m n, (n <= m)%nat -> 2 * trsm_mul m n < 2 ^ 64 -> 2 * potrf_div m n < 2 ^ 64 ->
  complexity_trsm (Z.of_nat m) (Z.of_nat n) = Ok [("add"%string, trsm_mul m n); ("mul"%string, trsm_mul m n); ("div"%string, potrf_div m n)].
Proof. change (2 ^ 64) with W.
  intros m n H B1 B2. unfold complexity_trsm.
  assert (P1 : 0 <= trsm_mul m n) by (unfold trsm_mul; repeat (apply Zsum_nonneg; intros); lia).
  assert (P2 : 0 <= potrf_div m n) by (unfold potrf_div, Zsum_from; repeat (apply Zsum_nonneg; intros); lia).
  assert (E1 : wmul (wmul (Z.of_nat m) (wsub (Z.of_nat n) 1)) (Z.of_nat n) = 2 * trsm_mul m n).
  { apply eqv_small; [|apply word_mul|lia]. rewrite <- trsm_mul_eq by auto. words. }
  assert (E2 : wmul (Z.of_nat n) (wsub (wadd 1 (wmul 2 (Z.of_nat m))) (Z.of_nat n)) = 2 * potrf_div m n).
  { apply eqv_small; [|apply word_mul|lia]. rewrite <- potrf_div_eq by auto. words. }
  rewrite E1, E2. rewrite (half _ (trsm_mul m n)), (half _ (potrf_div m n)) by lia. reflexivity.
Qed.
(** For a system with more than 2m+1 right-hand sides the documented number of divisions is m(m+1)/2, but the returned one is
    at least 2^62. *)
Theorem C56_trsm_div_refuted : forall m n, (2 * m + 1 < n)%nat -> Z.of_nat n * (Z.of_nat n - 2 * Z.of_nat m - 1) <= 2 ^ 63 ->
  exists a b d, complexity_trsm (Z.of_nat m) (Z.of_nat n) = Ok [("add"%string, a); ("mul"%string, b); ("div"%string, d)] /\ 2 ^ 62 <= d.
Proof.
  intros m n H B. unfold complexity_trsm. do 3 eexists. split; [reflexivity|].
  assert (E2 : wmul (Z.of_nat n) (wsub (wadd 1 (wmul 2 (Z.of_nat m))) (Z.of_nat n)) = W - Z.of_nat n * (Z.of_nat n - 2 * Z.of_nat m - 1)).
  { apply eqv_small; [|apply word_mul|].
    - assert (K : eqv (wmul (Z.of_nat n) (wsub (wadd 1 (wmul 2 (Z.of_nat m))) (Z.of_nat n))) (Z.of_nat n * (1 + 2 * Z.of_nat m - Z.of_nat n))) by words.
      destruct K as [q ->]. exists (q - 1). ring.
    - assert (0 < Z.of_nat n * (Z.of_nat n - 2 * Z.of_nat m - 1)) by (apply Z.mul_pos_pos; lia). unfold W. lia. }
  rewrite E2. unfold wdiv, W. apply Z.div_le_lower_bound; lia.
Qed.

(** getrf of a square matrix: the documented sum of multiplications, and n fewer divisions than documented. *)
Theorem C56_getrf_square : forall n, 6 * getrf_mul n n < 2 ^ 64 ->
  complexity_getrf (Z.of_nat n) (Z.of_nat n) =
  Ok [("add"%string, getrf_mul n n); ("mul"%string, getrf_mul n n); ("div"%string, getrf_div n n - Z.of_nat n)].
Proof. change (2 ^ 64) with W.
  intros n B. unfold complexity_getrf. rewrite Z.ltb_irrefl.
  assert (P1 : 0 <= 6 * getrf_mul n n).
  { rewrite <- getrf_mul_eq. destruct n; [lia|]. replace (2 - Z.of_nat (S n) + 3 * Z.of_nat (S n)) with (2 + 2 * Z.of_nat (S n)) by lia.
    apply Z.mul_nonneg_nonneg; [apply Z.mul_nonneg_nonneg; lia|lia]. }
  assert (Hs : Z.of_nat n * (Z.of_nat n - 1) <= 6 * getrf_mul n n).
  { rewrite <- getrf_mul_eq. destruct n; [lia|]. replace (2 - Z.of_nat (S n) + 3 * Z.of_nat (S n)) with (2 + 2 * Z.of_nat (S n)) by lia. nia. }
  assert (E1 : wmul (wmul (wadd (wsub 2 (Z.of_nat n)) (wmul 3 (Z.of_nat n))) (wsub (Z.of_nat n) 1)) (Z.of_nat n) = 6 * getrf_mul n n).
  { apply eqv_small; [|apply word_mul|lia]. rewrite <- getrf_mul_eq by auto. words. }
  assert (E2 : wmul (Z.of_nat n) (wsub (Z.of_nat n) 1) = 2 * (getrf_div n n - Z.of_nat n)).
  { apply eqv_small; [|apply word_mul|].
    - replace (2 * (getrf_div n n - Z.of_nat n)) with (Z.of_nat n * (Z.of_nat n - 1)); [words|]. pose proof (potrf_div_eq n n (Nat.le_refl n)) as K. change (potrf_div n n) with (getrf_div n n) in K. lia.
    - pose proof (potrf_div_eq n n (Nat.le_refl n)) as K. change (potrf_div n n) with (getrf_div n n) in K. assert (0 <= Z.of_nat n * (Z.of_nat n - 1)) by nia. lia. }
  rewrite E1, E2. rewrite (exact6 _ (getrf_mul n n)), (half _ (getrf_div n n - Z.of_nat n)) by lia. reflexivity.
Qed.
(** The documented sum makes sense only if every summand n-k with k < m is non-negative, i.e. m <= n.  The code exchanges m and n if
    m < n, instead of if n < m: for a matrix more than three times as long as wide, in either direction, the returned count is
    larger than 10^18. *)
Theorem C56_getrf_refuted : forall m n, (3 * n + 2 < m)%nat -> (2 <= m)%nat -> (Z.of_nat m - 3 * Z.of_nat n - 2) * (Z.of_nat m - 1) * Z.of_nat m <= 2 ^ 63 ->
  exists a d, complexity_getrf (Z.of_nat m) (Z.of_nat n) = Ok [("add"%string, a); ("mul"%string, a); ("div"%string, d)] /\
    complexity_getrf (Z.of_nat n) (Z.of_nat m) = Ok [("add"%string, a); ("mul"%string, a); ("div"%string, d)] /\ 10 ^ 18 < a.
Proof.
  intros m n H M B. unfold complexity_getrf. destruct (Z.ltb_spec (Z.of_nat m) (Z.of_nat n)); [lia|]. destruct (Z.ltb_spec (Z.of_nat n) (Z.of_nat m)); [|lia].
  do 2 eexists. split; [reflexivity|]. split; [reflexivity|].
  match goal with |- _ < wdiv ?x 6 => assert (E : x = W - (Z.of_nat m - 3 * Z.of_nat n - 2) * (Z.of_nat m - 1) * Z.of_nat m) end.
  { apply eqv_small; [|apply word_mul|].
    - assert (K : eqv (wmul (wmul (wadd (wsub 2 (Z.of_nat m)) (wmul 3 (Z.of_nat n))) (wsub (Z.of_nat m) 1)) (Z.of_nat m))
        ((2 - Z.of_nat m + 3 * Z.of_nat n) * (Z.of_nat m - 1) * Z.of_nat m)) by words.
      destruct K as [q ->]. exists (q - 1). ring.
    - assert (0 < (Z.of_nat m - 3 * Z.of_nat n - 2) * (Z.of_nat m - 1) * Z.of_nat m) by (repeat apply Z.mul_pos_pos; lia). unfold W. lia. }
  rewrite E. unfold wdiv, W. apply Z.lt_le_trans with ((2 ^ 64 - 2 ^ 63) / 6); [reflexivity|]. apply Z.div_le_mono; lia.
Qed.

(** gemm: one multiplication and addition per term of the inner product, and the scaling with alpha and beta; syrk: the terms of the
    triangle including the diagonal; the triangular substitution of bench/Trsm.hpp; iamax. *)
Theorem C56_gemm : forall m n k, Z.of_nat m * Z.of_nat n * (Z.of_nat k + 2) < 2 ^ 64 ->
  complexity_gemm (Z.of_nat m) (Z.of_nat n) (Z.of_nat k) =
  Ok [("add"%string, Zsum m (fun _ => Zsum n (fun _ => Zsum k (fun _ => 1) + 1))); ("mul"%string, Zsum m (fun _ => Zsum n (fun _ => Zsum k (fun _ => 1) + 2)))].
Proof. change (2 ^ 64) with W.
  intros m n k B. unfold complexity_gemm. rewrite !Zsum_const.
  assert (0 <= Z.of_nat m * Z.of_nat n) by lia.
  assert (E1 : wmul (wmul (Z.of_nat m) (Z.of_nat n)) (wadd (Z.of_nat k) 1) = Z.of_nat m * Z.of_nat n * (Z.of_nat k + 1)).
  { apply eqv_small; [solve [words]|apply word_mul|]. split; [apply Z.mul_nonneg_nonneg; lia|]. lia. }
  assert (E2 : wmul (wmul (Z.of_nat m) (Z.of_nat n)) (wadd (Z.of_nat k) 2) = Z.of_nat m * Z.of_nat n * (Z.of_nat k + 2)).
  { apply eqv_small; [solve [words]|apply word_mul|]. split; [apply Z.mul_nonneg_nonneg; lia|]. lia. }
  rewrite E1, E2. replace (Z.of_nat m * (Z.of_nat n * (Z.of_nat k * 1 + 1))) with (Z.of_nat m * Z.of_nat n * (Z.of_nat k + 1)) by ring. replace (Z.of_nat m * (Z.of_nat n * (Z.of_nat k * 1 + 2))) with (Z.of_nat m * Z.of_nat n * (Z.of_nat k + 2)) by ring. reflexivity.
Qed.
Theorem C56_syrk : forall m k, Z.of_nat m * (Z.of_nat m + 1) * Z.of_nat k < 2 ^ 64 ->
  let t := Zsum m (fun i => Zsum (i + 1) (fun j => Zsum k (fun l => 1))) in
  complexity_syrk (Z.of_nat m) (Z.of_nat k) = Ok [("add"%string, t); ("mul"%string, t)].
Proof. change (2 ^ 64) with W.
  intros m k B t. assert (T : Z.of_nat m * (Z.of_nat m + 1) * Z.of_nat k = 2 * t).
  { unfold t. clear. rewrite (Zsum_ext m _ (fun i => (Z.of_nat i + 1) * Z.of_nat k)) by (intros; rewrite !Zsum_const; lia). induction m; cbn [Zsum]; lia. }
  unfold complexity_syrk. assert (E : wmul (wmul (Z.of_nat m) (wadd (Z.of_nat m) 1)) (Z.of_nat k) = 2 * t).
  { rewrite <- T. apply eqv_small; [solve [words]|apply word_mul|]. split; [|exact B]. apply Z.mul_nonneg_nonneg; lia. }
  rewrite E, (half _ t) by auto. reflexivity.
Qed.
Theorem C56_substitution : forall unit m n, Z.of_nat m * Z.of_nat m < 2 ^ 64 -> Z.of_nat m * (Z.of_nat m - 1) * Z.of_nat n < 2 ^ 64 ->
  let t := Zsum n (fun j => Zsum m (fun i => Zsum i (fun k => 1))) in
  complexity_trsm2 unit (Z.of_nat m) (Z.of_nat n) = Ok [("add"%string, t); ("mul"%string, t); ("div"%string, if unit then 0 else Z.of_nat m)].
Proof. change (2 ^ 64) with W.
  intros unit m n B0 B t. set (h := Zsum m (fun i => Zsum i (fun k => 1))) in t.
  assert (Hh : Z.of_nat m * Z.of_nat m - Z.of_nat m = 2 * h).
  { unfold h. clear. rewrite (Zsum_ext m _ (fun i => Z.of_nat i)) by (intros; rewrite Zsum_const; lia). induction m; cbn [Zsum]; lia. }
  assert (Ph : 0 <= h) by (unfold h; repeat (apply Zsum_nonneg; intros); lia).
  unfold complexity_trsm2. assert (E : wsub (wmul (Z.of_nat m) (Z.of_nat m)) (Z.of_nat m) = 2 * h).
  { rewrite <- Hh. apply eqv_small; [solve [words]|apply word_sub|]. lia. }
  rewrite E, (half _ h) by auto. assert (Ht : t = h * Z.of_nat n) by (unfold t; rewrite Zsum_const; ring).
  assert (E2 : wmul h (Z.of_nat n) = t).
  { rewrite Ht. apply eqv_small; [solve [words]|apply word_mul|]. split; [apply Z.mul_nonneg_nonneg; lia|]. nia. }
  rewrite E2. reflexivity.
Qed.
Theorem C56_iamax : forall n, (0 < n)%nat -> Z.of_nat n < 2 ^ 64 -> complexity_iamax (Z.of_nat n) = Ok [("cmp"%string, Z.of_nat n - 1); ("abs"%string, Z.of_nat n)].
Proof. change (2 ^ 64) with W. intros n H B. unfold complexity_iamax, wsub. rewrite Z.mod_small by lia. reflexivity. Qed.

(** The value the counter [k] has after the assignments [r] (latest first). *)
Definition has_value (r : list (string * Z)) (k : string) (v : Z) : Prop := exists r1 r2, r = r1 ++ (k, v) :: r2 /\ forall v', ~ In (k, v') r1.
(** The operations that count as floating-point operations. *)
Definition total_flops (c : list (string * Z)) : Z :=
  fold_right (fun kv s => (if string_dec (fst kv) "add" then snd kv else if string_dec (fst kv) "mul" then snd kv else 0) + s) 0 c.
Lemma find_op_None : forall c k, ~ In k (map fst c) -> find_op c k = None.
Proof. induction c as [|[k v] c IH]; intros k' H; cbn; auto. destruct (string_dec k k') as [->|]; [exfalso; apply H; left; auto|apply IH; intro; apply H; right; auto]. Qed.
Lemma total_none : forall c, ~ In "add"%string (map fst c) -> ~ In "mul"%string (map fst c) -> total_flops c = 0.
Proof.
  induction c as [|[k v] c IH]; intros H1 H2; auto. cbn in H1, H2. change (total_flops ((k, v) :: c)) with ((if string_dec k "add" then v else if string_dec k "mul" then v else 0) + total_flops c). destruct (string_dec k "add") as [->|]; [exfalso; auto|]. destruct (string_dec k "mul") as [->|]; [exfalso; auto|].
  rewrite IH; auto.
Qed.
Lemma total_find : forall c, NoDup (map fst c) ->
  total_flops c = match find_op c "add" with Some v => v | None => 0 end + match find_op c "mul" with Some v => v | None => 0 end.
Proof.
  induction c as [|[k v] c IH]; intros ND; [reflexivity|]. cbn in ND. inversion ND as [|x l Hn ND']; subst. specialize (IH ND').
  change (total_flops ((k, v) :: c)) with ((if string_dec k "add" then v else if string_dec k "mul" then v else 0) + total_flops c). cbn [find_op].
  destruct (string_dec k "add") as [->|]; [|destruct (string_dec k "mul") as [->|]].
  - destruct (string_dec "add" "mul"); [discriminate|]. rewrite IH, (find_op_None c "add" Hn). lia.
  - rewrite IH, (find_op_None c "mul" Hn). lia.
  - rewrite IH. lia.
Qed.
Lemma find_op_In : forall c k v, find_op c k = Some v -> In (k, v) c.
Proof. induction c as [|[k v] c IH]; intros k' v' H; cbn in H; [discriminate|]. destruct (string_dec k k') as [->|]; [injection H as ->; left; auto|right; auto]. Qed.
(** The counter "flops" is the number of additions and multiplications (also when one of the entries is missing); the counter "f.k" is the number of operations of kind k. *)
Theorem C56_counters : forall counters c, NoDup (map fst c) -> (forall k v, In (k, v) c -> 0 <= v) -> total_flops c < 2 ^ 64 ->
  has_value (set_counters counters c) "flops" (total_flops c) /\ forall k v, In (k, v) c -> has_value (set_counters counters c) ("f." ++ k) v.
Proof. change (2 ^ 64) with W.
  intros counters c ND P B. split.
  - unfold set_counters. cbn [fold_left]. eexists [], _. split; [cbn [app]; f_equal; f_equal|intros v' []].
    rewrite total_find in * by auto. assert (Q : forall k, 0 <= match find_op c k with Some v => v | None => 0 end).
    { intros k. destruct (find_op c k) eqn:E; [|lia]. apply find_op_In in E. eapply P; eauto. }
    pose proof (Q "add"%string) as Q1. pose proof (Q "mul"%string) as Q2.
    destruct (find_op c "add"), (find_op c "mul"); unfold wadd; rewrite ?(Z.mod_small (0 + _)) by lia; rewrite ?Z.mod_small by lia; lia.
  - intros k v Hin.
    assert (G : forall (c acc : complexity), NoDup (map fst c) -> (In (k, v) c \/ (has_value acc ("f." ++ k) v /\ ~ In k (map fst c))) ->
      has_value (fold_left (fun acc v => (("f." ++ fst v)%string, snd v) :: acc) c acc) ("f." ++ k) v).
    { clear. induction c as [|[k' v'] c IH]; intros acc ND [H|[H N]]; cbn [fold_left]; [destruct H|exact H| |].
      - inversion ND as [|x l Hn ND']; subst. apply IH; auto. destruct H as [E|H]; [injection E as -> ->|auto]. right. split; auto.
        exists [], acc. split; [reflexivity|intros v' []].
      - inversion ND as [|x l Hn ND']; subst. apply IH; auto. right. split; [|intro; apply N; right; auto].
        destruct H as (r1 & r2 & -> & Hr). exists (("f." ++ k', v')%string :: r1), r2. split; [reflexivity|]. intros v'' [E|E]; [|eapply Hr; eauto].
        apply N. left. injection E as E _. cbn [fst]. auto. }
    destruct (G c counters ND (or_introl Hin)) as (r1 & r2 & E & Hr). unfold set_counters. rewrite E.
    eexists (_ :: r1), r2. split; [reflexivity|]. intros v' [F|F]; [discriminate|eapply Hr; eauto].
Qed.

(** Examples. *)
Example C56_ex : complexity_potrf 10 4 = Ok [("add", 46); ("mul", 46); ("div", 34); ("sqrt", 4)]%string /\ potrf_mul 10 4 = 46 /\ potrf_div 10 4 = 34.
Proof. vm_compute. auto. Qed.
Example C56_ex_getrf : complexity_getrf 12 2 = Ok [("add", 3074457345618258514); ("mul", 3074457345618258514); ("div", 66)]%string /\
  complexity_getrf 2 12 = complexity_getrf 12 2.
Proof. vm_compute. auto. Qed.
Example C56_ex_counters : forall r, set_counters [] [("add", 3); ("mul", 4)]%string = r -> find_op r "flops" = Some 7 /\ find_op r "f.mul" = Some 4 /\
  NoDup (map fst [("add", 3); ("mul", 4)]%string) /\ total_flops [("add", 3); ("mul", 4)]%string = 7.
Proof. intros r <-. split; [reflexivity|]. split; [reflexivity|]. split; [|reflexivity]. repeat constructor; cbn; intuition discriminate. Qed.
