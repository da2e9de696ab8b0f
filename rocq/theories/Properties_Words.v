(** Properties_Words.v -- C62: construction of the dynamic containers in 64-bit size_t arithmetic. *)
From Coq Require Import Arith Lia List Bool PeanoNat NArith.
From Verif Require Import Base Layout_Model Layout_Proofs Words_Model.
Local Open Scope N_scope.

Lemma W_nz : W64 <> 0. Proof. discriminate. Qed.
Lemma mul64_mod : forall a b a' b', a = a' mod W64 -> b = b' mod W64 -> mul64 a b = (a' * b') mod W64.
Proof. intros a b a' b' -> ->. unfold mul64. rewrite <- N.mul_mod by exact W_nz. reflexivity. Qed.
Lemma add64_mod : forall a b a' b', a = a' mod W64 -> b = b' mod W64 -> add64 a b = (a' + b') mod W64.
Proof. intros a b a' b' -> ->. unfold add64. rewrite <- N.add_mod by exact W_nz. reflexivity. Qed.
Lemma nm64_mod : forall v f : nat, (0 < f)%nat -> N.of_nat f < W64 -> nextMultiple64 (N.of_nat v) (N.of_nat f) = N.of_nat (nextMultiple v f) mod W64.
Proof.
  intros v f Hf Hf2. unfold nextMultiple64, nextMultiple. set (F := N.of_nat f). set (V := N.of_nat v).
  assert (HF : 0 < F) by (unfold F; lia). assert (Hr : V mod F < F) by (apply N.mod_lt; lia).
  replace (F + W64 - V mod F) with ((F - V mod F) + 1 * W64) by lia.
  rewrite N.mod_add by exact W_nz. rewrite (N.mod_small (F - V mod F) W64) by (apply N.le_lt_trans with F; [apply N.le_sub_l|exact Hf2]).
  f_equal. rewrite Nat2N.inj_add. fold V. f_equal. apply N2Nat.inj. rewrite Nat2N.id, !N2Nat.inj_mod, N2Nat.inj_sub, N2Nat.inj_mod by lia.
  unfold F, V. rewrite !Nat2N.id. reflexivity.
Qed.
Lemma of_nat_div : forall a b, N.of_nat (a / b) = N.of_nat a / N.of_nat b. Proof. apply Nat2N.inj_div. Qed.
Lemma of_nat_mod : forall a b, N.of_nat (a mod b) = N.of_nat a mod N.of_nat b. Proof. apply Nat2N.inj_mod. Qed.

Lemma div_small_W : forall a b, b <> 0 -> a < W64 -> a / b < W64.
Proof. intros a b Hb H. apply N.le_lt_trans with a; auto. apply N.div_le_upper_bound; auto. nia. Qed.
Lemma mod_small_W : forall a b, b <> 0 -> a < W64 -> a mod b < W64.
Proof. intros a b Hb H. apply N.le_lt_trans with a; auto. apply N.mod_le; auto. Qed.

Section Words.
Variables (SS : nat) (HSS : (0 < SS)%nat) (HW : N.of_nat SS < W64) (k : kind) (so : order) (m n : nat) (Hm : N.of_nat m < W64) (Hn : N.of_nat n < W64).
Let S' := N.of_nat SS. Let m' := N.of_nat m. Let n' := N.of_nat n.
Let c := Cont k false so m n 0.
Lemma spacing64_mod : spacing64 S' k so m' n' = N.of_nat (c_spacing SS c) mod W64.
Proof.
  unfold spacing64, c_spacing, c; destruct k, so; cbn [c_kind c_so c_rows c_cols]; unfold S', m', n'; try (apply nm64_mod; auto);
    rewrite Nat2N.inj_mul; apply mul64_mod; symmetry; apply N.mod_small; auto.
Qed.
Lemma small : forall x, x < W64 -> x = x mod W64. Proof. intros. symmetry. apply N.mod_small. auto. Qed.
Lemma count64_mod : count64 S' k so m' n' = N.of_nat (c_capacity SS c) mod W64.
Proof.
  unfold count64. cbv zeta. unfold c_capacity. cbv zeta. pose proof spacing64_mod as E. destruct k, so; cbn [c c_kind c_so c_rows c_cols c_static];
    rewrite Nat2N.inj_mul; apply mul64_mod; auto using small; apply nm64_mod; auto.
Qed.
Lemma index64_mod : forall i j : nat, N.of_nat i < W64 -> N.of_nat j < W64 ->
  index64 S' k so m' n' (N.of_nat i) (N.of_nat j) = N.of_nat (c_index SS c i j) mod W64.
Proof.
  intros i j Hi Hj. unfold index64. cbv zeta. unfold c_index. cbv zeta. pose proof spacing64_mod as E. destruct k, so; cbn [c c_kind c_so];
    rewrite ?Nat2N.inj_add, ?Nat2N.inj_mul, ?of_nat_div, ?of_nat_mod; fold S';
    assert (NZ : S' <> 0) by (unfold S'; lia).
  all: repeat first [apply add64_mod | apply mul64_mod]; auto using small.
  all: apply small; first [apply div_small_W | apply mod_small_W]; auto.
Qed.
End Words.

(** If the exact number of bytes does not exceed the limit of new[], the constructor allocates exactly capacity() elements, computed without wrap-around, and the 64-bit index computation finds
    every element, inside the array, at its own place. *)
Theorem C62_construct : forall (SS sz : nat) limit k so (m n : nat), (0 < SS)%nat -> N.of_nat SS < 2 ^ 64 -> (0 < sz)%nat ->
  N.of_nat m < 2 ^ 64 -> N.of_nat n < 2 ^ 64 -> limit < 2 ^ 64 ->
  let c := Cont k false so m n 0 in let idx i j := index64 (N.of_nat SS) k so (N.of_nat m) (N.of_nat n) (N.of_nat i) (N.of_nat j) in
  N.of_nat (c_capacity SS c) * N.of_nat sz <= limit ->
  construct64 (N.of_nat SS) (N.of_nat sz) limit k so (N.of_nat m) (N.of_nat n) = Some (N.of_nat (c_capacity SS c)) /\
  (forall i j, (i < m)%nat -> (j < n)%nat -> idx i j = N.of_nat (c_index SS c i j) /\ idx i j < N.of_nat (c_capacity SS c)) /\
  (forall i j i' j', (i < m)%nat -> (j < n)%nat -> (i' < m)%nat -> (j' < n)%nat -> idx i j = idx i' j' -> i = i' /\ j = j').
Proof. change (2 ^ 64)%N with W64.
  intros SS sz limit k so m n HSS HW Hsz Hm Hn HL c idx HC.
  assert (HCW : N.of_nat (c_capacity SS c) < W64) by nia.
  assert (IX : forall i j, (i < m)%nat -> (j < n)%nat -> idx i j = N.of_nat (c_index SS c i j) /\ idx i j < N.of_nat (c_capacity SS c)).
  { intros i j Hi Hj. pose proof (c_index_bound SS HSS c i j Hi Hj) as B. unfold idx. rewrite (index64_mod SS HSS HW k so m n Hm Hn i j) by lia. fold c.
    rewrite N.mod_small by lia. split; auto. lia. }
  split; [|split; auto].
  - unfold construct64. rewrite (count64_mod SS HSS HW k so m n Hm Hn). fold c. rewrite N.mod_small by auto. cbv zeta.
    rewrite (proj2 (N.leb_le _ _)) by auto. reflexivity.
  - intros i j i' j' Hi Hj Hi' Hj' E. rewrite (proj1 (IX i j Hi Hj)), (proj1 (IX i' j' Hi' Hj')) in E. apply Nat2N.inj in E.
    apply (c_index_inj SS HSS c) in E; auto.
Qed.
(** In general the array has the exact number of elements modulo 2^64, so a constructor that does not throw provides either all or far too few of them. *)
Theorem C62_construct_mod : forall (SS sz : nat) limit k so (m n : nat) cnt, (0 < SS)%nat -> N.of_nat SS < 2 ^ 64 -> N.of_nat m < 2 ^ 64 -> N.of_nat n < 2 ^ 64 ->
  let need := N.of_nat (c_capacity SS (Cont k false so m n 0)) in
  construct64 (N.of_nat SS) (N.of_nat sz) limit k so (N.of_nat m) (N.of_nat n) = Some cnt ->
  cnt = need mod 2 ^ 64 /\ cnt * N.of_nat sz <= limit /\ (cnt = need \/ cnt + 2 ^ 64 <= need).
Proof. change (2 ^ 64)%N with W64.
  intros SS sz limit k so m n cnt HSS HW Hm Hn need E. unfold construct64 in E. cbv zeta in E. rewrite (count64_mod SS HSS HW k so m n Hm Hn) in E. fold need in E.
  destruct (N.leb_spec (need mod W64 * N.of_nat sz) limit); [|discriminate]. injection E as <-. split; auto. split; auto.
  pose proof (N.div_mod need W64 W_nz) as D. destruct (N.eq_dec (need / W64) 0) as [Z|Z]; [left; rewrite Z, N.mul_0_r, N.add_0_l in D; auto|right]. assert (1 <= need / W64) by (apply N.neq_0_lt_0 in Z; apply N.le_succ_l in Z; exact Z). rewrite D at 2. rewrite N.add_comm. apply N.add_le_mono_r. rewrite <- (N.mul_1_r W64) at 1. apply N.mul_le_mono_l; auto.
Qed.
(** DynamicMatrix<double>(4, 2^62) and DynamicPanelMatrix<double>(2^30, 2^34) (AVX2, limit PTRDIFF_MAX) are constructed without an exception and without any element; nextMultiple
    wraps for 2^64 - 1 rows. *)
Theorem C62_wrap_refuted :
  let construct := construct64 4 8 (2 ^ 63 - 1) in
  construct Dense columnMajor 4 (2 ^ 62) = Some 0 /\ construct Panel columnMajor (2 ^ 30) (2 ^ 34) = Some 0 /\ construct Dense columnMajor (2 ^ 64 - 1) 7 = Some 0 /\
  construct Dense rowMajor (2 ^ 62 + 1) 1 = Some 4 /\ index64 4 Dense rowMajor (2 ^ 62 + 1) 1 1 0 = 4.
Proof. vm_compute. auto. Qed.
Example C62_example : construct64 4 8 (2 ^ 63 - 1) Panel columnMajor 5 6 = Some 192 /\ N.of_nat (c_capacity 4 (Cont Panel false columnMajor 5 6 0)) * 8 <= 2 ^ 63 - 1 /\
  index64 4 Panel columnMajor 5 6 4 3 = 36.
Proof. split; [reflexivity|]. split; [|reflexivity]. apply N.leb_le. vm_compute. reflexivity. Qed.
