(** LU_Theory.v -- Gaussian elimination with row interchanges on matrices as functions. *)
From Coq Require Import Arith Lia List Bool PeanoNat Ring.
From Verif Require Import Base Spec Algebra_Proofs.

Lemma interchange_l : forall p q, interchange p q p = q.
Proof. intros. unfold interchange. rewrite Nat.eqb_refl. reflexivity. Qed.
Lemma interchange_r : forall p q, interchange p q q = p.
Proof. intros. unfold interchange. destruct (Nat.eqb_spec q p) as [->|]; auto. rewrite Nat.eqb_refl. reflexivity. Qed.
Lemma interchange_o : forall p q i, i <> p -> i <> q -> interchange p q i = i.
Proof. intros. unfold interchange. destruct (Nat.eqb_spec i p), (Nat.eqb_spec i q); try lia. Qed.
Lemma interchange_invol : forall p q i, interchange p q (interchange p q i) = i.
Proof.
  intros. destruct (Nat.eq_dec i p) as [->|]; [rewrite interchange_l, interchange_r; auto|].
  destruct (Nat.eq_dec i q) as [->|]; [rewrite interchange_r, interchange_l; auto|]. rewrite (interchange_o p q i) by auto. apply interchange_o; auto.
Qed.
Lemma interchange_lt : forall p q i m, p < m -> q < m -> i < m -> interchange p q i < m.
Proof. intros. unfold interchange. destruct (i =? p), (i =? q); auto. Qed.
Lemma interchange_ge : forall p q i k, k <= p -> k <= q -> (k <= i <-> k <= interchange p q i).
Proof. intros. unfold interchange. destruct (Nat.eqb_spec i p), (Nat.eqb_spec i q); lia. Qed.
Lemma interchange_same : forall p i, interchange p p i = i.
Proof. intros. unfold interchange. destruct (Nat.eqb_spec i p); auto. Qed.
Lemma interchange_shift : forall k p q i, k <= q -> interchange (k + p) q (k + i) = k + interchange p (q - k) i.
Proof. intros. unfold interchange. destruct (Nat.eqb_spec (k + i) (k + p)), (Nat.eqb_spec i p), (Nat.eqb_spec (k + i) q), (Nat.eqb_spec i (q - k)); lia. Qed.

(** Each row of the interchanged matrix is a row of the original matrix and vice versa. *)
Lemma interchanged_row : forall T (p : nat -> nat) k0 n m (a : nat -> nat -> T), k0 + n <= m -> (forall l, l < n -> p (k0 + l) < m) ->
  forall i, i < m -> exists i', i' < m /\ forall j, interchanged p k0 n a i j = a i' j.
Proof.
  intros T p k0 n m a. induction n as [|n IH]; intros Hm Hp i Hi; cbn [interchanged]; eauto.
  apply IH; auto; try lia. apply interchange_lt; auto; lia.
Qed.
Lemma interchanged_row_inv : forall T (p : nat -> nat) k0 n m (a : nat -> nat -> T), k0 + n <= m -> (forall l, l < n -> p (k0 + l) < m) ->
  forall i, i < m -> exists i', i' < m /\ forall j, interchanged p k0 n a i' j = a i j.
Proof.
  intros T p k0 n m a. induction n as [|n IH]; intros Hm Hp i Hi; cbn [interchanged]; eauto.
  destruct (IH ltac:(lia) ltac:(auto) i Hi) as (i' & Hi' & E). exists (interchange (k0 + n) (p (k0 + n)) i').
  split; [apply interchange_lt; auto; lia|]. intros j. rewrite interchange_invol. auto.
Qed.
Lemma interchanged_ext : forall T (p p' : nat -> nat) k0 n m (a a' : nat -> nat -> T) j, k0 + n <= m -> (forall l, l < n -> p (k0 + l) < m) ->
  (forall l, l < n -> p' (k0 + l) = p (k0 + l)) -> (forall i, i < m -> a' i j = a i j) ->
  forall i, i < m -> interchanged p' k0 n a' i j = interchanged p k0 n a i j.
Proof.
  intros T p p' k0 n m a a' j. induction n as [|n IH]; intros Hm Hp Hpp Ha i Hi; cbn [interchanged]; auto.
  rewrite Hpp by lia. apply IH; auto; try lia. apply interchange_lt; auto; lia.
Qed.
Lemma interchanged_app : forall T (p : nat -> nat) k0 n n' (a : nat -> nat -> T) i j,
  interchanged p (k0 + n) n' (interchanged p k0 n a) i j = interchanged p k0 (n + n') a i j.
Proof.
  intros T p k0 n n' a. induction n' as [|n' IH]; intros i j.
  - rewrite Nat.add_0_r. reflexivity.
  - rewrite Nat.add_succ_r. cbn [interchanged]. rewrite IH. rewrite Nat.add_assoc. reflexivity.
Qed.
Lemma interchanged_shift : forall T (p : nat -> nat) k n (a : nat -> nat -> T) i j, (forall l, l < n -> k <= p (k + l)) ->
  interchanged p k n a (k + i) j = interchanged (fun l => p (k + l) - k) 0 n (fun i j => a (k + i) j) i j.
Proof.
  intros T p k n a. induction n as [|n IH]; intros i j H; cbn [interchanged]; auto.
  rewrite interchange_shift by auto. rewrite IH by auto. reflexivity.
Qed.
Lemma interchanged_low : forall T (p : nat -> nat) k n (a : nat -> nat -> T) i j, (forall l, l < n -> k <= p (k + l)) -> i < k ->
  interchanged p k n a i j = a i j.
Proof.
  intros T p k n a. induction n as [|n IH]; intros i j H Hi; cbn [interchanged]; auto.
  specialize (H n) as Hn. rewrite interchange_o by lia. apply IH; auto.
Qed.

Section LU.
Context {T : Type} (O : Ops T).
(** The update of the trailing matrix: multiplier, element of U, old element. *)
Variable el : T -> T -> T -> T.

Definition swap_rows (p q : nat) (a : nat -> nat -> T) (i j : nat) : T := a (interchange p q i) j.
Definition eliminate (k : nat) (a : nat -> nat -> T) (i j : nat) : T :=
  if k <? i then
    let f := odiv O (a i k) (a k k) in
    if j =? k then f else if k <? j then el f (a k j) (a i j) else a i j
  else a i j.
(** n steps of elimination with the given interchanges. *)
Fixpoint lu_after (p : nat -> nat) (n : nat) (a : nat -> nat -> T) : nat -> nat -> T :=
  match n with
  | 0 => a
  | S k => eliminate k (swap_rows k (p k) (lu_after p k a))
  end.

Lemma eliminate_top : forall k a i j, i <= k -> eliminate k a i j = a i j.
Proof. intros. unfold eliminate. destruct (Nat.ltb_spec k i); auto; lia. Qed.
Lemma eliminate_left : forall k a i j, j < k -> eliminate k a i j = a i j.
Proof. intros. unfold eliminate. destruct (k <? i), (Nat.eqb_spec j k), (Nat.ltb_spec k j); auto; lia. Qed.
Lemma eliminate_col : forall k a i, k < i -> eliminate k a i k = odiv O (a i k) (a k k).
Proof. intros. unfold eliminate. rewrite (proj2 (Nat.ltb_lt k i)), Nat.eqb_refl by auto. reflexivity. Qed.
Lemma eliminate_in : forall k a i j, k < i -> k < j -> eliminate k a i j = el (odiv O (a i k) (a k k)) (a k j) (a i j).
Proof.
  intros. unfold eliminate. rewrite (proj2 (Nat.ltb_lt k i)), (proj2 (Nat.ltb_lt k j)) by auto. destruct (Nat.eqb_spec j k); auto; lia.
Qed.
Lemma eliminate_ext : forall k a a' m n i j, k < m -> k < n -> (forall i j, i < m -> j < n -> a i j = a' i j) -> i < m -> j < n ->
  eliminate k a i j = eliminate k a' i j.
Proof. intros k a a' m n i j Hk Hk' H Hi Hj. unfold eliminate. rewrite !H by auto. reflexivity. Qed.

Lemma lu_rows : forall p k t a i j, (forall l, l < t -> k <= p (k + l)) -> i < k -> lu_after p (k + t) a i j = lu_after p k a i j.
Proof.
  intros p k t a i j Hp Hi. induction t as [|t IH]; [rewrite Nat.add_0_r; auto|].
  rewrite Nat.add_succ_r. cbn [lu_after]. rewrite eliminate_top by lia. unfold swap_rows.
  specialize (Hp t) as Ht. rewrite interchange_o by lia. apply IH. auto.
Qed.
Lemma lu_cols : forall p k t a i j, j < k -> lu_after p (k + t) a i j = interchanged p k t (lu_after p k a) i j.
Proof.
  intros p k t a i j Hj. revert i. induction t as [|t IH]; intros i; [rewrite Nat.add_0_r; auto|].
  rewrite Nat.add_succ_r. cbn [lu_after interchanged]. rewrite eliminate_left by lia. apply IH.
Qed.
Lemma lu_shift : forall p k t a i j, (forall l, l < t -> k <= p (k + l)) ->
  lu_after p (k + t) a (k + i) (k + j) = lu_after (fun l => p (k + l) - k) t (fun i j => lu_after p k a (k + i) (k + j)) i j.
Proof.
  intros p k t a. induction t as [|t IH]; intros i j Hp; [rewrite Nat.add_0_r; auto|].
  rewrite Nat.add_succ_r. cbn [lu_after].
  assert (E : forall i j, swap_rows (k + t) (p (k + t)) (lu_after p (k + t) a) (k + i) (k + j) =
                          swap_rows t (p (k + t) - k) (lu_after (fun l => p (k + l) - k) t (fun i j => lu_after p k a (k + i) (k + j))) i j).
  { intros i' j'. unfold swap_rows. rewrite interchange_shift by auto. apply IH. auto. }
  unfold eliminate. rewrite !E.
  destruct (Nat.ltb_spec (k + t) (k + i)), (Nat.ltb_spec t i); try lia; auto.
  destruct (Nat.eqb_spec (k + j) (k + t)), (Nat.eqb_spec j t); try lia; auto.
  destruct (Nat.ltb_spec (k + t) (k + j)), (Nat.ltb_spec t j); try lia; auto.
Qed.
Lemma lu_ext : forall p p' t a a' m n, t <= m -> t <= n -> (forall l, l < t -> p l < m) -> (forall l, l < t -> p' l = p l) ->
  (forall i j, i < m -> j < n -> a' i j = a i j) -> forall i j, i < m -> j < n -> lu_after p' t a' i j = lu_after p t a i j.
Proof.
  intros p p' t a a' m n. induction t as [|t IH]; intros Hm Hn Hp Hpp Ha i j Hi Hj; auto. cbn [lu_after].
  apply (eliminate_ext t _ _ m n); auto. intros i' j' Hi' Hj'. unfold swap_rows. rewrite Hpp by lia.
  apply IH; auto; try lia. apply interchange_lt; auto.
Qed.

(** The pivots of the first n steps are not zero. *)
Definition pivots_ok (p : nat -> nat) (n : nat) (a : nat -> nat -> T) : Prop :=
  forall l, l < n -> l <= p l /\ lu_after p l a (p l) l <> o0 O.

Lemma lu_diag : forall p n a l, (forall l, l < n -> l <= p l) -> l < n -> lu_after p n a l l = lu_after p l a (p l) l.
Proof.
  intros p n a l Hp Hl. replace n with (Datatypes.S l + (n - Datatypes.S l)) by lia. rewrite lu_rows; auto.
  - cbn [lu_after]. rewrite eliminate_top by lia. unfold swap_rows. rewrite interchange_l. reflexivity.
  - intros l' Hl'. specialize (Hp (Datatypes.S l + l')). lia.
Qed.

Hypothesis FL : field_laws O.
Hypothesis EL : forall l u a, el l u a = osub O a (omul O l u).
Add Ring alglu : (alg_ring O (fl_ring O FL)).
Let RL := fl_ring O FL.
Notation L := (unit_lower O). Notation U := (upper_trap O).

(** The interchanged matrix is L * U plus what remains to be factored. *)
Lemma lu_factor : forall p n A, pivots_ok p n A -> forall i j,
  interchanged p 0 n A i j =
  oadd O (sum O n (fun l => omul O (L (lu_after p n A) i l) (U (lu_after p n A) l j)))
         (if (n <=? i) && (n <=? j) then lu_after p n A i j else o0 O).
Proof.
  intros p n A. induction n as [|k IH]; intros PO i j.
  - cbn [interchanged sum lu_after Nat.leb andb]. ring.
  - assert (PK : pivots_ok p k A) by (intros l Hl; apply PO; lia).
    destruct (PO k ltac:(lia)) as [Hpk Hnz]. specialize (IH PK).
    cbn [interchanged Nat.add]. rewrite IH. clear IH.
    set (b := lu_after p k A) in *. set (a1 := swap_rows k (p k) b).
    assert (Ea : lu_after p (Datatypes.S k) A = eliminate k a1) by reflexivity. rewrite Ea.
    set (i1 := interchange k (p k) i).
    assert (Hd : a1 k k <> o0 O). { unfold a1, swap_rows. rewrite interchange_l. exact Hnz. }
    assert (GE : k <= i <-> k <= i1) by (apply interchange_ge; auto).
    assert (S1 : sum O k (fun l => omul O (L b i1 l) (U b l j)) = sum O k (fun l => omul O (L (eliminate k a1) i l) (U (eliminate k a1) l j))).
    { apply sum_ext. intros l Hl. f_equal.
      - unfold unit_lower. rewrite eliminate_left by lia. unfold a1, swap_rows. fold i1.
        destruct (Nat.lt_ge_cases i k) as [C|C].
        + assert (E1 : i1 = i) by (unfold i1; rewrite interchange_o; lia). rewrite E1. reflexivity.
        + rewrite (proj2 (Nat.ltb_lt l i1)), (proj2 (Nat.ltb_lt l i)) by lia. reflexivity.
      - unfold upper_trap. rewrite eliminate_top by lia. unfold a1, swap_rows. rewrite interchange_o by lia. reflexivity. }
    rewrite S1. cbn [sum]. set (s := sum O k _).
    assert (R : (if (k <=? i1) && (k <=? j) then b i1 j else o0 O) =
                oadd O (omul O (L (eliminate k a1) i k) (U (eliminate k a1) k j))
                  (if (Datatypes.S k <=? i) && (Datatypes.S k <=? j) then eliminate k a1 i j else o0 O)).
    { change (b i1 j) with (a1 i j). unfold upper_trap. rewrite eliminate_top by lia.
      destruct (Nat.leb_spec k j) as [C1|C1].
      2:{ rewrite andb_false_r. destruct (Nat.leb_spec (Datatypes.S k) j); [lia|]. rewrite andb_false_r. ring. }
      destruct (Nat.lt_total i k) as [C|[->|C]].
      - destruct (Nat.leb_spec k i1); [lia|]. destruct (Nat.leb_spec (Datatypes.S k) i); [lia|]. cbn [andb].
        unfold unit_lower. destruct (Nat.ltb_spec k i), (Nat.eqb_spec k i); try lia. ring.
      - destruct (Nat.leb_spec k i1); [|lia]. destruct (Nat.leb_spec (Datatypes.S k) k); [lia|]. cbn [andb].
        unfold unit_lower. rewrite Nat.ltb_irrefl, Nat.eqb_refl. ring.
      - destruct (Nat.leb_spec k i1); [|lia]. destruct (Nat.leb_spec (Datatypes.S k) i); [|lia]. cbn [andb].
        unfold unit_lower. rewrite (proj2 (Nat.ltb_lt k i)) by auto. rewrite eliminate_col by auto.
        destruct (Nat.leb_spec (Datatypes.S k) j) as [C2|C2].
        + rewrite eliminate_in by lia. rewrite EL. ring.
        + assert (j = k) by lia. subst j. rewrite (fl_div O FL) by auto. ring. }
    rewrite R. ring.
Qed.

(** Forward substitution determines the rows of U and the remainder. *)
Lemma forward_unique : forall M n (l : nat -> nat -> T) (u u' r r' B : nat -> T), n <= M ->
  (forall i, i < M -> B i = oadd O (sum O n (fun k => omul O (L l i k) (u k))) (if n <=? i then r i else o0 O)) ->
  (forall i, i < M -> B i = oadd O (sum O n (fun k => omul O (L l i k) (u' k))) (if n <=? i then r' i else o0 O)) ->
  (forall i, i < n -> u i = u' i) /\ (forall i, n <= i < M -> r i = r' i).
Proof.
  intros M n l u u' r r' B Hn H H'.
  assert (K : forall i, i < n -> u i = u' i).
  { intros i. induction i as [i IH] using lt_wf_ind. intros Hi.
    specialize (H i ltac:(lia)). specialize (H' i ltac:(lia)). destruct (Nat.leb_spec n i); [lia|].
    replace n with (i + (1 + (n - i - 1))) in H at 1 by lia. replace n with (i + (1 + (n - i - 1))) in H' at 1 by lia.
    rewrite (sum_split O RL), (sum_split O RL) in H, H'.
    assert (Z : forall v : nat -> T, sum O (n - i - 1) (fun k => omul O (L l i (i + (1 + k))) (v (i + (1 + k)))) = o0 O).
    { intros v. apply (sum_0 O RL). intros k Hk. unfold unit_lower. destruct (Nat.ltb_spec (i + (1 + k)) i), (Nat.eqb_spec (i + (1 + k)) i); try lia. ring. }
    rewrite Z in H, H'. cbn [sum] in H, H'. rewrite Nat.add_0_r in H, H'.
    assert (D : L l i i = o1 O). { unfold unit_lower. rewrite Nat.ltb_irrefl, Nat.eqb_refl. reflexivity. }
    rewrite D in H, H'.
    assert (E : sum O i (fun k => omul O (L l i k) (u k)) = sum O i (fun k => omul O (L l i k) (u' k))).
    { apply sum_ext. intros k Hk. rewrite IH by lia. reflexivity. }
    rewrite E in H. transitivity (osub O (B i) (sum O i (fun k => omul O (L l i k) (u' k)))).
    - rewrite H. ring.
    - rewrite H'. ring. }
  split; auto. intros i Hi. specialize (H i ltac:(lia)). specialize (H' i ltac:(lia)). destruct (Nat.leb_spec n i); [|lia].
  assert (E : sum O n (fun k => omul O (L l i k) (u k)) = sum O n (fun k => omul O (L l i k) (u' k))).
  { apply sum_ext. intros k Hk. rewrite K by lia. reflexivity. }
  rewrite E in H. transitivity (osub O (B i) (sum O n (fun k => omul O (L l i k) (u' k)))).
  - rewrite H. ring.
  - rewrite H'. ring.
Qed.

(** Back substitution. *)
Lemma back_exists : forall n (u : nat -> nat -> T) (b : nat -> T), (forall l, l < n -> u l l <> o0 O) ->
  exists y, forall l, l < n -> sum O n (fun j => omul O (U u l j) (y j)) = b l.
Proof.
  induction n as [|n IH]; intros u b Hu; [exists (fun _ => o0 O); lia|].
  set (yn := odiv O (b n) (u n n)).
  destruct (IH u (fun l => osub O (b l) (omul O (u l n) yn))) as (y & Hy); auto.
  exists (fun j => if j =? n then yn else y j). intros l Hl. cbn [sum]. rewrite Nat.eqb_refl.
  rewrite (sum_ext O n _ (fun j => omul O (U u l j) (y j))).
  2:{ intros j Hj. destruct (Nat.eqb_spec j n); [lia|reflexivity]. }
  destruct (Nat.eq_dec l n) as [->|Nl].
  - rewrite (sum_0 O RL).
    + unfold upper_trap. rewrite Nat.leb_refl. pose proof (fl_div O FL (b n) (u n n) (Hu n ltac:(lia))) as D. fold yn in D.
      rewrite <- D. ring.
    + intros j Hj. unfold upper_trap. destruct (Nat.leb_spec n j); [lia|]. ring.
  - rewrite Hy by lia. unfold upper_trap. destruct (Nat.leb_spec l n); [|lia]. ring.
Qed.
Lemma back_zero : forall n (u : nat -> nat -> T) (x : nat -> T), (forall l, l < n -> u l l <> o0 O) ->
  (forall l, l < n -> sum O n (fun j => omul O (U u l j) (x j)) = o0 O) -> forall j, j < n -> x j = o0 O.
Proof.
  induction n as [|n IH]; intros u x Hu H; [lia|].
  assert (Zn : x n = o0 O).
  { specialize (H n ltac:(lia)). cbn [sum] in H. rewrite (sum_0 O RL) in H.
    - unfold upper_trap in H. rewrite Nat.leb_refl in H. apply (mul_cancel O FL _ _ (u n n)); auto. rewrite (mul_0_l O RL), <- H. ring.
    - intros j Hj. unfold upper_trap. destruct (Nat.leb_spec n j); [lia|]. ring. }
  intros j Hj. destruct (Nat.eq_dec j n) as [->|]; auto. apply (IH u); auto; [|lia].
  intros l Hl. specialize (H l ltac:(lia)). cbn [sum] in H. rewrite Zn in H. rewrite <- H. ring.
Qed.

Lemma upper_diag : forall p n A, pivots_ok p n A -> forall l, l < n -> lu_after p n A l l <> o0 O.
Proof. intros p n A PO l Hl. rewrite lu_diag; auto; [apply PO; auto|]. intros l' Hl'. apply PO; auto. Qed.

(** A zero pivot column: the first k+1 columns are linearly dependent. *)
Lemma lu_stuck_singular : forall p k A m, pivots_ok p k A -> k < m -> (forall l, l < k -> p l < m) ->
  (forall i, k <= i < m -> lu_after p k A i k = o0 O) ->
  exists x, x k = o1 O /\ forall i, i < m -> sum O (k + 1) (fun j => omul O (A i j) (x j)) = o0 O.
Proof.
  intros p k A m PO Hk Hp Hz. set (a := lu_after p k A) in *.
  destruct (back_exists k a (fun l => omul O (om1 O) (a l k))) as (y & Hy); [apply upper_diag; auto|].
  exists (fun j => if j =? k then o1 O else y j). rewrite Nat.eqb_refl. split; auto. intros i Hi.
  destruct (interchanged_row_inv T p 0 k m A ltac:(lia) Hp i Hi) as (i' & Hi' & Ei).
  set (x := fun j => if j =? k then o1 O else y j).
  rewrite (sum_ext O (k + 1) _ (fun j => oadd O (sum O k (fun l => omul O (L a i' l) (omul O (U a l j) (x j)))) (o0 O))).
  - rewrite (sum_ext O (k + 1) _ (fun j => sum O k (fun l => omul O (L a i' l) (omul O (U a l j) (x j))))).
    2:{ intros j Hj. ring. }
    rewrite (sum_swap O RL). apply (sum_0 O RL). intros l Hl. rewrite (sum_scale O RL).
    rewrite Nat.add_1_r. cbn [sum].
    rewrite (sum_ext O k _ (fun j => omul O (U a l j) (y j))).
    2:{ intros j Hj. unfold x. destruct (Nat.eqb_spec j k); [lia|reflexivity]. }
    rewrite Hy by auto. unfold x. rewrite Nat.eqb_refl. unfold upper_trap. destruct (Nat.leb_spec l k); [|lia].
    transitivity (omul O (L a i' l) (omul O (oadd O (o1 O) (om1 O)) (a l k))); [ring|]. rewrite (rl_neg O RL). ring.
  - intros j Hj. change (if j =? k then o1 O else y j) with (x j). rewrite <- Ei. rewrite lu_factor by auto. fold a.
    assert (R : omul O (if (k <=? i') && (k <=? j) then a i' j else o0 O) (x j) = o0 O).
    { destruct (Nat.leb_spec k i'), (Nat.leb_spec k j); cbn [andb]; try ring. assert (j = k) by lia. subst j. rewrite Hz by lia. ring. }
    rewrite (rl_distr O RL), R. f_equal. rewrite (rl_mul_comm O RL _ (x j)), <- (sum_scale O RL). apply sum_ext. intros l Hl. ring.
Qed.

(** All pivots found: the first n columns are linearly independent. *)
Lemma lu_done_regular : forall p n A m, pivots_ok p n A -> n <= m -> (forall l, l < n -> p l < m) ->
  forall x, (forall i, i < m -> sum O n (fun j => omul O (A i j) (x j)) = o0 O) -> forall j, j < n -> x j = o0 O.
Proof.
  intros p n A m PO Hn Hp x Hx. set (a := lu_after p n A).
  apply (back_zero n a x); [apply upper_diag; auto|].
  set (v := fun l => sum O n (fun j => omul O (U a l j) (x j))).
  assert (E : forall i, i < n -> o0 O = oadd O (sum O n (fun l => omul O (L a i l) (v l))) (if n <=? i then o0 O else o0 O)).
  { intros i Hi. destruct (interchanged_row T p 0 n m A ltac:(lia) Hp i ltac:(lia)) as (i' & Hi' & Ei).
    transitivity (sum O n (fun j => omul O (A i' j) (x j))); [symmetry; auto|]. rewrite (sum_ext O n _ (fun j => sum O n (fun l => omul O (L a i l) (omul O (U a l j) (x j))))).
    - rewrite (sum_swap O RL). destruct (n <=? i); rewrite (add_0_r O RL); apply sum_ext; intros l Hl; apply (sum_scale O RL).
    - intros j Hj. rewrite <- Ei, lu_factor by auto. fold a. destruct (Nat.leb_spec n j); [lia|]. rewrite andb_false_r.
      rewrite (add_0_r O RL), (rl_mul_comm O RL), <- (sum_scale O RL). apply sum_ext. intros l Hl. ring. }
  intros l Hl. change (v l = o0 O).
  destruct (forward_unique n n a v (fun _ => o0 O) (fun _ => o0 O) (fun _ => o0 O) (fun _ => o0 O)) as [K _]; auto.
  intros i Hi. rewrite (sum_0 O RL); [destruct (n <=? i); ring|]. intros; ring.
Qed.
End LU.

(* ------------------------------------------------------------------ runs of the algorithm *)
Section Run.
Context {T : Type} (O : Ops T) (el : T -> T -> T -> T).
Definition pivot_max (n : nat) (x : nat -> T) (r : nat) : Prop := r = running_max O n x /\ (comparable O n x -> first_max O n x r).
Lemma running_max_le : forall n (x : nat -> T), running_max O n x <= n - 1.
Proof.
  induction n as [|n IH]; intros x; cbn [running_max]; auto. specialize (IH x). cbv zeta. destruct (oltb O _ _); lia.
Qed.
Lemma running_max_ext : forall n (x x' : nat -> T), (forall i, i < n -> x' i = x i) -> running_max O n x' = running_max O n x.
Proof.
  induction n as [|n IH]; intros x x' E; cbn [running_max]; auto. rewrite (IH x x') by auto. cbv zeta.
  pose proof (running_max_le n x). rewrite !E by lia. reflexivity.
Qed.
(** The interchange of step l is chosen as in partial pivoting. *)
Definition lu_pivot (M : nat) (p : nat -> nat) (l : nat) (A : nat -> nat -> T) : Prop :=
  l <= p l < M /\ pivot_max (M - l) (fun i => lu_after O el p l A (l + i) l) (p l - l).
Definition lu_run (M : nat) (p : nat -> nat) (n : nat) (A : nat -> nat -> T) : Prop :=
  forall l, l < n -> lu_pivot M p l A /\ oeqb O (lu_after O el p l A (p l) l) (o0 O) = false.
(** n steps are not possible: a zero pivot is met. *)
Definition lu_stuck (M n : nat) (A : nat -> nat -> T) : Prop :=
  exists p k, k < n /\ lu_run M p k A /\ lu_pivot M p k A /\ oeqb O (lu_after O el p k A (p k) k) (o0 O) = true.

Lemma lu_piv_ext : forall p p' k A i j, (forall l, l < k -> p' l = p l) -> lu_after O el p' k A i j = lu_after O el p k A i j.
Proof.
  intros p p' k A. induction k as [|k IH]; intros i j H; auto. cbn [lu_after].
  assert (E : forall i j, swap_rows k (p' k) (lu_after O el p' k A) i j = swap_rows k (p k) (lu_after O el p k A) i j).
  { intros i' j'. unfold swap_rows. rewrite H by lia. apply IH. auto. }
  unfold eliminate. rewrite !E. reflexivity.
Qed.
Lemma first_max_ext : forall n (x x' : nat -> T) r, (forall i, i < n -> x' i = x i) -> first_max O n x r -> first_max O n x' r.
Proof.
  intros n x x' r E (H1 & H2 & H3). split; auto. split; intros j Hj; rewrite !E by lia; auto.
Qed.
Lemma pivot_max_ext : forall n (x x' : nat -> T) r, (forall i, i < n -> x' i = x i) -> pivot_max n x r -> pivot_max n x' r.
Proof.
  intros n x x' r E [H0 H]. split; [rewrite H0; symmetry; apply running_max_ext; auto|].
  intros (C1 & C2 & C3). apply (first_max_ext n x x' r E). apply H. cbv zeta in *. split; [|split].
  - intros i Hi. specialize (C1 i Hi). rewrite !E in C1 by auto. auto.
  - intros i j k Hi Hj Hk. specialize (C2 i j k Hi Hj Hk). rewrite !E in C2 by auto. auto.
  - intros i j k Hi Hj Hk. specialize (C3 i j k Hi Hj Hk). rewrite !E in C3 by auto. auto.
Qed.
Lemma ordered_comparable : forall n x, magnitudes_ordered O -> comparable O n x.
Proof. intros n x (H1 & H2 & H3). split; [|split]; cbv zeta; intros; eauto. Qed.
Lemma lu_pivot_ext : forall M N p p' l A A', l < N -> (forall l', l' <= l -> p' l' = p l') -> (forall l', l' < l -> p l' < M) ->
  (forall i j, i < M -> j < N -> A' i j = A i j) -> lu_pivot M p l A -> lu_pivot M p' l A'.
Proof.
  intros M N p p' l A A' Hl Hp HpM HA ((B1 & B2) & F). split.
  - rewrite Hp by lia. auto.
  - rewrite Hp by lia. eapply pivot_max_ext; [|exact F]. intros i Hi. cbn.
    apply (lu_ext O el p p' l A A' M N); auto; lia || (intros; apply Hp; lia).
Qed.
Lemma lu_run_ext : forall M N p p' n A A', n <= N -> (forall l, l < n -> p' l = p l) ->
  (forall i j, i < M -> j < N -> A' i j = A i j) -> lu_run M p n A -> lu_run M p' n A'.
Proof.
  intros M N p p' n A A' Hn Hp HA R l Hl. destruct (R l Hl) as [P Z].
  assert (HpM : forall l', l' <= l -> p l' < M) by (intros l' Hl'; apply R; lia).
  assert (l < M) by (destruct P as [P _]; lia).
  split.
  - apply (lu_pivot_ext M N p p' l A A'); auto; try lia; intros l' Hl'; [apply Hp|apply HpM]; lia.
  - rewrite Hp by lia. rewrite <- Z. f_equal. apply (lu_ext O el p p' l A A' M N); auto; try lia; intros; (apply Hp || apply HpM); lia.
Qed.
End Run.

(* ------------------------------------------------------------------ consequences for exact arithmetic *)
Lemma first_max_unique : forall T (O : Ops T) n x r r', first_max O n x r -> first_max O n x r' -> r = r'.
Proof.
  intros T O n x r r' (A1 & A2 & A3) (B1 & B2 & B3). destruct (Nat.lt_total r r') as [C|[C|C]]; auto.
  - specialize (B3 r C). rewrite A2 in B3 by auto. discriminate.
  - specialize (A3 r' C). rewrite B2 in A3 by auto. discriminate.
Qed.
Lemma lu_run_unique : forall T (O : Ops T) el M p p' n A, magnitudes_ordered O -> lu_run O el M p n A -> lu_run O el M p' n A ->
  forall l, l < n -> p l = p' l.
Proof.
  intros T O el M p p' n A MO R R' l. induction l as [l IH] using lt_wf_ind. intros Hl.
  destruct (R l Hl) as [[P1 P2] _]. destruct (R' l Hl) as [[Q1 Q2] _].
  assert (X : forall i j, lu_after O el p' l A i j = lu_after O el p l A i j).
  { intros i j. apply lu_piv_ext. intros l' Hl'. symmetry. apply IH; lia. }
  assert (p l - l = p' l - l); [|lia]. eapply first_max_unique; [apply P2; apply ordered_comparable; auto|].
  eapply first_max_ext; [|apply Q2; apply ordered_comparable; auto]. intros i Hi. cbn. rewrite X. reflexivity.
Qed.
(** In every arithmetic (also with NaN) the run is determined by the elements of the matrix. *)
Lemma lu_run_det : forall T (O : Ops T) el M N p p' n A A', n <= N -> (forall i j, i < M -> j < N -> A' i j = A i j) ->
  lu_run O el M p n A -> lu_run O el M p' n A' -> forall l, l < n -> p' l = p l.
Proof.
  intros T O el M N p p' n A A' Hn HA R R' l. induction l as [l IH] using lt_wf_ind. intros Hl.
  destruct (R l Hl) as [[P1 [P2 _]] _]. destruct (R' l Hl) as [[Q1 [Q2 _]] _].
  assert (HM : forall l', l' < l -> p l' < M) by (intros l' Hl'; apply R; lia).
  assert (X : forall i j, i < M -> j < N -> lu_after O el p' l A' i j = lu_after O el p l A i j).
  { intros i j Hi Hj. apply (lu_ext O el p p' l A A' M N); auto; try lia. intros; apply IH; lia. }
  assert (p' l - l = p l - l); [|lia]. rewrite P2, Q2. apply running_max_ext. intros i Hi. cbn beta. apply X; lia.
Qed.
Lemma lu_stuck_det : forall T (O : Ops T) el M N p n A A', n <= N -> (forall i j, i < M -> j < N -> A' i j = A i j) ->
  lu_run O el M p n A -> lu_stuck O el M n A' -> False.
Proof.
  intros T O el M N p n A A' Hn HA R (p' & k & Hk & R' & [Q1 [Q2 _]] & Z). destruct (R k Hk) as [[P1 [P2 _]] NZ].
  assert (U : forall l, l < k -> p' l = p l).
  { apply (lu_run_det T O el M N p p' k A A'); auto; try lia. intros l Hl. apply R. lia. }
  assert (X : forall i j, i < M -> j < N -> lu_after O el p' k A' i j = lu_after O el p k A i j).
  { intros i j Hi Hj. apply (lu_ext O el p p' k A A' M N); auto; try lia. intros l Hl. apply R. lia. }
  assert (E : p' k - k = p k - k) by (rewrite P2, Q2; apply running_max_ext; intros i Hi; cbn beta; apply X; lia).
  assert (E' : p' k = p k) by lia. rewrite E' in Z. rewrite X in Z by lia. congruence.
Qed.
Lemma lu_run_not_stuck : forall T (O : Ops T) el M p n A, magnitudes_ordered O -> lu_run O el M p n A -> ~ lu_stuck O el M n A.
Proof.
  intros T O el M p n A MO R (p' & k & Hk & R' & [Q1 Q2] & Z). destruct (R k Hk) as [[P1 P2] NZ].
  assert (U : forall l, l < k -> p' l = p l).
  { apply (lu_run_unique T O el M p' p k A MO R'). intros l Hl. apply R. lia. }
  assert (X : forall i j, lu_after O el p' k A i j = lu_after O el p k A i j) by (intros; apply lu_piv_ext; auto).
  assert (p' k - k = p k - k).
  { eapply first_max_unique; [apply Q2; apply ordered_comparable; auto|]. eapply first_max_ext; [|apply P2; apply ordered_comparable; auto]. intros i Hi. cbn. rewrite X. reflexivity. }
  assert (E : p' k = p k) by lia. rewrite X, E in Z. congruence.
Qed.
Lemma lu_run_pivots_ok : forall T (O : Ops T) el M p n A, exact_order O -> lu_run O el M p n A -> pivots_ok O el p n A.
Proof.
  intros T O el M p n A EO R l Hl. destruct (R l Hl) as [[Q1 _] Q2]. split; [lia|]. intros X. apply (eo_eqb O EO) in X. congruence.
Qed.
Lemma interchanged_high : forall T (p : nat -> nat) k n m (a : nat -> nat -> T), k + n <= m -> (forall l, l < n -> k <= p (k + l) < m) ->
  forall i, k <= i < m -> exists i', k <= i' < m /\ forall j, interchanged p k n a i j = a i' j.
Proof.
  intros T p k n m a. induction n as [|n IH]; intros Hm Hp i Hi; cbn [interchanged]; eauto.
  apply IH; auto; try lia. specialize (Hp n ltac:(lia)). split; [apply interchange_ge; lia|apply interchange_lt; lia].
Qed.
(** The multipliers are at most one. *)
Lemma lu_multipliers : forall T (O : Ops T) el M p n A, n <= M -> exact_order O -> lu_run O el M p n A ->
  forall i l, l < n -> l < i < M -> oltb O (oabs O (o1 O)) (oabs O (lu_after O el p n A i l)) = false.
Proof.
  intros T O el M p n A HnM EO R i l Hl Hi. replace n with (Datatypes.S l + (n - Datatypes.S l)) by lia. rewrite lu_cols by lia.
  destruct (interchanged_high T p (Datatypes.S l) (n - Datatypes.S l) M (lu_after O el p (Datatypes.S l) A)) with (i := i) as (i' & Hi' & E); try lia.
  { intros t Ht. destruct (R (Datatypes.S l + t)) as [[X _] _]; lia. }
  rewrite E. cbn [lu_after]. rewrite eliminate_col by lia. destruct (R l Hl) as [[P1 P2] NZ].
  apply (eo_div O EO).
  - unfold swap_rows. rewrite interchange_l. intros Z. apply (eo_eqb O EO) in Z. congruence.
  - unfold swap_rows. rewrite interchange_l. destruct (proj2 P2 (ordered_comparable O _ _ (eo_mag O EO))) as (F1 & F2 & F3).
    set (i2 := interchange l (p l) i'). assert (l <= i2 < M) by (split; [apply interchange_ge; lia|apply interchange_lt; lia]).
    specialize (F2 (i2 - l)). cbv beta in F2. replace (l + (p l - l)) with (p l) in F2 by lia. replace (l + (i2 - l)) with i2 in F2 by lia. apply F2. lia.
Qed.

Section Exact.
Context {T : Type} (O : Ops T) (el : T -> T -> T -> T).
Hypothesis FL : field_laws O.
Hypothesis EO : exact_order O.
Hypothesis EL : forall l u a, el l u a = osub O a (omul O l u).
Let RL := fl_ring O FL.
Variables (M N : nat) (A : nat -> nat -> T).
Notation r := (min M N).

Lemma lu_stuck_dependent : lu_stuck O el M r A -> dependent_columns O M r A.
Proof.
  intros (p & k & Hk & R & [P1 P2] & Z).
  destruct (lu_stuck_singular O el FL EL p k A M) as (x & X1 & X2); try lia.
  - apply (lu_run_pivots_ok T O el M); auto.
  - intros l Hl. apply R. auto.
  - intros i Hi. destruct (oeqb O (lu_after O el p k A i k) (o0 O)) eqn:C; [apply (eo_eqb O EO); auto|].
    assert (NZ : lu_after O el p k A i k <> o0 O) by (intros X; apply (eo_eqb O EO) in X; congruence).
    apply (eo_abs O EO) in NZ. destruct (proj2 P2 (ordered_comparable O _ _ (eo_mag O EO))) as (F1 & F2 & F3).
    specialize (F2 (i - k)). cbv beta in F2. replace (k + (p k - k)) with (p k) in F2 by lia. replace (k + (i - k)) with i in F2 by lia.
    apply (eo_eqb O EO) in Z. rewrite Z in F2. rewrite F2 in NZ by lia. discriminate.
  - exists (fun j => if j <=? k then x j else o0 O). split.
    + exists k. split; auto. rewrite Nat.leb_refl, X1. apply (fl_1_0 O FL).
    + intros i Hi. transitivity (sum O (k + 1) (fun j => omul O (A i j) (x j))); [|auto]. replace r with (k + 1 + (r - (k + 1))) by lia. rewrite (sum_split O RL).
      rewrite (sum_0 O RL (r - (k + 1))), (add_0_r O RL).
      * apply sum_ext. intros j Hj. destruct (Nat.leb_spec j k); auto; lia.
      * intros j Hj. destruct (Nat.leb_spec (k + 1 + j) k); [lia|]. apply (mul_0_r O RL).
Qed.
Lemma lu_run_independent : forall p, lu_run O el M p r A -> ~ dependent_columns O M r A.
Proof.
  intros p R (x & (j & Hj & NZ) & X). apply NZ.
  apply (lu_done_regular O el FL EL p r A M); auto; try lia.
  - apply (lu_run_pivots_ok T O el M); auto.
  - intros l Hl. apply R. auto.
Qed.
Lemma lu_run_factors : forall p F, lu_run O el M p r A -> (forall i j, i < M -> j < N -> F i j = lu_after O el p r A i j) ->
  lu_factorisation O M N A F p.
Proof.
  intros p F R HF. pose proof (lu_run_pivots_ok T O el M p r A EO R) as PO.
  split; [|split; [|split]].
  - intros l Hl. apply R. auto.
  - intros l Hl. rewrite HF by lia. apply (upper_diag O el p r A PO); auto.
  - intros i l Hl Hi. rewrite HF by lia. apply (lu_multipliers T O el M); auto; lia.
  - intros i j Hi Hj. rewrite (lu_factor O el FL EL p r A PO).
    assert (Z : (r <=? i) && (r <=? j) = false) by (destruct (Nat.leb_spec r i), (Nat.leb_spec r j); auto; lia).
    rewrite Z, (add_0_r O RL). apply sum_ext. intros l Hl. unfold unit_lower, upper_trap.
    destruct (Nat.ltb_spec l i); rewrite ?HF by lia; reflexivity.
Qed.
End Exact.
