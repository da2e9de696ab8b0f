(** RoundLU_Proofs.v -- the elements of Gaussian elimination with interchanges, operation by operation, and their rounding errors. *)
From Coq Require Import Reals Lra Lia Arith Bool.
From Verif Require Import Base Spec Round_Spec Round_Proofs RoundElem_Proofs LU_Theory.

Section LUElem.
Context {T : Type} (O : Ops T) (el : T -> T -> T -> T).
Fixpoint el_chain (n : nat) (x y : nat -> T) (z : T) : T := match n with 0 => z | S k => el (x k) (y k) (el_chain k x y z) end.
Lemma el_chain_ext : forall n x y z x' y' z', (forall k, k < n -> x k = x' k) -> (forall k, k < n -> y k = y' k) -> z = z' ->
  el_chain n x y z = el_chain n x' y' z'.
Proof. induction n as [|n IH]; intros x y z x' y' z' Hx Hy Hz; auto. cbn. rewrite Hx, Hy, (IH x y z x' y' z') by auto. reflexivity. Qed.

Definition lu_elem (F B : nat -> nat -> T) (c i j : nat) : T :=
  if j <? c then odiv O (el_chain j (fun l => F i l) (fun l => F l j) (B i j)) (F j j) else el_chain c (fun l => F i l) (fun l => F l j) (B i j).
Lemma lu_elem_ext : forall F F' B B' c i j, c <= i -> (forall l, l < c -> F i l = F' i l) -> (forall l, l < c -> F l j = F' l j) -> B i j = B' i j ->
  lu_elem F B c i j = lu_elem F' B' c i j.
Proof.
  intros F F' B B' c i j Hc H1 H2 H3. unfold lu_elem. destruct (Nat.ltb_spec j c).
  - rewrite (H2 j) by auto. f_equal. apply el_chain_ext; intros; auto; [apply H1 | apply H2]; lia.
  - apply el_chain_ext; auto.
Qed.
Lemma lu_elems : forall p n A, (forall l, l < n -> l <= p l) -> forall i j,
  lu_after O el p n A i j = lu_elem (lu_after O el p n A) (interchanged p 0 n A) (min i n) i j.
Proof.
  intros p n A. induction n as [|n IH]; intros Hp i j.
  - rewrite Nat.min_0_r. reflexivity.
  - specialize (IH ltac:(auto)). cbn [lu_after interchanged Nat.add]. set (G := swap_rows n (p n) (lu_after O el p n A)).
    set (B := fun i j => interchanged p 0 n A (interchange n (p n) i) j).
    assert (GL : forall l j, l < n -> G l j = lu_after O el p n A l j).
    { intros l j' Hl. unfold G, swap_rows. specialize (Hp n ltac:(auto)) as Hn. rewrite interchange_o by lia. reflexivity. }
    assert (HG : forall i j, G i j = lu_elem G B (min i n) i j).
    { intros i' j'. unfold G at 1, swap_rows at 1. rewrite IH. specialize (Hp n ltac:(auto)) as Hn.
      assert (EM : min (interchange n (p n) i') n = min i' n). { pose proof (interchange_ge n (p n) i' n ltac:(auto) Hn) as X. destruct (Nat.lt_ge_cases i' n); [rewrite interchange_o by lia; auto|lia]. }
      rewrite EM. unfold lu_elem. destruct (Nat.ltb_spec j' (min i' n)).
      - rewrite (GL j') by lia. f_equal. apply el_chain_ext; intros; auto. rewrite GL by lia. reflexivity.
      - apply el_chain_ext; intros; auto. rewrite GL by lia. reflexivity. }
    destruct (le_lt_dec i n) as [L|L].
    + rewrite eliminate_top by auto. rewrite HG. replace (min i (S n)) with (min i n) by lia. apply lu_elem_ext; auto; try lia.
      * intros l Hl. rewrite eliminate_top by auto. reflexivity.
      * intros l Hl. rewrite eliminate_top by lia. reflexivity.
    + replace (min i (S n)) with (S n) by lia. specialize (HG i j) as HGij. replace (min i n) with n in HGij by lia. unfold lu_elem in *.
      destruct (Nat.ltb_spec j n) as [J|J], (Nat.ltb_spec j (S n)) as [J'|J']; try lia.
      * rewrite eliminate_left by auto. rewrite HGij. rewrite eliminate_left by auto. f_equal. apply el_chain_ext; auto; intros l Hl; rewrite eliminate_left by lia; reflexivity.
      * assert (j = n) as -> by lia. rewrite eliminate_col by auto. rewrite (eliminate_top O el n G n n) by lia. f_equal. rewrite HGij.
        apply el_chain_ext; auto; intros l Hl; [rewrite eliminate_left|rewrite eliminate_top]; auto; lia.
      * rewrite eliminate_in by lia. cbn [el_chain]. rewrite eliminate_col by auto. rewrite (eliminate_top O el n G n j) by lia. f_equal. rewrite HGij.
        apply el_chain_ext; auto; intros l Hl; [rewrite eliminate_left|rewrite eliminate_top]; auto; lia.
Qed.
End LUElem.
From Verif Require Import Instances Algebra_Proofs LU_Proofs LU_Row_Proofs RoundFact_Proofs.
Local Open Scope R_scope.

Lemma interchanged_high_inv : forall T (p : nat -> nat) k n m (a : nat -> nat -> T), (k + n <= m)%nat -> (forall l, (l < n)%nat -> (k <= p (k + l) < m)%nat) ->
  forall i, (k <= i < m)%nat -> exists i', (k <= i' < m)%nat /\ forall j, interchanged p k n a i' j = a i j.
Proof.
  intros T p k n m a. induction n as [|n IH]; intros Hm Hp i Hi; cbn [interchanged]; eauto.
  destruct (IH ltac:(lia) ltac:(auto) i Hi) as (i' & Hi' & E). exists (interchange (k + n) (p (k + n)%nat) i'). specialize (Hp n ltac:(lia)).
  split; [split; [apply interchange_ge; lia|apply interchange_lt; lia]|]. intros j. rewrite interchange_invol. auto.
Qed.

Section LURound.
Context {T : Type} (O : Ops T) (val : T -> R) (fin : T -> bool) (u eta : R) (RA : rounded O val fin u eta).
Let Hu := rHu O val fin u eta RA.
Let He := rHeta O val fin u eta RA.
Notation Q := (/ (1 - u)).

(** Chains of updates in backward form; d roundings per product (0 for fused updates). *)
Definition chain_ok (el : T -> T -> T -> T) (d : nat) : Prop := forall n x y z, fin (el_chain el n x y z) = true ->
  (forall k, (k < n)%nat -> fin (x k) = true /\ fin (y k) = true) /\ fin z = true /\
  Rabs (val z - Rsum n (fun k => val (x k) * val (y k)) - val (el_chain el n x y z)) <=
    downs u (n + d) * (Rsum n (fun k => Rabs (val (x k) * val (y k))) + Rabs (val (el_chain el n x y z))) + INR (S d) * INR n * Q ^ (n + d) * eta.

Lemma el_cm_chain : chain_ok (el_cm O) 0.
Proof.
  intros n x y z F.
  assert (H : fin z = true /\ forall k, (k < n)%nat -> fin (x k) = true /\ fin (y k) = true /\
            rounds u eta (val (el_chain (el_cm O) (S k) x y z)) (val (el_chain (el_cm O) k x y z) - val (x k) * val (y k))).
  { revert F. induction n as [|n IH]; intros F; [split; auto; intros; lia|]. cbn [el_chain] in F. unfold el_cm in F at 1.
    destruct (ra_fma _ _ _ _ _ RA _ _ _ F) as (Fx & Fy & Fs & R). rewrite (proj1 (ra_1 _ _ _ _ _ RA _)) in Fs. rewrite (proj1 (ra_m1 _ _ _ _ _ RA _)) in Fx.
    destruct (IH Fs) as (Fz & H). split; auto. intros k Hk. destruct (Nat.eq_dec k n) as [-> |]; [|apply H; lia]. split; auto. split; auto.
    cbn [el_chain]. unfold el_cm at 1. rewrite (proj2 (ra_1 _ _ _ _ _ RA _)) in R by auto. rewrite (proj2 (ra_m1 _ _ _ _ _ RA _)) in R by auto.
    replace (val (el_chain (el_cm O) n x y z) - val (x n) * val (y n)) with (- val (x n) * val (y n) + val (el_chain (el_cm O) n x y z)) by ring. exact R. }
  destruct H as (Fz & H). split; [intros k Hk; split; apply H; auto|]. split; auto. rewrite Nat.add_0_r. cbn [INR]. rewrite Rmult_1_l.
  apply (backward_rec u eta Hu He n (fun k => val (el_chain (el_cm O) k x y z)) (fun k => val (x k) * val (y k))). intros k Hk. apply H; auto.
Qed.
Lemma el_rm_chain : chain_ok (el_rm O) 1.
Proof.
  intros n x y z F.
  set (p := fun k => - val (omul O (omul O (om1 O) (x k)) (y k))).
  assert (H : fin z = true /\ forall k, (k < n)%nat -> fin (x k) = true /\ fin (y k) = true /\ rounds u eta (p k) (val (x k) * val (y k)) /\
            rounds u eta (val (el_chain (el_rm O) (S k) x y z)) (val (el_chain (el_rm O) k x y z) - p k)).
  { revert F. induction n as [|n IH]; intros F; [split; auto; intros; lia|]. cbn [el_chain] in F. unfold el_rm in F at 1.
    destruct (ra_add _ _ _ _ _ RA _ _ F) as (Fs & Fp & R). destruct (ra_mul _ _ _ _ _ RA _ _ Fp) as (Fx & Fy & Rp). rewrite (proj1 (ra_m1 _ _ _ _ _ RA _)) in Fx.
    destruct (IH Fs) as (Fz & H). split; auto. intros k Hk. destruct (Nat.eq_dec k n) as [-> |]; [|apply H; lia]. split; auto. split; auto.
    rewrite (proj2 (ra_m1 _ _ _ _ _ RA _)) in Rp by auto. split.
    - unfold p, rounds in *. replace (val (x n) * val (y n)) with (- (- val (x n) * val (y n))) by ring.
      rewrite Rabs_Ropp. replace (- val (omul O (omul O (om1 O) (x n)) (y n)) - - (- val (x n) * val (y n))) with (- (val (omul O (omul O (om1 O) (x n)) (y n)) - - val (x n) * val (y n))) by ring.
      rewrite Rabs_Ropp. exact Rp.
    - cbn [el_chain]. unfold el_rm at 1, p.
      replace (val (el_chain (el_rm O) n x y z) - - val (omul O (omul O (om1 O) (x n)) (y n))) with (val (el_chain (el_rm O) n x y z) + val (omul O (omul O (om1 O) (x n)) (y n))) by ring. exact R. }
  destruct H as (Fz & H). split; [intros k Hk; split; apply H; auto|]. split; auto. rewrite Nat.add_1_r.
  replace (INR 2) with 2 by (cbn; ring).
  apply (backward_rec2 u eta Hu He n (fun k => val (el_chain (el_rm O) k x y z)) p); intros k Hk; apply H; auto.
Qed.

(** The rows of L times the columns of U, split at the last term. *)
Lemma lu_sum_low : forall (f : R -> R) (F : nat -> nat -> R) r i j, f 0 = 0 -> (j < i)%nat -> (j < r)%nat ->
  Rsum r (fun l => f (unit_lower rops F i l * upper_trap rops F l j)) = Rsum j (fun l => f (F i l * F l j)) + f (F i j * F j j).
Proof.
  intros f F r i j F0 Hj Hr. replace r with (S j + (r - S j))%nat by lia. rewrite Rsum_app. cbn [Rsum].
  rewrite (Rsum_ext (r - S j) _ (fun _ => 0)).
  - rewrite Rsum_const, Rmult_0_r, Rplus_0_r. f_equal.
    + apply Rsum_ext. intros l Hl. unfold unit_lower, upper_trap. destruct (Nat.ltb_spec l i), (Nat.leb_spec l j); auto; lia.
    + unfold unit_lower, upper_trap. destruct (Nat.ltb_spec j i), (Nat.leb_spec j j); auto; lia.
  - intros l Hl. unfold upper_trap. destruct (Nat.leb_spec (S j + l) j); [lia|]. cbn. rewrite Rmult_0_r. auto.
Qed.
Lemma lu_sum_up : forall (f : R -> R) (F : nat -> nat -> R) r i j, f 0 = 0 -> (i <= j)%nat -> (i < r)%nat ->
  Rsum r (fun l => f (unit_lower rops F i l * upper_trap rops F l j)) = Rsum i (fun l => f (F i l * F l j)) + f (F i j).
Proof.
  intros f F r i j F0 Hj Hr. replace r with (S i + (r - S i))%nat by lia. rewrite Rsum_app. cbn [Rsum].
  rewrite (Rsum_ext (r - S i) _ (fun _ => 0)).
  - rewrite Rsum_const, Rmult_0_r, Rplus_0_r. f_equal.
    + apply Rsum_ext. intros l Hl. unfold unit_lower, upper_trap. destruct (Nat.ltb_spec l i), (Nat.leb_spec l j); auto; lia.
    + unfold unit_lower, upper_trap. rewrite Nat.eqb_refl. destruct (Nat.ltb_spec i i), (Nat.leb_spec i j); try lia. cbn. rewrite Rmult_1_l. auto.
  - intros l Hl. unfold unit_lower. destruct (Nat.ltb_spec (S i + l) i), (Nat.eqb_spec (S i + l) i); try lia. cbn. rewrite Rmult_0_l. auto.
Qed.

Lemma lu_backward : forall el d M N p A F, chain_ok el d -> (forall l, (l < min M N)%nat -> (l <= p l)%nat) ->
  (forall i j, (i < M)%nat -> (j < N)%nat -> F i j = lu_after O el p (min M N) A i j) ->
  (forall i j, (i < M)%nat -> (j < N)%nat -> fin (F i j) = true) ->
  forall i j, (i < M)%nat -> (j < N)%nat ->
  let B := interchanged p 0 (min M N) A in
  let L := unit_lower rops (fun i j => val (F i j)) in let U := upper_trap rops (fun i j => val (F i j)) in let r := min M N in
  fin (B i j) = true /\
  Rabs (val (B i j) - Rsum r (fun l => L i l * U l j)) <=
    downs u (r + d) * Rsum r (fun l => Rabs (L i l * U l j)) +
    Q ^ (r + d) * (eta * (INR (S d) * INR r + (if (j <? i)%nat then Rabs (val (F j j)) else 0))).
Proof.
  intros el d M N p A F CO Hp HF FF i j Hi Hj B L U r.
  assert (EF : F i j = lu_elem O el F B (min i r) i j).
  { rewrite HF by auto. rewrite lu_elems by auto. fold r. apply lu_elem_ext; try lia; auto; intros l Hl; symmetry; apply HF; unfold r in *; lia. }
  pose proof (FF i j Hi Hj) as Fij. set (P := fun l => val (F i l) * val (F l j)).
  assert (PD : forall n, (n <= r)%nat -> downs u (n + d) <= downs u (r + d) /\ Q ^ (n + d) <= Q ^ (r + d)).
  { intros n Hn. split; [apply downs_mono|apply powQ_mono]; auto; lia. }
  assert (IN : forall n, (n <= r)%nat -> 0 <= INR (S d) * INR n <= INR (S d) * INR r).
  { intros n Hn. pose proof (pos_INR (S d)) as Pd. pose proof (pos_INR n) as Pn. split; [apply Rmult_le_pos; auto|]. apply Rmult_le_compat_l; auto. apply le_INR; auto. }
  assert (W : forall n (x S0 c : R), (n <= r)%nat -> 0 <= S0 -> 0 <= c -> x <= downs u (n + d) * S0 + Q ^ (n + d) * (eta * c) ->
     forall c', c <= c' -> x <= downs u (r + d) * S0 + Q ^ (r + d) * (eta * c')).
  { intros n x S0 c Hn P0 Pc X c' Hc. destruct (PD n Hn) as [D1 D2]. eapply Rle_trans; [exact X|]. pose proof (powQ u Hu (n + d)).
    apply Rplus_le_compat; [apply Rmult_le_compat_r; auto|]. apply Rmult_le_compat; auto; try lra. apply Rmult_le_pos; auto. apply Rmult_le_compat_l; auto. }
  unfold lu_elem in EF. destruct (Nat.ltb_spec j (min i r)) as [J|J].
  - rewrite EF in Fij. set (t := el_chain el j (fun l => F i l) (fun l => F l j) (B i j)) in *.
    destruct (ra_div _ _ _ _ _ RA _ _ Fij) as (Ft & D). destruct (D (FF j j ltac:(unfold r in *; lia) Hj)) as (N0 & R). rewrite <- EF in R, Fij.
    destruct (CO _ _ _ _ Ft) as (_ & FB & Bw). fold t in Bw. split; auto. destruct (Nat.ltb_spec j i); [|lia].
    destruct (quot_error u eta Hu He _ _ _ N0 R) as (X & Y).
    unfold L, U. rewrite (lu_sum_low (fun x => x) _ r i j eq_refl ltac:(lia) ltac:(lia)), (lu_sum_low Rabs _ r i j Rabs_R0 ltac:(lia) ltac:(lia)).
    replace (Q ^ 1) with Q in * by (rewrite pow_1; auto).
    pose proof (Rabs_pos (val (F j j))) as Pj. assert (PS : 0 <= Rsum j (fun l => Rabs (P l))) by (apply Rsum_nonneg; intros; apply Rabs_pos).
    destruct (IN j ltac:(lia)) as [IN1 IN2].
    apply (W (S j) _ _ (INR (S d) * INR j + Rabs (val (F j j)))); try lra; try lia.
    + pose proof (Rabs_pos (val (F i j) * val (F j j))). unfold P in PS. lra.
    + replace (S j + d)%nat with (j + d + 1)%nat by lia.
      apply (join_error_c u eta Hu He (j + d) 1) with (t := val t); auto; rewrite ?pow_1, ?(Rmult_comm eta); auto.
  - assert (Hir : (i <= j /\ i < r)%nat).
    { unfold r in *. destruct (Nat.lt_ge_cases i (min M N)); [split; lia|]. lia. }
    replace (min i r) with i in EF by lia. rewrite EF in Fij. destruct (CO _ _ _ _ Fij) as (_ & FB & Bw). rewrite <- EF in Bw. split; auto.
    destruct (Nat.ltb_spec j i); [lia|]. unfold L, U.
    rewrite (lu_sum_up (fun x => x) _ r i j eq_refl ltac:(lia) ltac:(lia)), (lu_sum_up Rabs _ r i j Rabs_R0 ltac:(lia) ltac:(lia)).
    destruct (IN i ltac:(lia)) as [IN1 IN2]. assert (PS : 0 <= Rsum i (fun l => Rabs (P l))) by (apply Rsum_nonneg; intros; apply Rabs_pos).
    apply (W i _ _ (INR (S d) * INR i)); auto; try lia.
    + pose proof (Rabs_pos (val (F i j))). unfold P in PS. lra.
    + replace (val (B i j) - (Rsum i (fun l => val (F i l) * val (F l j)) + val (F i j))) with (val (B i j) - Rsum i (fun l => val (F i l) * val (F l j)) - val (F i j)) by ring.
      eapply Rle_trans; [exact Bw|]. apply Rplus_le_compat_l. right. ring.
    + lra.
Qed.

(** Multipliers computed from finite columns are at most one. *)
Lemma finite_comparable : forall n x, (forall i, (i < n)%nat -> fin (x i) = true) -> comparable O n x.
Proof.
  intros n x H.
  assert (E : forall i j, (i < n)%nat -> (j < n)%nat -> (oltb O (oabs O (x i)) (oabs O (x j)) = true <-> Rabs (val (x i)) < Rabs (val (x j)))).
  { intros i j Hi Hj. rewrite (ra_ltb _ _ _ _ _ RA) by (rewrite (proj1 (ra_abs _ _ _ _ _ RA _)); auto). rewrite !(proj2 (ra_abs _ _ _ _ _ RA _)) by auto. tauto. }
  assert (E' : forall i j, (i < n)%nat -> (j < n)%nat -> (oltb O (oabs O (x i)) (oabs O (x j)) = false <-> Rabs (val (x j)) <= Rabs (val (x i)))).
  { intros i j Hi Hj. specialize (E i j Hi Hj). destruct (oltb _ _ _); split; intros X; try discriminate; auto.
    - exfalso. assert (Rabs (val (x i)) < Rabs (val (x j))) by (apply E; auto). lra.
    - apply Rnot_lt_le. intros Y. apply E in Y. discriminate. }
  split; [|split]; cbv zeta.
  - intros i Hi. apply E'; auto. lra.
  - intros i j k Hi Hj Hk. rewrite !E by auto. lra.
  - intros i j k Hi Hj Hk. rewrite !E' by auto. lra.
Qed.
Lemma lu_multipliers_round : forall el M p n A, (n <= M)%nat -> lu_run O el M p n A ->
  (forall i l, (l < n)%nat -> (l <= i < M)%nat -> fin (lu_after O el p n A i l) = true) ->
  forall i l, (l < n)%nat -> (l < i < M)%nat -> Rabs (val (lu_after O el p n A i l)) <= 1.
Proof.
  intros el M p n A HnM R FF i l Hl Hi.
  assert (PH : forall t, (t < n - S l)%nat -> (S l <= p (S l + t) < M)%nat) by (intros t Ht; destruct (R (S l + t)%nat) as [[X _] _]; lia).
  assert (EC : forall i, lu_after O el p n A i l = interchanged p (S l) (n - S l) (lu_after O el p (S l) A) i l).
  { intros i0. replace n with (S l + (n - S l))%nat at 1 by lia. apply lu_cols. lia. }
  destruct (R l Hl) as [[P1 P2] NZ].
  (* the pivot *)
  assert (ED : lu_after O el p n A l l = lu_after O el p l A (p l) l) by (apply lu_diag; auto; intros l' Hl'; destruct (R l' Hl') as [[X _] _]; lia).
  assert (FP : fin (lu_after O el p l A (p l) l) = true) by (rewrite <- ED; apply FF; lia).
  assert (VP : val (lu_after O el p l A (p l) l) <> 0).
  { intros Z. destruct (ra_0 _ _ _ _ _ RA) as [F0 V0]. rewrite <- V0 in Z. apply (ra_eqb _ _ _ _ _ RA) in Z; auto. congruence. }
  (* the column at step l is finite *)
  assert (FC : forall i', (l < i' < M)%nat -> fin (lu_after O el p l A (interchange l (p l) i') l) = true).
  { intros i' Hi'. destruct (interchanged_high_inv T p (S l) (n - S l) M (lu_after O el p (S l) A)) with (i := i') as (i2 & Hi2 & E); try lia; auto.
    specialize (FF i2 l Hl ltac:(lia)). rewrite EC, E in FF. cbn [lu_after] in FF. rewrite eliminate_col in FF by lia.
    destruct (ra_div _ _ _ _ _ RA _ _ FF) as (X & _). exact X. }
  assert (FC' : forall i', (l <= i' < M)%nat -> fin (lu_after O el p l A i' l) = true).
  { intros i' Hi'. destruct (Nat.eq_dec i' (p l)) as [-> |]; auto.
    specialize (FC (interchange l (p l) i')). rewrite interchange_invol in FC. apply FC. split; [|apply interchange_lt; lia].
    assert (X : (l <= interchange l (p l) i')%nat) by (apply interchange_ge; lia).
    destruct (Nat.eq_dec l (interchange l (p l) i')) as [E|]; [|lia]. exfalso. apply (f_equal (interchange l (p l))) in E. rewrite interchange_invol, interchange_l in E. auto. }
  destruct (interchanged_high T p (S l) (n - S l) M (lu_after O el p (S l) A)) with (i := i) as (i' & Hi' & E); try lia; auto.
  rewrite EC, E. cbn [lu_after]. rewrite eliminate_col by lia. unfold swap_rows. rewrite interchange_l.
  assert (Hi2 : (l <= interchange l (p l) i' < M)%nat) by (split; [apply interchange_ge; lia|apply interchange_lt; lia]).
  apply (ra_div_le _ _ _ _ _ RA); auto.
  assert (CO : comparable O (M - l) (fun k => lu_after O el p l A (l + k)%nat l)) by (apply finite_comparable; intros k Hk; apply FC'; lia).
  destruct (proj2 P2 CO) as (F1 & F2 & F3).
  set (i2 := interchange l (p l) i') in *. specialize (F2 (i2 - l)%nat ltac:(lia)). cbv beta in F2.
  replace (l + (p l - l))%nat with (p l) in F2 by lia. replace (l + (i2 - l))%nat with i2 in F2 by lia.
  apply Rnot_lt_le. intros X. apply not_true_iff_false in F2. apply F2. apply (ra_ltb _ _ _ _ _ RA); rewrite ?(proj1 (ra_abs _ _ _ _ _ RA _)); auto.
  rewrite !(proj2 (ra_abs _ _ _ _ _ RA _)) by auto. auto.
Qed.
End LURound.
