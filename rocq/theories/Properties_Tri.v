(** Properties_Tri.v -- C31: triangular solves. *)
From Coq Require Import Arith Lia List Bool PeanoNat ZArith.
From Verif Require Import Base Base_Proofs Spec Algebra_Proofs Instances Scan_Proofs Tri_Model Tri_Proofs.
Import ListNotations.

(** Operands of trsm<UPLO, UNIT>(A, B, X): A is M-by-M, B and X are M-by-N.  Of A only the strict triangle has to exist, and
    the diagonal unless UNIT.  X does not overlap the referenced part of A; it is B or does not overlap it. *)
Record trsm_pre (al : alloc) (ul : uplo) (unit : bool) (A B X : dmat) : Prop := {
  ts_A : d_m A = d_m B /\ d_n A = d_m B; ts_X : d_m X = d_m B /\ d_n X = d_n B;
  ts_alA : forall i k, i < d_m B -> k < d_m B -> referenced ul unit i k -> al (d_at A i k) = true;
  ts_alB : allocated al (d_m B) (d_n B) (d_at B); ts_alX : allocated al (d_m B) (d_n B) (d_at X);
  ts_distinct : distinct (d_m B) (d_n B) (d_at X);
  ts_sepA : forall i j i' k, i < d_m B -> j < d_n B -> i' < d_m B -> k < d_m B -> referenced ul unit i' k -> d_at X i j <> d_at A i' k;
  ts_sepB : forall i j i' j', i < d_m B -> j < d_n B -> i' < d_m B -> j' < d_n B -> d_at X i j = d_at B i' j' -> i = i' /\ j = j'
}.

(** The triangular matrix represented by the array [a]. *)
Definition triangle {T} (O : Ops T) (ul : uplo) (unit : bool) (a : nat -> nat -> T) (i k : nat) : T :=
  if i =? k then (if unit then o1 O else a i i)
  else match ul with
       | Lower => if k <? i then a i k else o0 O
       | Upper => if i <? k then a i k else o0 O
       end.

(** Operation by operation; nothing but X changes. *)
Theorem C31_trsm_ops : forall T (O : Ops T) al ul unit A B X m, trsm_pre al ul unit A B X ->
  exists m', trsm T O al ul unit A B X m = Ok m' /\
    (forall i j, i < d_m B -> j < d_n B ->
       let x := fun k => m' (d_at X k j) in let a := fun k => m (d_at A i k) in
       let acc := match ul with
                  | Lower => sub_chain O i a x (m (d_at B i j))
                  | Upper => sub_chain O (d_m B - (i + 1)) (fun c => a (i + 1 + c)) (fun c => x (i + 1 + c)) (m (d_at B i j))
                  end in
       m' (d_at X i j) = if unit then acc else odiv O acc (a i)) /\
    (forall a, (forall i j, i < d_m B -> j < d_n B -> a <> d_at X i j) -> m' a = m a).
Proof.
  intros T O al ul unit A B X m [[a1 a2] [x1 x2] RA RB RX DX SA SB].
  unfold trsm. rewrite a1, a2, x1, x2, !Nat.eqb_refl. cbn [negb orb].
  destruct (trsm_loops_ok T O al ul unit (d_at A) (d_at B) (d_at X) (d_m B) (d_n B) m) as (m' & E & V & F); auto.
  exists m'. split; [exact E|]. split; [|exact F]. intros i j Hi Hj. specialize (V i j Hi Hj). unfold solved, quot in V.
  cbv zeta. destruct unit, ul; exact V.
Qed.

(** Over a field, non-zero diagonal (unless UNIT): A * X = B. *)
Theorem C31_trsm_field : forall T (O : Ops T) al ul unit A B X m, field_laws O -> trsm_pre al ul unit A B X ->
  (unit = false -> forall i, i < d_m B -> m (d_at A i i) <> o0 O) ->
  exists m', trsm T O al ul unit A B X m = Ok m' /\
    (forall i j, i < d_m B -> j < d_n B ->
       sum O (d_m B) (fun k => omul O (triangle O ul unit (fun i k => m (d_at A i k)) i k) (m' (d_at X k j))) = m (d_at B i j)) /\
    (forall a, (forall i j, i < d_m B -> j < d_n B -> a <> d_at X i j) -> m' a = m a).
Proof.
  intros T O al ul unit A B X m FL P ND. pose proof (fl_ring O FL) as RL.
  destruct (C31_trsm_ops T O al ul unit A B X m P) as (m' & E & V & F). exists m'. split; auto. split; auto.
  intros i j Hi Hj. specialize (V i j Hi Hj). cbv zeta in V. set (M := d_m B) in *.
  set (a := fun i k => m (d_at A i k)). set (x := fun k => m' (d_at X k j)) in *.
  match type of V with m' _ = if unit then ?acc else _ => set (u := acc) in V end.
  assert (D : omul O (triangle O ul unit a i i) (x i) = u).
  { unfold triangle. rewrite Nat.eqb_refl. unfold x. rewrite V. destruct unit.
    - apply (rl_mul_1 O RL).
    - rewrite (rl_mul_comm O RL). apply (fl_div O FL). apply ND; auto. }
  replace M with (i + (1 + (M - (i + 1)))) at 1 by lia. rewrite (sum_split O RL), (sum_split O RL).
  cbn [sum]. rewrite (rl_add_0 O RL), Nat.add_0_r. change (m' (d_at X i j)) with (x i). rewrite D.
  destruct ul; unfold u.
  - rewrite (sum_0 O RL (M - (i + 1))), (add_0_r O RL).
    + rewrite (sub_chain_sum O RL), (rl_add_comm O RL).
      rewrite (sum_ext O i (fun k => omul O (triangle O Lower unit a i k) (m' (d_at X k j))) (fun k => omul O (m (d_at A i k)) (x k))).
      * apply (rl_sub O RL).
      * intros k Hk. unfold triangle. destruct (Nat.eqb_spec i k); [lia|]. rewrite (proj2 (Nat.ltb_lt k i)) by lia. reflexivity.
    + intros k Hk. unfold triangle. destruct (Nat.eqb_spec i (i + (1 + k))); [lia|]. destruct (Nat.ltb_spec (i + (1 + k)) i); [lia|]. apply (mul_0_l O RL).
  - rewrite (sum_0 O RL i), (rl_add_0 O RL).
    + rewrite (sub_chain_sum O RL).
      rewrite (sum_ext O (M - (i + 1)) (fun k => omul O (triangle O Upper unit a i (i + (1 + k))) (m' (d_at X (i + (1 + k)) j)))
          (fun c => omul O (m (d_at A i (i + 1 + c))) (x (i + 1 + c)))).
      * apply (rl_sub O RL).
      * intros k Hk. unfold triangle. destruct (Nat.eqb_spec i (i + (1 + k))); [lia|]. rewrite (proj2 (Nat.ltb_lt i (i + (1 + k)))) by lia.
        replace (i + 1 + k) with (i + (1 + k)) by lia. reflexivity.
    + intros k Hk. unfold triangle. destruct (Nat.eqb_spec i k); [lia|]. destruct (Nat.ltb_spec i k); [lia|]. apply (mul_0_l O RL).
Qed.

(** Wrong sizes throw before any access. *)
Theorem C31_trsm_throws : forall T (O : Ops T) al ul unit A B X m,
  d_m A <> d_m B \/ d_n A <> d_m B \/ d_m X <> d_m B \/ d_n X <> d_n B ->
  trsm T O al ul unit A B X m = Throw InvalidArgument.
Proof.
  intros T O al ul unit A B X m H. unfold trsm.
  destruct (Nat.eqb_spec (d_m A) (d_m B)), (Nat.eqb_spec (d_n A) (d_m B)), (Nat.eqb_spec (d_m X) (d_m B)), (Nat.eqb_spec (d_n X) (d_n B)); cbn [negb orb]; auto. tauto.
Qed.

(** trsvLeftLower / trsvLeftUpper: the same with one column. *)
Definition as_column (v : dvec) : dmat := DMat (v_size v) 1 (fun i _ => v_at v i).
Lemma trsv_trsm : forall T (O : Ops T) al ul A b x m, v_size x = v_size b ->
  trsv T O al ul A b x m = trsm T O al ul false A (as_column b) (as_column x) m.
Proof.
  intros T O al ul A b x m Hx. unfold trsv, trsm, as_column. cbn [d_m d_n d_at]. rewrite Hx, Nat.eqb_refl. cbn [negb orb Nat.eqb].
  destruct (_ || _)%bool; auto. unfold for_ at 3. cbn [loop Nat.sub].
  destruct ul; [destruct (for_ _ _ _ _)|destruct (for_ 0 (v_size b) _ m)]; reflexivity.
Qed.
Theorem C31_trsv_field : forall T (O : Ops T) al ul A b x m, field_laws O -> v_size x = v_size b ->
  trsm_pre al ul false A (as_column b) (as_column x) -> (forall i, i < v_size b -> m (d_at A i i) <> o0 O) ->
  exists m', trsv T O al ul A b x m = Ok m' /\
    (forall i, i < v_size b ->
       sum O (v_size b) (fun k => omul O (triangle O ul false (fun i k => m (d_at A i k)) i k) (m' (v_at x k))) = m (v_at b i)) /\
    (forall a, (forall i, i < v_size b -> a <> v_at x i) -> m' a = m a).
Proof.
  intros T O al ul A b x m FL Hx P ND. rewrite trsv_trsm by auto.
  destruct (C31_trsm_field T O al ul false A (as_column b) (as_column x) m FL P) as (m' & E & V & F).
  { intros _. exact ND. }
  exists m'. split; auto. split.
  - intros i Hi. apply (V i 0); cbn; auto.
  - intros a Ha. apply F. intros i j Hi _. apply Ha. exact Hi.
Qed.
Theorem C31_trsv_throws : forall T (O : Ops T) al ul A b x m,
  d_m A <> v_size b \/ d_n A <> v_size b -> trsv T O al ul A b x m = Throw InvalidArgument.
Proof.
  intros T O al ul A b x m H. unfold trsv.
  destruct (Nat.eqb_spec (d_m A) (v_size b)), (Nat.eqb_spec (d_n A) (v_size b)); cbn [negb orb]; auto. tauto.
Qed.

(* ------------------------------------------------------------------ examples *)
(** A 3-by-3 at 0, B = X 3-by-2 at 9; only A's lower triangle and diagonal are allocated. *)
Definition tA := DMat 3 3 (fun i j => i + 3 * j).
Definition tB := DMat 3 2 (fun i j => 9 + i + 3 * j).
Definition t_al (x : nat) : bool := existsb (fun y => x =? y) [0; 1; 2; 4; 5; 8; 9; 10; 11; 12; 13; 14].
Example C31_example : trsm_pre t_al Lower false tA tB tB.
Proof.
  constructor; cbn; auto.
  - intros i k Hi Hk R. unfold referenced in R.
    destruct i as [|[|[|]]], k as [|[|[|]]]; try lia; reflexivity.
  - intros i j Hi Hj. cbn in *. destruct i as [|[|[|]]], j as [|[|]]; try lia; reflexivity.
  - intros i j Hi Hj. cbn in *. destruct i as [|[|[|]]], j as [|[|]]; try lia; reflexivity.
  - intros i j i' j' Hi Hj Hi' Hj' E. lia.
  - intros. lia.
  - intros. lia.
Qed.
(** A = [1 . .; 2 1 .; 3 4 -1], B = A * [1; 2; 3] and A * [0; 1; 0]. *)
Definition t_m (x : nat) : Z := nth x [1; 2; 3; 99; 1; 4; 99; 99; -1; 1; 4; 8; 0; 1; 4]%Z 0%Z.
Example C31_example_run :
  match trsm Z zops t_al Lower false tA tB tB t_m with
  | Ok m' => map (fun j => map (fun i => m' (d_at tB i j)) (seq 0 3)) (seq 0 2)
  | _ => [] end = [[1; 2; 3]; [0; 1; 0]]%Z.
Proof. vm_compute. reflexivity. Qed.
Example C31_example_field : field_laws rops. Proof. exact rops_field. Qed.
