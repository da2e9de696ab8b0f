(** Properties_Unique.v -- C60: the solutions and factors are the only ones, and multiplying undoes solving and factoring. *)
From Coq Require Import Arith Lia List Bool PeanoNat Reals Lra ZArith QArith Qcanon.
From Verif Require Import Base Base_Proofs Spec Algebra_Proofs Cholesky_Proofs Instances Layout_Model Layout_Proofs Arg_Proofs Gemm_Model Tri_Model Properties_Tri
  Trmm_Model Properties_Trmm Potrf_Model Properties_Potrf LU_Model LU_Theory Properties_LU Properties_Solve.
Import ListNotations.
Local Open Scope nat_scope.

Section Field.
Context {T : Type} (O : Ops T) (FL : field_laws O).
Let RL := fl_ring O FL.
Add Ring TRing : (alg_ring O RL).

(** Equal sums that agree in all terms but one agree in this term. *)
Lemma sum_point : forall n f g i, i < n -> (forall k, k < n -> k <> i -> f k = g k) -> sum O n f = sum O n g -> f i = g i.
Proof.
  intros n f g i Hi H E. replace n with (i + (1 + (n - i - 1))) in E by lia.
  rewrite !(sum_split O RL), (sum_ext O i f g) in E by (intros; apply H; lia).
  rewrite (sum_ext O (n - i - 1) (fun k => f (i + (1 + k))) (fun k => g (i + (1 + k)))) in E by (intros; apply H; lia).
  cbn [sum] in E. rewrite !Nat.add_0_r in E.
  set (s := sum O i g) in *. set (t := sum O (n - i - 1) _) in *.
  assert (X : forall a, a = osub O (oadd O s (oadd O (oadd O (o0 O) a) t)) (oadd O s t)) by (intros; ring).
  rewrite (X (f i)), (X (g i)), E. reflexivity.
Qed.

Lemma tri_unique : forall n ul unit (a : nat -> nat -> T) x y, (unit = false -> forall i, i < n -> a i i <> o0 O) ->
  (forall i, i < n -> sum O n (fun k => omul O (triangle O ul unit a i k) (x k)) = sum O n (fun k => omul O (triangle O ul unit a i k) (y k))) ->
  forall i, i < n -> x i = y i.
Proof.
  intros n ul unit a x y Hd H.
  assert (STEP : forall i, i < n -> (forall k, k < n -> match ul with Lower => k < i | Upper => i < k end -> x k = y k) -> x i = y i).
  { intros i Hi IH. specialize (H i Hi).
    assert (P : omul O (triangle O ul unit a i i) (x i) = omul O (triangle O ul unit a i i) (y i)).
    { apply (sum_point n (fun k => omul O (triangle O ul unit a i k) (x k)) (fun k => omul O (triangle O ul unit a i k) (y k)) i); auto.
      intros k Hk Hki. unfold triangle. destruct (Nat.eqb_spec i k); [lia|]. destruct ul.
      - destruct (Nat.ltb_spec k i); [rewrite IH by auto; auto|ring].
      - destruct (Nat.ltb_spec i k); [rewrite IH by auto; auto|ring]. }
    unfold triangle in P. rewrite Nat.eqb_refl in P. destruct unit.
    - assert (X : forall b, b = omul O (o1 O) b) by (intros; ring). rewrite (X (x i)), (X (y i)). exact P.
    - apply (mul_cancel O FL _ _ (a i i)); auto. rewrite !(rl_mul_comm O RL _ (a i i)). exact P. }
  destruct ul.
  - intros i. induction i as [i IH] using lt_wf_ind. intros Hi. apply STEP; auto.
  - assert (Q : forall d i, d = n - i -> i < n -> x i = y i).
    { induction d as [d IH] using lt_wf_ind. intros i Hd' Hi. apply STEP; auto. intros k Hk Hik. apply (IH (n - k)); lia. }
    intros i Hi. apply (Q (n - i)); auto.
Qed.

(** Equal packed LU products with non-zero pivots have equal factors. *)
Lemma lu_unique : forall M N (F G : nat -> nat -> T),
  (forall l, l < min M N -> F l l <> o0 O) ->
  (forall i j, i < M -> j < N -> sum O (min M N) (fun l => omul O (unit_lower O F i l) (upper_trap O F l j)) =
                                 sum O (min M N) (fun l => omul O (unit_lower O G i l) (upper_trap O G l j))) ->
  forall i j, i < M -> j < N -> F i j = G i j.
Proof.
  intros M N F G HF H.
  assert (Q : forall d i j, d = min i j -> i < M -> j < N -> F i j = G i j).
  2:{ intros i j Hi Hj. apply (Q (min i j)); auto. }
  induction d as [d IH] using lt_wf_ind.
  (* the row of U first *)
  assert (UR : forall j, d < M -> d <= j < N -> F d j = G d j).
  { intros j Hd Hj.
    assert (P : omul O (unit_lower O F d d) (upper_trap O F d j) = omul O (unit_lower O G d d) (upper_trap O G d j)).
    { apply (sum_point (min M N) (fun l => omul O (unit_lower O F d l) (upper_trap O F l j)) (fun l => omul O (unit_lower O G d l) (upper_trap O G l j)) d); [lia| |apply H; lia].
      intros l Hl Hne. unfold unit_lower, upper_trap. destruct (Nat.ltb_spec l d).
      - destruct (Nat.leb_spec l j); [|ring]. rewrite (IH l ltac:(lia) d l), (IH l ltac:(lia) l j) by lia. reflexivity.
      - destruct (Nat.eqb_spec l d); [lia|]. ring. }
    unfold unit_lower, upper_trap in P. rewrite Nat.ltb_irrefl, Nat.eqb_refl in P. destruct (Nat.leb_spec d j); [|lia].
    assert (X : forall b, b = omul O (o1 O) b) by (intros; ring). rewrite (X (F d j)), (X (G d j)). exact P. }
  intros i j Hd Hi Hj. destruct (Nat.le_gt_cases i j) as [L|L].
  - replace i with d by lia. apply UR; lia.
  - replace j with d in * by lia. clear j Hd.
    assert (P : omul O (unit_lower O F i d) (upper_trap O F d d) = omul O (unit_lower O G i d) (upper_trap O G d d)).
    { apply (sum_point (min M N) (fun l => omul O (unit_lower O F i l) (upper_trap O F l d)) (fun l => omul O (unit_lower O G i l) (upper_trap O G l d)) d); [lia| |apply H; lia].
      intros l Hl Hne. unfold unit_lower, upper_trap. destruct (Nat.leb_spec l d); [|ring].
      destruct (Nat.ltb_spec l i); [|lia]. rewrite (IH l ltac:(lia) i l), (IH l ltac:(lia) l d) by lia. reflexivity. }
    unfold unit_lower, upper_trap in P. rewrite Nat.leb_refl in P. destruct (Nat.ltb_spec d i); [|lia].
    rewrite <- (UR d) in P by lia. apply (mul_cancel O FL _ _ (F d d)); auto. apply HF. lia.
Qed.
End Field.

(** trsm returns the only solution. *)
Theorem C60_trsm_unique : forall T (O : Ops T) al ul unit A B X m m' (Y : nat -> nat -> T), field_laws O -> trsm_pre al ul unit A B X ->
  (unit = false -> forall i, i < d_m B -> m (d_at A i i) <> o0 O) -> trsm T O al ul unit A B X m = Ok m' ->
  (forall i j, i < d_m B -> j < d_n B ->
     sum O (d_m B) (fun k => omul O (triangle O ul unit (fun i k => m (d_at A i k)) i k) (Y k j)) = m (d_at B i j)) ->
  forall i j, i < d_m B -> j < d_n B -> m' (d_at X i j) = Y i j.
Proof.
  intros T O al ul unit A B X m m' Y FL P Hd E HY i j Hi Hj.
  destruct (C31_trsm_field T O al ul unit A B X m FL P Hd) as (m1 & E1 & V & _). pose proof (eq_trans (eq_sym E1) E) as Q. injection Q as ->.
  apply (tri_unique O FL (d_m B) ul unit (fun i k => m (d_at A i k)) (fun k => m' (d_at X k j)) (fun k => Y k j)); auto.
  intros k Hk. rewrite (HY k j) by auto. apply V; auto.
Qed.

(** The factors computed by getrf are the only factors for the returned row interchanges. *)
Theorem C60_getrf_unique : forall SS cc T (O : Ops T) al A m p m' p' (G : nat -> nat -> T), 0 < SS -> 0 < cc -> exact_arith O -> getrf_pre SS cc al A ->
  getrf_cm SS cc T O al A (m, p) = Ok (m', p') ->
  (forall i j, i < g_rows A -> j < g_cols A -> interchanged p' 0 (min (g_rows A) (g_cols A)) (fun i j => m (g_addr SS A i j)) i j =
     sum O (min (g_rows A) (g_cols A)) (fun l => omul O (unit_lower O G i l) (upper_trap O G l j))) ->
  forall i j, i < g_rows A -> j < g_cols A -> m' (g_addr SS A i j) = G i j.
Proof.
  intros SS cc T O al A m p m' p' G HSS Hcc XA P E HG. pose proof XA as [FL _].
  assert (ND : ~ dependent_columns O (g_rows A) (min (g_rows A) (g_cols A)) (fun i j => m (g_addr SS A i j))).
  { intros D. apply (C36_getrf_throws_iff SS cc T O al A m p HSS Hcc XA P) in D. discriminate (eq_trans (eq_sym D) E). }
  destruct (C36_getrf_column_major SS cc T O al A m p HSS Hcc XA P ND) as (m1 & p1 & E1 & (_ & LD & _ & LF) & _).
  pose proof (eq_trans (eq_sym E1) E) as Q. injection Q as -> ->.
  apply (lu_unique O FL (g_rows A) (g_cols A) (fun i j => m' (g_addr SS A i j)) G); auto.
  intros i j Hi Hj. rewrite <- LF, HG by auto. reflexivity.
Qed.

(** potrf recovers L0 from the lower triangle of L0 * L0^T, L0 lower trapezoidal with a positive diagonal. *)
Lemma chol_unique : forall M N (l g : nat -> nat -> R), N <= M -> (forall j, j < N -> (0 < l j j)%R) -> (forall j, j < N -> (0 < g j j)%R) ->
  (forall i j, lower M N i j -> sum rops N (fun k => lower_of rops l i k * lower_of rops l j k)%R = sum rops N (fun k => lower_of rops g i k * lower_of rops g j k)%R) ->
  forall i j, lower M N i j -> l i j = g i j.
Proof.
  intros M N l g HNM Hl Hg H. pose proof rops_field as FL.
  assert (Q : forall j i, lower M N i j -> l i j = g i j); [|auto].
  induction j as [j IH] using lt_wf_ind.
  assert (PT : forall i, lower M N i j -> (l i j * l j j = g i j * g j j)%R).
  { intros i Hij.
    assert (P : (lower_of rops l i j * lower_of rops l j j = lower_of rops g i j * lower_of rops g j j)%R).
    2:{ unfold lower in Hij. unfold lower_of in P. rewrite Nat.leb_refl, !(proj2 (Nat.leb_le j i)) in P by lia. exact P. }
    unfold lower in Hij.
    apply (sum_point rops FL N (fun k => lower_of rops l i k * lower_of rops l j k)%R (fun k => lower_of rops g i k * lower_of rops g j k)%R j); [lia| |apply H; unfold lower; lia].
    intros k Hk Hne. unfold lower_of. destruct (Nat.leb_spec k j).
    - rewrite !(proj2 (Nat.leb_le k i)) by lia. rewrite (IH k ltac:(lia) i), (IH k ltac:(lia) j) by (unfold lower; lia). reflexivity.
    - cbn. ring. }
  assert (D : j < N -> l j j = g j j).
  { intros Hj. specialize (PT j ltac:(unfold lower; lia)). specialize (Hl j Hj). specialize (Hg j Hj).
    assert ((l j j - g j j) * (l j j + g j j) = 0)%R by (replace ((l j j - g j j) * (l j j + g j j))%R with (l j j * l j j - g j j * g j j)%R by ring; lra).
    apply Rmult_integral in H0. lra. }
  intros i Hij. assert (Hj : j < N) by (unfold lower in Hij; lia). specialize (PT i Hij). rewrite (D Hj) in PT. specialize (Hg j Hj).
  apply (Rmult_eq_reg_r (g j j)); [exact PT|lra].
Qed.

(** L0 * L0^T is positive definite. *)
Lemma llt_pos_def : forall N (g : nat -> nat -> R), (forall j, j < N -> (0 < g j j)%R) ->
  pos_def N (fun i j => sum rops N (fun k => lower_of rops g i k * lower_of rops g j k)%R).
Proof.
  intros N g Hg. pose proof rops_field as FL. split.
  - intros i j _ _. apply S_ext. intros; ring.
  - intros v (i0 & Hi0 & Hv). set (r := fun i k => lower_of rops g i k).
    set (w := fun k => sum rops N (fun i => v i * r i k)%R).
    assert (E : (sum rops N (fun i => sum rops N (fun j => v i * sum rops N (fun k => r i k * r j k) * v j)) = sum rops N (fun k => Rsqr (w k)))%R).
    { transitivity (sum rops N (fun i => sum rops N (fun j => sum rops N (fun l => (v i * r i l) * (v j * r j l)))))%R.
      - apply S_ext. intros i Hi. apply S_ext. intros j Hj.
        rewrite (S_ext N (fun l => (v i * r i l * (v j * r j l))%R) (fun l => ((v i * v j) * (r i l * r j l))%R)) by (intros; ring).
        rewrite S_scale. ring.
      - transitivity (sum rops N (fun i => sum rops N (fun l => sum rops N (fun j => (v i * r i l) * (v j * r j l))%R))).
        + apply S_ext. intros i Hi. apply S_swap.
        + rewrite S_swap. apply S_ext. intros l Hl. unfold Rsqr, w. rewrite <- S_scale. apply S_ext. intros i Hi. rewrite S_scale. apply Rmult_comm. }
    change (0 < sum rops N (fun i => sum rops N (fun j => v i * sum rops N (fun k => r i k * r j k) * v j)))%R. rewrite E. clear E.
    assert (NN : forall n f, (forall k, k < n -> (0 <= f k)%R) -> (0 <= sum rops n f)%R /\ ((exists k, k < n /\ (0 < f k)%R) -> (0 < sum rops n f)%R)).
    { induction n as [|n IH]; intros f Hf; [cbn; split; [lra|intros (k & Hk & _); lia]|].
      destruct (IH f) as (I1 & I2); [intros; apply Hf; lia|]. cbn [sum]. cbn [oadd rops]. assert (0 <= f n)%R by (apply Hf; lia). split; [lra|].
      intros (k & Hk & P). destruct (Nat.eq_dec k n) as [->|]; [lra|]. assert (0 < sum rops n f)%R by (apply I2; exists k; split; [lia|auto]). lra. }
    destruct (NN N (fun k => Rsqr (w k))) as (Q1 & Q2); [intros; apply Rle_0_sqr|].
    destruct (Rle_lt_or_eq_dec _ _ Q1) as [|Z]; [auto|exfalso].
    assert (W : forall k, k < N -> w k = 0%R).
    { intros k Hk. destruct (Req_dec (w k) 0) as [|n]; auto. exfalso. apply Rsqr_pos_lt in n.
      assert (0 < sum rops N (fun k => Rsqr (w k)))%R by (apply Q2; eauto). lra. }
    apply Hv. apply (tri_unique rops FL N Upper false (fun i k => g k i) v (fun _ => 0%R)); auto.
    + intros _ i Hi. apply Rgt_not_eq, Hg, Hi.
    + intros i Hi. transitivity (w i).
      * apply S_ext. intros k Hk. unfold r, triangle, lower_of. cbn [omul rops o0]. destruct (Nat.eqb_spec i k) as [->|]; [rewrite Nat.leb_refl; ring|].
        destruct (Nat.ltb_spec i k), (Nat.leb_spec i k); try lia; ring.
      * rewrite W by auto. symmetry. apply S_0. intros. cbn. ring.
Qed.

Lemma potrf_roundtrip : forall M N (g l : nat -> nat -> R), N <= M -> (forall j, j < N -> (0 < g j j)%R) ->
  cholesky_factor M N (fun i j => sum rops N (fun k => lower_of rops g i k * lower_of rops g j k)%R) l -> forall i j, lower M N i j -> l i j = g i j.
Proof. intros M N g l H Hg (C1 & C2). apply chol_unique; auto. Qed.

(** potrf of L0 * L0^T is L0, for the dense and the panel version; L0: M-by-N, M >= N, lower trapezoidal, positive diagonal. *)
Theorem C60_potrf_roundtrip : forall SS cc al A L m (L0 : nat -> nat -> R), 0 < SS -> 0 < cc -> potrf_pre SS cc al A L ->
  (forall j, j < v_n A -> (0 < L0 j j)%R) ->
  (forall i j, lower (v_m A) (v_n A) i j -> m (v_addr SS A i j) = sum rops (v_n A) (fun k => lower_of rops L0 i k * lower_of rops L0 j k)%R) ->
  (exists m', potrf_dense SS cc (cc * SS) R rops al A L m = Ok m' /\ forall i j, lower (v_m A) (v_n A) i j -> m' (v_addr SS L i j) = L0 i j) /\
  (exists m', potrf_panel SS cc (cc * SS) R rops al A L m = Ok m' /\ forall i j, lower (v_m A) (v_n A) i j -> m' (v_addr SS L i j) = L0 i j).
Proof.
  intros SS cc al A L m g HSS Hcc P Hg Ha.
  assert (HNM : v_n A <= v_m A) by (destruct (pp_sz _ _ _ _ _ P); lia).
  pose proof (llt_pos_def (v_n A) g Hg) as PD. split.
  - destruct (C28_potrf_dense_real SS cc al A L m _ HSS Hcc P PD Ha) as (m' & E & CF). exists m'. split; auto. apply (potrf_roundtrip _ _ g _ HNM Hg CF).
  - destruct (C28_potrf_panel_real SS cc al A L m _ HSS Hcc P PD Ha) as (m' & E & CF). exists m'. split; auto. apply (potrf_roundtrip _ _ g _ HNM Hg CF).
Qed.

(** The factor of a positive definite matrix is unique, so the dense and the panel version agree in exact arithmetic. *)
Theorem C60_potrf_unique : forall SS cc al A L m m' a (l : nat -> nat -> R), 0 < SS -> 0 < cc -> potrf_pre SS cc al A L ->
  pos_def (v_n A) a -> (forall i j, lower (v_m A) (v_n A) i j -> m (v_addr SS A i j) = a i j) -> cholesky_factor (v_m A) (v_n A) a l ->
  potrf_dense SS cc (cc * SS) R rops al A L m = Ok m' \/ potrf_panel SS cc (cc * SS) R rops al A L m = Ok m' ->
  forall i j, lower (v_m A) (v_n A) i j -> m' (v_addr SS L i j) = l i j.
Proof.
  intros SS cc al A L m m' a l HSS Hcc P PD Ha (L1 & L2) E.
  assert (HNM : v_n A <= v_m A) by (destruct (pp_sz _ _ _ _ _ P); lia).
  assert (CF : cholesky_factor (v_m A) (v_n A) a (fun i j => m' (v_addr SS L i j))).
  { destruct E as [E|E].
    - destruct (C28_potrf_dense_real SS cc al A L m a HSS Hcc P PD Ha) as (m1 & E1 & CF). pose proof (eq_trans (eq_sym E1) E) as Q. injection Q as ->. auto.
    - destruct (C28_potrf_panel_real SS cc al A L m a HSS Hcc P PD Ha) as (m1 & E1 & CF). pose proof (eq_trans (eq_sym E1) E) as Q. injection Q as ->. auto. }
  destruct CF as (F1 & F2). apply (chol_unique (v_m A) (v_n A) (fun i j => m' (v_addr SS L i j)) l); auto.
  intros i j H. rewrite F1, L1 by auto. reflexivity.
Qed.

(** trmm, then trsm with the same triangular matrix in place: alpha * B. *)
Theorem C60_trsm_trmm : forall SS cc T (O : Ops T) al alpha A B C m, 0 < SS -> 0 < cc -> field_laws O -> trmmL_pre SS cc al A B C ->
  (g_rows B mod (cc * SS) = 0 /\ g_cols B mod (cc * SS) = 0) \/ (forall i k, k < i < g_rows B -> m (g_addr SS A i k) = o0 O) ->
  (forall i, i < g_rows B -> m (g_addr SS A i i) <> o0 O) -> allocated al (g_rows B) (g_rows B) (g_addr SS A) ->
  exists m', (m1 <- trmmL SS cc T O al alpha A Upper false B C m ;; trsm T O al Upper false (as_dmat SS A) (as_dmat SS C) (as_dmat SS C) m1) = Ok m' /\
    updated (block (g_rows B) (g_cols B)) (g_addr SS C) (fun i j => omul O alpha (m (g_addr SS B i j))) m m'.
Proof.
  intros SS cc T O al alpha A B C m HSS Hcc FL P H Hd AA. pose proof (fl_ring O FL) as RL.
  destruct (C25_trmm_left_ring SS cc T O al alpha A B C m HSS Hcc RL P H) as (m1 & E1 & V1 & F1). rewrite E1. cbn [bind].
  pose proof (lp_szA _ _ _ _ _ _ P) as [SA1 SA2]. pose proof (lp_szC _ _ _ _ _ _ P) as [SC1 SC2].
  assert (TP : trsm_pre al Upper false (as_dmat SS A) (as_dmat SS C) (as_dmat SS C)).
  { apply solve_trsm_pre; cbn [as_dmat d_m d_n d_at]; rewrite ?SC1, ?SC2; auto.
    - apply (lp_alC _ _ _ _ _ _ P).
    - pose proof (g_distinct SS HSS C (lp_C _ _ _ _ _ _ P)) as D. rewrite SC1, SC2 in D. exact D.
    - apply (lp_sepA _ _ _ _ _ _ P). }
  assert (KA : forall i k, i < g_rows B -> k < g_rows B -> m1 (g_addr SS A i k) = m (g_addr SS A i k)).
  { intros i k Hi Hk. apply F1. intros i' j' [Hi' Hj'] X. exact (lp_sepA _ _ _ _ _ _ P i' j' i k Hi' Hj' Hi Hk (eq_sym X)). }
  assert (ND : false = false -> forall i, i < d_m (as_dmat SS C) -> m1 (d_at (as_dmat SS A) i i) <> o0 O).
  { intros _ i Hi. cbn [as_dmat d_m d_at] in *. rewrite SC1 in Hi. rewrite KA by auto. auto. }
  destruct (C31_trsm_field T O al Upper false (as_dmat SS A) (as_dmat SS C) (as_dmat SS C) m1 FL TP ND) as (m2 & E2 & V2 & F2).
  exists m2. split; auto. cbn [as_dmat d_m d_n d_at] in *. rewrite SC1, SC2 in *. split.
  - intros i j [Hi Hj].
    apply (tri_unique O FL (g_rows B) Upper false (fun i k => m1 (g_addr SS A i k)) (fun k => m2 (g_addr SS C k j)) (fun k => omul O alpha (m (g_addr SS B k j)))); auto.
    intros k Hk. rewrite V2, V1 by (auto; split; auto). rewrite <- (sum_scale O RL). apply (sum_ext O). intros l Hl.
    unfold upper_of, triangle. rewrite !KA by auto. destruct (Nat.eqb_spec k l) as [->|].
    + rewrite Nat.leb_refl. rewrite !(rl_mul_assoc O RL), (rl_mul_comm O RL alpha). reflexivity.
    + destruct (Nat.ltb_spec k l), (Nat.leb_spec k l); try lia; rewrite !(rl_mul_assoc O RL), (rl_mul_comm O RL alpha); reflexivity.
  - intros a Ha. rewrite F2, F1; auto. intros i j Hi Hj. apply Ha. split; auto.
Qed.

(* ------------------------------------------------------------------ concrete cases *)
(** L0(i, j) = i + j + 1 in a 6-by-4 matrix: the hypotheses of the round trip hold. *)
Definition u_L0 (i j : nat) : R := INR (i + j + 1).
Definition u_m (x : nat) : R := sum rops 4 (fun k => lower_of rops u_L0 (x mod 8) k * lower_of rops u_L0 (x / 8) k)%R.
Example C60_example_potrf : potrf_pre 4 1 x_al (whole xA) (whole xL) /\ (forall j, j < v_n (whole xA) -> (0 < u_L0 j j)%R) /\
  (forall i j, lower 6 4 i j -> u_m (v_addr 4 (whole xA) i j) = sum rops 4 (fun k => lower_of rops u_L0 i k * lower_of rops u_L0 j k)%R).
Proof.
  split; [exact C28_example|]. split.
  - intros j _. unfold u_L0. apply lt_0_INR. lia.
  - intros i j H. unfold u_m. replace (v_addr 4 (whole xA) i j) with (i + j * 8) by (cbn; lia).
    unfold lower in H. rewrite Nat.mod_add, Nat.div_add, Nat.mod_small, Nat.div_small by lia. reflexivity.
Qed.
(** trmm and trsm with a 6-by-6 upper triangular A, B 6-by-5, rational arithmetic; 3 * B comes back. *)
Definition u_q (x : nat) : Qc := if x <? 48 then (if x mod 8 <=? x / 8 then Q2Qc (Z.of_nat (x mod 8 + 2 * (x / 8) + 1) # 1) else 0%Qc) else Q2Qc (Z.of_nat x # 7).
Example C60_example_trmm :
  trmmL_pre 4 1 Properties_Trmm.e_al (MArg (whole eA) false) (MArg (whole eB) false) (MArg (whole eC) false) /\
  (forall i k, k < i < 6 -> u_q (g_addr 4 (MArg (whole eA) false) i k) = 0%Qc) /\ (forall i, i < 6 -> u_q (g_addr 4 (MArg (whole eA) false) i i) <> 0%Qc) /\
  match (m1 <- trmmL 4 1 Qc qops Properties_Trmm.e_al (Q2Qc 3) (MArg (whole eA) false) Upper false (MArg (whole eB) false) (MArg (whole eC) false) u_q ;;
         trsm Qc qops Properties_Trmm.e_al Upper false (as_dmat 4 (MArg (whole eA) false)) (as_dmat 4 (MArg (whole eC) false)) (as_dmat 4 (MArg (whole eC) false)) m1) with
  | Ok m' => forallb (fun i => Qceqb (m' (c_addr 4 eC i 4)) (Q2Qc 3 * u_q (c_addr 4 eB i 4))%Qc) (seq 0 6) = true
  | _ => False end.
Proof.
  split; [exact C25_example|]. split; [|split].
  - intros i k H. do 6 (destruct i as [|i]; [do 6 (destruct k as [|k]; [try lia; reflexivity|]); lia|]). lia.
  - intros i H. do 6 (destruct i as [|i]; [discriminate|]). lia.
  - vm_compute. reflexivity.
Qed.
(** getrf of a 4-by-3 rational matrix succeeds (C36_example_run), so the hypotheses of the uniqueness theorem are met by its own factors. *)
Example C60_example_getrf : exact_arith qops /\ getrf_pre 2 1 (c_alloc 2 rA) (MArg (whole rA) false) /\
  exists m' p', getrf_cm 2 1 Qc qops (c_alloc 2 rA) (MArg (whole rA) false) (r_m, fun _ => 7) = Ok (m', p').
Proof.
  split; [exact qops_exact|]. split; [exact C36_example|].
  destruct (getrf_cm 2 1 Qc qops (c_alloc 2 rA) (MArg (whole rA) false) (r_m, fun _ => 7)) as [[m' p']| | | |] eqn:E; eauto;
    pose proof C36_example_run as H; rewrite E in H; discriminate.
Qed.
(** The system of C31_example_run has exactly the solution computed there. *)
Example C60_example_trsm : forall Y : nat -> nat -> R,
  (forall i j, i < 3 -> j < 2 -> sum rops 3 (fun k => triangle rops Lower false (fun i k => IZR (t_m (d_at tA i k))) i k * Y k j)%R = IZR (t_m (d_at tB i j))) ->
  exists m', trsm R rops t_al Lower false tA tB tB (fun a => IZR (t_m a)) = Ok m' /\ forall i j, i < 3 -> j < 2 -> m' (d_at tB i j) = Y i j.
Proof.
  intros Y HY.
  assert (ND : false = false -> forall i, i < d_m tB -> IZR (t_m (d_at tA i i)) <> o0 rops).
  { intros _ i Hi. cbn in Hi. do 3 (destruct i as [|i]; [cbn; lra|]). lia. }
  destruct (C31_trsm_field R rops t_al Lower false tA tB tB (fun a => IZR (t_m a)) rops_field C31_example ND) as (m' & E & _).
  exists m'. split; auto. apply (C60_trsm_unique R rops t_al Lower false tA tB tB _ m' Y rops_field C31_example ND E). exact HY.
Qed.
