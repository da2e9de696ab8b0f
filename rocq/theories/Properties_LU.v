(** Properties_LU.v -- C32 (iamax), C33 (swap), C34 (laswp), C35 (getf2), C36 (getrf, column-major), C37 (getrf, row-major). *)
From Coq Require Import Arith Lia List Bool PeanoNat ZArith QArith Qcanon Reals.
From Verif Require Import Base Base_Proofs Spec Algebra_Proofs Instances Layout_Model Layout_Proofs Simd_Model Simd_Proofs Vec_Proofs
  Gemm_Model Arg_Proofs Ger_Model Ger_Proofs Scan_Proofs Tri_Model Ref_Model Ref_Proofs Properties_Tri
  LU_Model LU_Theory LU_Proofs LU_Row_Proofs Getrf_Proofs.
Import ListNotations.
Local Open Scope nat_scope.

(* ------------------------------------------------------------------ C32: iamax *)
(** The first position of the largest magnitude, if the magnitudes of the elements are comparable (no NaN); in any case, whatever the arithmetic, the position
    that going through the elements and taking each strictly larger one gives -- in bounds, and independent of SIMD width, stride and placement. *)
Theorem C32_iamax : forall SS T (O : Ops T) al x m, 0 < SS -> 0 < x_size x -> vec_ok SS (x_ptr x) ->
  (forall i, i < x_size x -> al (vaddr SS (x_ptr x) i) = true) ->
  let e := fun i => m (vaddr SS (x_ptr x) i) in
  exists r, iamax SS T O al x m = Ok r /\ r < x_size x /\ r = running_max O (x_size x) e /\
    (comparable O (x_size x) e -> first_max O (x_size x) e r).
Proof.
  intros SS T O al x m HSS Hn Hv Ha e. unfold iamax, iamax_ptr. destruct (Nat.eqb_spec (x_size x) 0); [lia|].
  destruct (iamax_loop_ok T O al (x_size x) (vaddr SS (x_ptr x) 0) (vderef SS (x_ptr x)) m Hn) as (r & E & Hr & F).
  - rewrite vderef_vaddr; auto.
  - intros i Hi. rewrite vderef_vaddr; auto.
  - exists r. split; auto. split; auto. apply (pivot_max_ext O _ _ e) in F; auto. intros i Hi. unfold e. rewrite vderef_vaddr; auto.
Qed.
(** When comparison of magnitudes is a strict weak order, the answer is unique: exactly the specified index. *)
Theorem C32_iamax_ordered : forall SS T (O : Ops T) al x m r, 0 < SS -> vec_ok SS (x_ptr x) -> magnitudes_ordered O ->
  (forall i, i < x_size x -> al (vaddr SS (x_ptr x) i) = true) ->
  first_max O (x_size x) (fun i => m (vaddr SS (x_ptr x) i)) r -> iamax SS T O al x m = Ok r.
Proof.
  intros SS T O al x m r HSS Hv MO Ha F. assert (Hn : 0 < x_size x) by (destruct F; lia).
  destruct (C32_iamax SS T O al x m HSS Hn Hv Ha) as (r' & E & _ & _ & F'). rewrite E. f_equal.
  eapply first_max_unique; [apply F'; apply ordered_comparable; auto|exact F].
Qed.
(** The empty vector is rejected without any access. *)
Theorem C32_iamax_empty_throws : forall SS T (O : Ops T) al x m, x_size x = 0 -> iamax SS T O al x m = Throw InvalidArgument.
Proof. intros SS T O al x m H. unfold iamax. rewrite H. reflexivity. Qed.
(** The same for blaze vectors: the first of the largest magnitudes, and the empty vector is rejected without any access. *)
Theorem C32_iamax_blaze : forall T (O : Ops T) al n at_ m, let x := DVec n at_ in
  (n = 0 -> iamax_d T O al x m = Throw InvalidArgument) /\
  (0 < n -> (forall i, i < n -> al (at_ i) = true) ->
   exists r, iamax_d T O al x m = Ok r /\ r < n /\ r = running_max O n (fun i => m (at_ i)) /\ (comparable O n (fun i => m (at_ i)) -> first_max O n (fun i => m (at_ i)) r)).
Proof.
  intros T O al n at_ m x. unfold iamax_d, x. cbn [v_size v_at]. destruct (Nat.eqb_spec n 0) as [E|E]; split; try lia; auto.
  intros Hn Ha. apply (iamax_loop_ok T O al n (at_ 0) at_ m Hn); auto.
Qed.

(** Integers with a NaN: comparisons with None are false. *)
Definition nanops : Ops (option Z) :=
  let l2 f (a b : option Z) := match a, b with Some x, Some y => Some (f x y) | _, _ => None end in
  mkOps (option Z) (Some 0%Z) (Some 1%Z) (Some (-1)%Z) (l2 Z.add) (l2 Z.sub) (l2 Z.mul) (l2 Z.div)
    (fun a b c => l2 Z.add (l2 Z.mul a b) c) (fun a b c => l2 Z.sub c (l2 Z.mul a b)) (option_map Z.sqrt) (option_map Z.abs)
    (fun a b => match a, b with Some x, Some y => Z.ltb x y | _, _ => false end)
    (fun a b => match a, b with Some x, Some y => Z.eqb x y | _, _ => false end).
(** A NaN in first position hides every other element: the position of the largest number is not found. *)
Theorem C32_iamax_nan_refuted :
  iamax 4 (option Z) nanops (fun _ => true) (VArg 3 (VStat 1 true 0)) (fun a => nth a [None; Some 1%Z; Some 5%Z] None) = Ok 0.
Proof. reflexivity. Qed.
Example C32_example : vec_ok 4 (VStat 3 false 2) /\ magnitudes_ordered qops /\
  iamax 4 Qc qops (fun _ => true) (VArg 4 (VStat 3 false 2)) (fun a => nth a (map (fun z => Q2Qc (inject_Z z)) [0; 0; 1; 0; 0; -3; 0; 0; 3; 0; 0; 2]%Z) 0%Qc) = Ok 1.
Proof. split; [exact I|]. split; [apply qops_exact|]. reflexivity. Qed.

(* ------------------------------------------------------------------ C33: swap *)
Theorem C33_swap : forall SS T al n x y (m : mem T), 0 < SS -> vec_ok SS x -> vec_ok SS y ->
  (forall i, i < n -> al (vaddr SS x i) = true) -> (forall i, i < n -> al (vaddr SS y i) = true) ->
  (forall i j, i < n -> j < n -> vaddr SS x i = vaddr SS x j -> i = j) -> (forall i j, i < n -> j < n -> vaddr SS y i = vaddr SS y j -> i = j) ->
  (forall i j, i < n -> j < n -> vaddr SS x i <> vaddr SS y j) ->
  exists m', swap_ptr SS T al n x y m = Ok m' /\
    (forall i, i < n -> m' (vaddr SS x i) = m (vaddr SS y i) /\ m' (vaddr SS y i) = m (vaddr SS x i)) /\
    (forall a, (forall i, i < n -> a <> vaddr SS x i /\ a <> vaddr SS y i) -> m' a = m a).
Proof.
  intros SS T al n x y m HSS Hx Hy Ax Ay Dx Dy Dxy. unfold swap_ptr.
  destruct (swap_loop_ok T al n (vderef SS x) (vderef SS y) m) as (m' & E & H1 & H2);
    try (intros; rewrite ?vderef_vaddr in * by auto; auto; fail).
  exists m'. split; auto. split.
  - intros i Hi. specialize (H1 i Hi). rewrite !vderef_vaddr in H1 by auto. auto.
  - intros a Ha. apply H2. intros i Hi. rewrite !vderef_vaddr by auto. auto.
Qed.
(** Swapping twice restores the memory. *)
Theorem C33_swap_involutive : forall SS T al n x y (m : mem T), 0 < SS -> vec_ok SS x -> vec_ok SS y ->
  (forall i, i < n -> al (vaddr SS x i) = true) -> (forall i, i < n -> al (vaddr SS y i) = true) ->
  (forall i j, i < n -> j < n -> vaddr SS x i = vaddr SS x j -> i = j) -> (forall i j, i < n -> j < n -> vaddr SS y i = vaddr SS y j -> i = j) ->
  (forall i j, i < n -> j < n -> vaddr SS x i <> vaddr SS y j) ->
  exists m' m'', swap_ptr SS T al n x y m = Ok m' /\ swap_ptr SS T al n x y m' = Ok m'' /\ forall a, m'' a = m a.
Proof.
  intros SS T al n x y m HSS Hx Hy Ax Ay Dx Dy Dxy.
  destruct (C33_swap SS T al n x y m) as (m1 & E1 & V1 & F1); auto.
  destruct (C33_swap SS T al n x y m1) as (m2 & E2 & V2 & F2); auto.
  exists m1, m2. split; auto. split; auto. intros a.
  assert (D : forall k, k <= n -> (exists i, i < k /\ (a = vaddr SS x i \/ a = vaddr SS y i)) \/ (forall i, i < k -> a <> vaddr SS x i /\ a <> vaddr SS y i)).
  { induction k as [|k IH]; intros Hk; [right; lia|]. destruct IH as [(i & Hi & X)|X]; [lia|left; exists i; split; auto|].
    destruct (Nat.eq_dec a (vaddr SS x k)) as [|N1]; [left; exists k; auto|]. destruct (Nat.eq_dec a (vaddr SS y k)) as [|N2]; [left; exists k; auto|].
    right. intros i Hi. destruct (Nat.eq_dec i k) as [->|]; auto. apply X. lia. }
  destruct (D n (le_n n)) as [(i & Hi & [->| ->])|X].
  - rewrite (proj1 (V2 i Hi)). apply V1. auto.
  - rewrite (proj2 (V2 i Hi)). apply V1. auto.
  - rewrite F2, F1; auto.
Qed.
(** The checked form: different sizes are rejected before any access. *)
Theorem C33_swap_throws : forall T al x y (m : mem T), v_size x <> v_size y -> swap_d T al x y m = Throw InvalidArgument.
Proof. intros T al x y m H. unfold swap_d. destruct (Nat.eqb_spec (v_size y) (v_size x)); [lia|]. reflexivity. Qed.
Theorem C33_swap_checked : forall T al x y (m : mem T), v_size y = v_size x ->
  (forall i, i < v_size x -> al (v_at x i) = true) -> (forall i, i < v_size x -> al (v_at y i) = true) ->
  (forall i j, i < v_size x -> j < v_size x -> v_at x i = v_at x j -> i = j) ->
  (forall i j, i < v_size x -> j < v_size x -> v_at y i = v_at y j -> i = j) ->
  (forall i j, i < v_size x -> j < v_size x -> v_at x i <> v_at y j) ->
  exists m', swap_d T al x y m = Ok m' /\
    (forall i, i < v_size x -> m' (v_at x i) = m (v_at y i) /\ m' (v_at y i) = m (v_at x i)) /\
    (forall a, (forall i, i < v_size x -> a <> v_at x i /\ a <> v_at y i) -> m' a = m a).
Proof.
  intros T al x y m E Ax Ay Dx Dy Dxy. unfold swap_d. rewrite E, Nat.eqb_refl. cbn [negb].
  destruct (Nat.ltb_spec 0 (v_size x)) as [C|C].
  - apply swap_loop_ok; auto.
  - exists m. split; auto. split; auto. intros i Hi. lia.
Qed.
(** Overlapping vectors are not exchanged: x = (a0, a1), y = (a1, a2). *)
Theorem C33_swap_overlap_refuted :
  match swap_ptr 4 Z (fun _ => true) 2 (VStat 1 false 0) (VStat 1 false 1) (fun a => Z.of_nat a) with
  | Ok m' => map m' [0; 1; 2] | _ => [] end = [1; 2; 0]%Z.
Proof. reflexivity. Qed.
(** x: stride 5 from 0, y: stride 5 from 2 (two rows of a column-major matrix). *)
Example C33_example : forall i j, i < 3 -> j < 3 -> vaddr 4 (VStat 5 false 0) i <> vaddr 4 (VStat 5 false 2) j.
Proof. cbn. lia. Qed.

(* ------------------------------------------------------------------ C34: laswp *)
(** Rows k and ipiv(k) exchanged for k = k0, ..., k1-1 in this order; nothing else changes. *)
Theorem C34_laswp : forall T al A k0 k1 ipiv (m : mem T), distinct (d_m A) (d_n A) (d_at A) -> allocated al (d_m A) (d_n A) (d_at A) ->
  k0 <= k1 -> k1 <= d_m A -> (forall k, k0 <= k < k1 -> ipiv k < d_m A) ->
  exists m', laswp T al A k0 k1 ipiv m = Ok m' /\
    updated (block (d_m A) (d_n A)) (d_at A) (interchanged ipiv k0 (k1 - k0) (fun i j => m (d_at A i j))) m m'.
Proof. exact laswp_ok. Qed.
(** The rows are permuted: row i of the result is row s(i) of the matrix, s a bijection of the row indices. *)
Theorem C34_laswp_permutes : forall T al A k0 k1 ipiv (m : mem T), distinct (d_m A) (d_n A) (d_at A) -> allocated al (d_m A) (d_n A) (d_at A) ->
  k0 <= k1 -> k1 <= d_m A -> (forall k, k0 <= k < k1 -> ipiv k < d_m A) ->
  exists m' s s', laswp T al A k0 k1 ipiv m = Ok m' /\
    (forall i, i < d_m A -> s i < d_m A /\ s' i < d_m A /\ s (s' i) = i /\ s' (s i) = i) /\
    forall i j, i < d_m A -> j < d_n A -> m' (d_at A i j) = m (d_at A (s i) j).
Proof.
  intros T al A k0 k1 ipiv m D AL H01 H1 Hp. destruct (laswp_ok T al A k0 k1 ipiv m D AL H01 H1 Hp) as (m' & E & U & _).
  assert (K : forall n, k0 + n <= k1 -> exists s s', (forall i, i < d_m A -> s i < d_m A /\ s' i < d_m A /\ s (s' i) = i /\ s' (s i) = i) /\
    forall (a : nat -> nat -> T) i j, interchanged ipiv k0 n a i j = a (s i) j).
  { induction n as [|n IH]; intros Hn.
    - exists (fun i => i), (fun i => i). auto.
    - destruct IH as (s & s' & S1 & S2); [lia|]. set (w := interchange (k0 + n) (ipiv (k0 + n))).
      assert (W : forall i, i < d_m A -> w i < d_m A) by (intros i Hi; apply interchange_lt; auto; [lia|apply Hp; lia]).
      exists (fun i => s (w i)), (fun i => w (s' i)). split.
      + intros i Hi. pose proof (W i Hi) as Wi. destruct (S1 i Hi) as (A1 & A2 & A3 & A4). destruct (S1 (w i) Wi) as (B1 & B2 & B3 & B4).
        split; auto. split; auto. split; [unfold w; rewrite interchange_invol; auto|]. rewrite B4. apply interchange_invol.
      + intros a i j. cbn [interchanged]. apply S2. }
  destruct (K (k1 - k0) ltac:(lia)) as (s & s' & S1 & S2). exists m', s, s'. split; auto. split; auto.
  intros i j Hi Hj. rewrite U by (split; auto). apply S2.
Qed.
(** Undoing the interchanges in reverse order restores the matrix. *)
Theorem C34_laswp_reversible : forall T al A k0 k1 ipiv (m : mem T), distinct (d_m A) (d_n A) (d_at A) -> allocated al (d_m A) (d_n A) (d_at A) ->
  k0 <= k1 -> k1 <= d_m A -> (forall k, k0 <= k < k1 -> ipiv k < d_m A) ->
  exists m', laswp T al A k0 k1 ipiv m = Ok m' /\
    forall i j, i < d_m A -> j < d_n A -> interchanged_back ipiv k0 (k1 - k0) (fun i j => m' (d_at A i j)) i j = m (d_at A i j).
Proof.
  intros T al A k0 k1 ipiv m D AL H01 H1 Hp. destruct (laswp_ok T al A k0 k1 ipiv m D AL H01 H1 Hp) as (m' & E & U & _).
  exists m'. split; auto. intros i j Hi Hj.
  assert (K : forall n (a b : nat -> nat -> T), k0 + n <= k1 -> (forall i, i < d_m A -> a i j = interchanged ipiv k0 n b i j) ->
     forall i, i < d_m A -> interchanged_back ipiv k0 n a i j = b i j).
  { induction n as [|n IH]; intros a b Hn Ha i0 Hi0; cbn [interchanged_back]; auto. apply IH; auto; try lia.
    intros i1 Hi1. rewrite Ha by (apply interchange_lt; auto; [lia|apply Hp; lia]). cbn [interchanged]. rewrite interchange_invol. reflexivity. }
  apply K with (b := fun i j => m (d_at A i j)); auto; try lia. intros i0 Hi0. apply U. split; auto.
Qed.
(** 3-by-2, interchanges 0-2 and 1-2. *)
Definition wA := DMat 3 2 (fun i j => i + 4 * j).
Example C34_example :
  match laswp Z (fun x => x <? 8) wA 0 2 (fun _ => 2) (fun a => Z.of_nat a) with
  | Ok m' => map (fun i => map (fun j => m' (d_at wA i j)) [0; 1]) [0; 1; 2] | _ => [] end = [[2; 6]; [0; 4]; [1; 5]]%Z.
Proof. reflexivity. Qed.

(* ------------------------------------------------------------------ C35: getf2 *)
(** Operand of the column-major getf2: a dense column-major matrix; below each column that is followed by another one the column
    is read up to the next multiple of the tile size. *)
Record getf2_pre (SS cc : nat) (al : alloc) (A : marg) : Prop := {
  lp_arg : arg_ok SS A; lp_kind : c_kind (v_cont (g_view A)) = Dense; lp_so : g_so A = columnMajor;
  lp_al : allocated al (g_rows A) (g_cols A) (g_addr SS A);
  lp_over : forall k i, k + 1 < g_rows A -> k + 1 < g_cols A -> i < nextMultiple (g_rows A - k - 1) (cc * SS) ->
              al (g_addr SS A (k + 1 + i) k) = true
}.
(** Whatever the scalar operations: elimination with the recorded interchanges, chosen as the first largest magnitude if
    magnitudes are ordered; or invalid_argument at a zero pivot. *)
Theorem C35_getf2_column_major_ops : forall SS cc T (O : Ops T) al A m p, 0 < SS -> 0 < cc -> getf2_pre SS cc al A ->
  let M := g_rows A in let N := g_cols A in let A0 := fun i j => m (g_addr SS A i j) in
  (exists m' p', getf2_cm SS cc T O al A (m, p) = Ok (m', p') /\
     lu_run O (el_cm O) M p' (min M N) A0 /\
     updated (block M N) (g_addr SS A) (lu_after O (el_cm O) p' (min M N) A0) m m' /\
     (forall i, min M N <= i -> p' i = p i)) \/
  (getf2_cm SS cc T O al A (m, p) = Throw InvalidArgument /\ lu_stuck O (el_cm O) M (min M N) A0).
Proof.
  intros SS cc T O al A m p HSS Hcc [P1 P2 P3 P4 P5] M N A0. unfold getf2_cm.
  assert (EA : forall i j, addr SS (g_ptr SS A) i j = g_addr SS A i j) by (intros; apply g_ptr_addr; auto).
  destruct (getf2_ptr_ok SS HSS cc Hcc T O al M N (g_ptr SS A)) with (p0 := 0) (m0 := m) (q0 := p) as [(m' & q' & E & R & [U1 U2] & F)|[E S]].
  - apply g_ptr_wf; auto.
  - rewrite g_ptr_kind. auto.
  - rewrite g_ptr_so. auto.
  - intros i j i' j' Hi Hj Hi' Hj' Q. rewrite !EA in Q. apply (g_distinct SS HSS A P1) in Q; auto.
  - intros i j Hi Hj. rewrite EA. auto.
  - intros k i Hk Hk' Hi. rewrite EA. auto.
  - left. exists m', q'. cbn [Nat.add] in *. split; auto.
    assert (R' : lu_run O (el_cm O) M q' (min M N) A0).
    { apply (lu_run_ext O (el_cm O) M N q' q' _ (fun i j => m (addr SS (g_ptr SS A) i j))); auto; try lia.
      intros i j Hi Hj. rewrite EA. reflexivity. }
    split; auto. split; [|intros i Hi; apply F; lia]. split.
    + intros i j [Hi Hj]. rewrite <- EA, U1 by (split; auto). apply (lu_ext O (el_cm O) q' _ (min M N) _ _ M N); auto; try lia.
      * intros l Hl. apply R'. auto.
      * intros i' j' Hi' Hj'. rewrite EA. reflexivity.
    + intros a Ha. apply U2. intros i j Hij. rewrite EA. auto.
  - right. split; auto. destruct S as (q & k & Hk & R & LP & Z).
    assert (RB : forall l, l < k -> q l < M) by (intros l Hl; apply R; auto).
    exists q, k. split; auto. split; [|split].
    + apply (lu_run_ext O (el_cm O) M N q q k (fun i j => m (addr SS (g_ptr SS A) i j))); auto; try lia. intros i j Hi Hj. rewrite EA. reflexivity.
    + apply (lu_pivot_ext O (el_cm O) M N q q k (fun i j => m (addr SS (g_ptr SS A) i j))); auto; try lia. intros i j Hi Hj. rewrite EA. reflexivity.
    + rewrite <- Z. f_equal. destruct LP as [LP _]. apply (lu_ext O (el_cm O) q q k _ _ M N); auto; try lia. intros i j Hi Hj. rewrite EA. reflexivity.
Qed.
(** Over an ordered field: invalid_argument exactly if the first min(m,n) columns are linearly dependent, ... *)
Theorem C35_getf2_column_major_throws_iff : forall SS cc T (O : Ops T) al A m p, 0 < SS -> 0 < cc -> exact_arith O -> getf2_pre SS cc al A ->
  (getf2_cm SS cc T O al A (m, p) = Throw InvalidArgument <->
   dependent_columns O (g_rows A) (min (g_rows A) (g_cols A)) (fun i j => m (g_addr SS A i j))).
Proof.
  intros SS cc T O al A m p HSS Hcc [FL EO] P. pose proof (el_cm_sub O (fl_ring O FL)) as EL.
  destruct (C35_getf2_column_major_ops SS cc T O al A m p HSS Hcc P) as [(m' & p' & E & R & U & F)|[E S]].
  - split; intros X; [discriminate (eq_trans (eq_sym E) X)|]. exfalso. revert X. eapply lu_run_independent; eauto.
  - split; auto. intros _. eapply lu_stuck_dependent; eauto.
Qed.
(** ... otherwise the factorisation; only the matrix and ipiv[0 .. min(m,n)) change. *)
Theorem C35_getf2_column_major : forall SS cc T (O : Ops T) al A m p, 0 < SS -> 0 < cc -> exact_arith O -> getf2_pre SS cc al A ->
  let M := g_rows A in let N := g_cols A in let A0 := fun i j => m (g_addr SS A i j) in
  ~ dependent_columns O M (min M N) A0 ->
  exists m' p', getf2_cm SS cc T O al A (m, p) = Ok (m', p') /\
    lu_factorisation O M N A0 (fun i j => m' (g_addr SS A i j)) p' /\
    (forall a, (forall i j, i < M -> j < N -> a <> g_addr SS A i j) -> m' a = m a) /\
    (forall i, min M N <= i -> p' i = p i).
Proof.
  intros SS cc T O al A m p HSS Hcc [FL EO] P M N A0 ND. pose proof (el_cm_sub O (fl_ring O FL)) as EL.
  destruct (C35_getf2_column_major_ops SS cc T O al A m p HSS Hcc P) as [(m' & p' & E & R & [U1 U2] & F)|[E S]].
  - exists m', p'. split; auto. split; [|split]; auto.
    + apply (lu_run_factors O (el_cm O) FL EO EL M N A0 p'); auto. intros i j Hi Hj. apply U1. split; auto.
    + intros a Ha. apply U2. intros i j [Hi Hj]. auto.
  - exfalso. apply ND. eapply lu_stuck_dependent; eauto.
Qed.
(** Over the reals the multipliers satisfy |L(i,l)| <= 1. *)
Theorem C35_getf2_multipliers_R : forall SS cc al A m p, 0 < SS -> 0 < cc -> getf2_pre SS cc al A ->
  let M := g_rows A in let N := g_cols A in
  ~ dependent_columns rops M (min M N) (fun i j => m (g_addr SS A i j)) ->
  exists m' p', getf2_cm SS cc R rops al A (m, p) = Ok (m', p') /\
    forall i l, l < min M N -> l < i < M -> (Rabs (m' (g_addr SS A i l)) <= 1)%R.
Proof.
  intros SS cc al A m p HSS Hcc P M N ND.
  destruct (C35_getf2_column_major SS cc R rops al A m p HSS Hcc rops_exact P ND) as (m' & p' & E & (_ & _ & L & _) & _).
  exists m', p'. split; auto. intros i l Hl Hi. specialize (L i l Hl Hi). cbn in L. unfold Rltb in L.
  destruct (Rlt_dec (Rabs 1) (Rabs (m' (g_addr SS A i l)))) as [X|X]; [discriminate|]. apply Rnot_lt_le in X. rewrite Rabs_R1 in X. exact X.
Qed.
(** A whole dense column-major container can be factored in its own memory when the tile size is the SIMD size (AVX2). *)
Theorem C35_getf2_safe_in_container : forall SS al c, 0 < SS -> c_kind c = Dense -> c_so c = columnMajor -> c_base c mod SS = 0 ->
  (forall x, c_alloc SS c x = true -> al x = true) -> getf2_pre SS 1 al (MArg (whole c) false).
Proof.
  intros SS al [kd st so rows cols base] HSS HK HO HB HL. cbn in HK, HO, HB. subst kd so.
  assert (AOK : arg_ok SS (MArg (whole (Cont Dense st columnMajor rows cols base)) false)).
  { split; [exact HB|]. cbn. split; [lia|]. split; [lia|]. intros _. apply Nat.mod_0_l. lia. }
  constructor; auto.
  - apply g_allocated; auto.
  - intros k i Hk Hk' Hi. rewrite Nat.mul_1_l in Hi. unfold g_rows, g_cols in *. cbn [g_view g_trans whole v_m v_n c_rows c_cols] in Hk, Hk', Hi. apply HL.
    unfold c_alloc, g_addr, v_addr, c_addr, c_index, c_capacity, c_spacing. cbn [g_view g_trans whole v_cont v_i v_j c_kind c_so c_rows c_cols c_base Nat.add].
    set (sp := nextMultiple rows SS). destruct (nextMultiple_spec rows SS HSS) as (N1 & N2 & N3). fold sp in N1, N2, N3.
    assert (Hsp : SS <= sp). { apply mod0_ex in N2; auto. destruct N2 as [q Eq]. assert (0 < q) by nia. nia. }
    destruct (nextMultiple_spec (rows - k - 1) SS HSS) as (K1 & K2 & K3).
    assert ((k + 2) * sp <= sp * cols) by nia. assert (k + 1 + i < 2 * sp) by lia.
    rewrite andb_true_iff, Nat.leb_le, Nat.ltb_lt. cbn [Nat.add]. nia.
Qed.
(** With two SIMD registers per tile (NEON, double) a 2-by-2 matrix is read out of bounds. *)
Definition l22 : container := Cont Dense false columnMajor 2 2 0.
Theorem C35_getf2_neon_overread_refuted :
  getf2_cm 2 2 Qc qops (c_alloc 2 l22) (MArg (whole l22) false) (fun a => if a =? 1 then 0%Qc else 1%Qc, fun _ => 0) = UB.
Proof. vm_compute. reflexivity. Qed.

(** Row-major. *)
Theorem C35_getf2_row_major_ops : forall T (O : Ops T) al A m p,
  distinct (d_m A) (d_n A) (d_at A) -> allocated al (d_m A) (d_n A) (d_at A) ->
  let M := d_m A in let N := d_n A in let A0 := fun i j => m (d_at A i j) in
  (exists m' p', getf2_rm T O al A (m, p) = Ok (m', p') /\
     lu_run O (el_rm O) M p' (min M N) A0 /\
     updated (block M N) (d_at A) (lu_after O (el_rm O) p' (min M N) A0) m m' /\
     (forall i, min M N <= i -> p' i = p i)) \/
  (getf2_rm T O al A (m, p) = Throw InvalidArgument /\ lu_stuck O (el_rm O) M (min M N) A0).
Proof. intros T O al A m p D AL. apply getf2_rm_ok; auto. Qed.
Lemma el_rm_sub : forall T (O : Ops T), ring_laws O -> forall l u a, el_rm O l u a = osub O a (omul O l u).
Proof. intros T O RL l u a. unfold el_rm. rewrite (rl_sub_def O RL), (rl_mul_assoc O RL). reflexivity. Qed.
Theorem C35_getf2_row_major_throws_iff : forall T (O : Ops T) al A m p, exact_arith O ->
  distinct (d_m A) (d_n A) (d_at A) -> allocated al (d_m A) (d_n A) (d_at A) ->
  (getf2_rm T O al A (m, p) = Throw InvalidArgument <-> dependent_columns O (d_m A) (min (d_m A) (d_n A)) (fun i j => m (d_at A i j))).
Proof.
  intros T O al A m p [FL EO] D AL. pose proof (el_rm_sub T O (fl_ring O FL)) as EL.
  destruct (C35_getf2_row_major_ops T O al A m p D AL) as [(m' & p' & E & R & U & F)|[E S]].
  - split; intros X; [discriminate (eq_trans (eq_sym E) X)|]. exfalso. revert X. eapply lu_run_independent; eauto.
  - split; auto. intros _. eapply lu_stuck_dependent; eauto.
Qed.
Theorem C35_getf2_row_major : forall T (O : Ops T) al A m p, exact_arith O ->
  distinct (d_m A) (d_n A) (d_at A) -> allocated al (d_m A) (d_n A) (d_at A) ->
  let M := d_m A in let N := d_n A in let A0 := fun i j => m (d_at A i j) in
  ~ dependent_columns O M (min M N) A0 ->
  exists m' p', getf2_rm T O al A (m, p) = Ok (m', p') /\
    lu_factorisation O M N A0 (fun i j => m' (d_at A i j)) p' /\
    (forall a, (forall i j, i < M -> j < N -> a <> d_at A i j) -> m' a = m a) /\
    (forall i, min M N <= i -> p' i = p i).
Proof.
  intros T O al A m p [FL EO] D AL M N A0 ND. pose proof (el_rm_sub T O (fl_ring O FL)) as EL.
  destruct (C35_getf2_row_major_ops T O al A m p D AL) as [(m' & p' & E & R & [U1 U2] & F)|[E S]].
  - exists m', p'. split; auto. split; [|split]; auto.
    + apply (lu_run_factors O (el_rm O) FL EO EL M N A0 p'); auto. intros i j Hi Hj. apply U1. split; auto.
    + intros a Ha. apply U2. intros i j [Hi Hj]. auto.
  - exfalso. apply ND. eapply lu_stuck_dependent; eauto.
Qed.

(** [0 2; 4 1; 2 1] is factored with two interchanges. *)
Definition fA : container := Cont Dense false columnMajor 3 2 0.
Definition f_m (a : nat) : Qc := nth a (map (fun z => Q2Qc (inject_Z z)) [0; 4; 2; 99; 2; 1; 1; 99]%Z) 0%Qc.
Definition show (q : Qc) : Z * positive := let x := this q in (Qnum x, Qden x).
Example C35_example : getf2_pre 4 1 (c_alloc 4 fA) (MArg (whole fA) false).
Proof. apply C35_getf2_safe_in_container; auto. Qed.
Example C35_example_run :
  match getf2_cm 4 1 Qc qops (c_alloc 4 fA) (MArg (whole fA) false) (f_m, fun _ => 7) with
  | Ok (m', p') => (map (fun a => show (m' a)) (seq 0 8), map p' [0; 1; 2])
  | _ => ([], []) end = ([(4, 1%positive); (0, 1%positive); (1, 2%positive); (99, 1%positive); (1, 1%positive); (2, 1%positive); (1, 4%positive); (99, 1%positive)]%Z, [1; 1; 7]).
Proof. vm_compute. reflexivity. Qed.
Example C35_example_singular :
  getf2_cm 4 1 Qc qops (c_alloc 4 fA) (MArg (whole fA) false) (fun a => Q2Qc (inject_Z (Z.of_nat (a mod 4))), fun _ => 7) = Throw InvalidArgument.
Proof. vm_compute. reflexivity. Qed.

(* ------------------------------------------------------------------ C36: getrf, column-major *)
(** As for getf2; moreover the rows up to the next multiple of the SIMD size are read. *)
Definition getrf_pre (SS cc : nat) (al : alloc) (A : marg) : Prop :=
  getf2_pre SS cc al A /\ allocated al (nextMultiple (g_rows A) SS) (g_cols A) (g_addr SS A).
(** Whatever the scalar operations: only the matrix and ipiv[0 .. min(m,n)) change, the pivots are in range, and the only
    exception is invalid_argument. *)
Theorem C36_getrf_safe : forall SS cc T (O : Ops T) al A m p, 0 < SS -> 0 < cc -> getrf_pre SS cc al A ->
  let M := g_rows A in let N := g_cols A in
  (exists m' p', getrf_cm SS cc T O al A (m, p) = Ok (m', p') /\
    (forall a, (forall i j, i < M -> j < N -> a <> g_addr SS A i j) -> m' a = m a) /\
    (forall l, l < min M N -> l <= p' l < M) /\ (forall i, min M N <= i -> p' i = p i)) \/
  getrf_cm SS cc T O al A (m, p) = Throw InvalidArgument.
Proof.
  intros SS cc T O al A m p HSS Hcc [[P1 P2 P3 P4 P5] P6] M N.
  destruct (getrf_cm_ok SS HSS cc Hcc T O al A P1 P2 P3 P6 P5 m p) as [(m' & p' & E & F & B & U & _)|[E _]]; auto.
  left. exists m', p'. split; auto. split; auto. intros a Ha. apply F. intros i j [Hi Hj]. auto.
Qed.
Theorem C36_getrf_throws_iff : forall SS cc T (O : Ops T) al A m p, 0 < SS -> 0 < cc -> exact_arith O -> getrf_pre SS cc al A ->
  (getrf_cm SS cc T O al A (m, p) = Throw InvalidArgument <->
   dependent_columns O (g_rows A) (min (g_rows A) (g_cols A)) (fun i j => m (g_addr SS A i j))).
Proof.
  intros SS cc T O al A m p HSS Hcc XA [[P1 P2 P3 P4 P5] P6]. pose proof XA as [FL EO]. pose proof (el_cm_sub O (fl_ring O FL)) as EL.
  destruct (getrf_cm_ok SS HSS cc Hcc T O al A P1 P2 P3 P6 P5 m p) as [(m' & p' & E & F & B & U & X)|[E S]].
  - destruct (X XA) as [R _]. split; intros Y; [discriminate (eq_trans (eq_sym E) Y)|]. exfalso. revert Y. eapply lu_run_independent; eauto.
  - split; auto. intros _. eapply lu_stuck_dependent; eauto.
Qed.
Theorem C36_getrf_column_major : forall SS cc T (O : Ops T) al A m p, 0 < SS -> 0 < cc -> exact_arith O -> getrf_pre SS cc al A ->
  let M := g_rows A in let N := g_cols A in let A0 := fun i j => m (g_addr SS A i j) in
  ~ dependent_columns O M (min M N) A0 ->
  exists m' p', getrf_cm SS cc T O al A (m, p) = Ok (m', p') /\
    lu_factorisation O M N A0 (fun i j => m' (g_addr SS A i j)) p' /\
    (forall a, (forall i j, i < M -> j < N -> a <> g_addr SS A i j) -> m' a = m a) /\
    (forall i, min M N <= i -> p' i = p i).
Proof.
  intros SS cc T O al A m p HSS Hcc XA [[P1 P2 P3 P4 P5] P6] M N A0 ND. pose proof XA as [FL EO]. pose proof (el_cm_sub O (fl_ring O FL)) as EL.
  destruct (getrf_cm_ok SS HSS cc Hcc T O al A P1 P2 P3 P6 P5 m p) as [(m' & p' & E & F & B & U & X)|[E S]].
  - destruct (X XA) as [R V]. exists m', p'. split; auto. split; [|split]; auto.
    + apply (lu_run_factors O (el_cm O) FL EO EL M N A0 p'); auto.
    + intros a Ha. apply F. intros i j [Hi Hj]. auto.
  - exfalso. apply ND. eapply lu_stuck_dependent; eauto.
Qed.
(** The blocked algorithm computes the same memory and the same pivots as the unblocked one, or both throw. *)
Theorem C36_getrf_equals_getf2 : forall SS cc T (O : Ops T) al A m p, 0 < SS -> 0 < cc -> exact_arith O -> getrf_pre SS cc al A ->
  (getrf_cm SS cc T O al A (m, p) = Throw InvalidArgument /\ getf2_cm SS cc T O al A (m, p) = Throw InvalidArgument) \/
  (exists m1 p1 m2 p2, getrf_cm SS cc T O al A (m, p) = Ok (m1, p1) /\ getf2_cm SS cc T O al A (m, p) = Ok (m2, p2) /\
     (forall a, m1 a = m2 a) /\ (forall i, p1 i = p2 i)).
Proof.
  intros SS cc T O al A m p HSS Hcc XA [P P6]. pose proof XA as [FL EO]. pose proof P as [P1 P2 P3 P4 P5].
  destruct (C35_getf2_column_major_ops SS cc T O al A m p HSS Hcc P) as [(m2 & p2 & E2 & R2 & [U2 F2] & Q2)|[E2 S2]];
  destruct (getrf_cm_ok SS HSS cc Hcc T O al A P1 P2 P3 P6 P5 m p) as [(m1 & p1 & E1 & F1 & B1 & Q1 & X)|[E1 S1]].
  - right. destruct (X XA) as [R1 V1]. exists m1, p1, m2, p2. split; auto. split; auto.
    assert (EP : forall l, l < min (g_rows A) (g_cols A) -> p1 l = p2 l).
    { eapply lu_run_unique; eauto. apply EO. }
    split.
    + intros a.
      assert (D : (exists i j, i < g_rows A /\ j < g_cols A /\ a = g_addr SS A i j) \/ (forall i j, block (g_rows A) (g_cols A) i j -> a <> g_addr SS A i j)).
      { assert (D2 : forall i n, n <= g_cols A -> (exists j, j < n /\ a = g_addr SS A i j) \/ (forall j, j < n -> a <> g_addr SS A i j)).
        { intros i. induction n as [|n IH]; intros Hn; [right; lia|]. destruct IH as [(j & Hj & E)|E]; [lia|left; exists j; auto|].
          destruct (Nat.eq_dec a (g_addr SS A i n)); [left; exists n; auto|]. right. intros j Hj. destruct (Nat.eq_dec j n) as [->|]; auto. apply E. lia. }
        assert (D1 : forall n, n <= g_rows A -> (exists i j, i < n /\ j < g_cols A /\ a = g_addr SS A i j) \/ (forall i j, i < n -> j < g_cols A -> a <> g_addr SS A i j)).
        { induction n as [|n IH]; intros Hn; [right; lia|]. destruct IH as [(i & j & Hi & Hj & E)|E]; [lia|left; exists i, j; auto|].
          destruct (D2 n (g_cols A) (le_n _)) as [(j & Hj & E')|E']; [left; exists n, j; auto|]. right. intros i j Hi Hj.
          destruct (Nat.eq_dec i n) as [->|]; auto. apply E; lia. }
        destruct (D1 (g_rows A) (le_n _)) as [(i & j & Hi & Hj & E)|E]; [left; exists i, j; auto|right; intros i j [Hi Hj]; auto]. }
      destruct D as [(i & j & Hi & Hj & ->)|D].
      * rewrite V1 by auto. rewrite (U2 i j) by (split; auto). apply lu_piv_ext. auto.
      * rewrite F1, F2; auto.
    + intros i. destruct (Nat.lt_ge_cases i (min (g_rows A) (g_cols A))); [auto|]. rewrite Q1, Q2; auto.
  - exfalso. revert R2. intros R2. eapply lu_run_not_stuck; [apply EO|exact R2|apply S1; auto].
  - exfalso. destruct (X XA) as [R1 _]. eapply lu_run_not_stuck; [apply EO|exact R1|exact S2].
  - left. auto.
Qed.
Theorem C36_getrf_safe_in_container : forall SS al c, 0 < SS -> c_kind c = Dense -> c_so c = columnMajor -> c_base c mod SS = 0 ->
  (forall x, c_alloc SS c x = true -> al x = true) -> getrf_pre SS 1 al (MArg (whole c) false).
Proof.
  intros SS al c HSS HK HO HB HL. pose proof (C35_getf2_safe_in_container SS al c HSS HK HO HB HL) as P. split; auto.
  apply g_allocated_pad; auto.
  - apply P.
  - unfold at_panel, major_of. cbn. rewrite HO. apply Nat.mod_0_l. lia.
Qed.
(** A 3-by-3 matrix with SIMD size 2: one blocked step and a remainder. *)
Definition rA : container := Cont Dense false columnMajor 3 3 0.
Definition r_m (a : nat) : Qc := nth a (map (fun z => Q2Qc (inject_Z z)) [1; 2; 4; 99; 3; 1; 2; 99; 5; 3; 8; 99]%Z) 0%Qc.
Example C36_example : getrf_pre 2 1 (c_alloc 2 rA) (MArg (whole rA) false).
Proof. apply C36_getrf_safe_in_container; auto. Qed.
Example C36_example_run :
  match getrf_cm 2 1 Qc qops (c_alloc 2 rA) (MArg (whole rA) false) (r_m, fun _ => 7), getf2_cm 2 1 Qc qops (c_alloc 2 rA) (MArg (whole rA) false) (r_m, fun _ => 7) with
  | Ok (m1, p1), Ok (m2, p2) => (map (fun a => show (m1 a)) (seq 0 3), map p1 [0; 1; 2; 3], map (fun a => Qceqb (m1 a) (m2 a)) (seq 0 12), map p2 [0; 1; 2; 3])
  | _, _ => ([], [], [], []) end =
  ([(4%Z, 1%positive); (1%Z, 4%positive); (1%Z, 2%positive)], [2; 2; 2; 7], repeat true 12, [2; 2; 2; 7]).
Proof. vm_compute. reflexivity. Qed.

(** Elimination of a product of a unit lower and an upper trapezoidal matrix with non-zero diagonal gives back the factors. *)
Section Given.
Context {T : Type} (O : Ops T) (FL : field_laws O).
Let RL := fl_ring O FL.
Add Ring givenring : (alg_ring O RL).
Lemma sum_first : forall n f k, k < n -> sum O n (fun l => if k <=? l then f l else o0 O) = oadd O (f k) (sum O n (fun l => if S k <=? l then f l else o0 O)).
Proof.
  intros n f k Hk.
  transitivity (sum O n (fun l => oadd O (if l =? k then f k else o0 O) (if S k <=? l then f l else o0 O))).
  { apply sum_ext. intros l Hl. destruct (Nat.leb_spec k l), (Nat.eqb_spec l k), (Nat.leb_spec (S k) l); subst; try lia; ring. }
  rewrite (sum_plus O RL). f_equal.
  rewrite (sum_trunc O RL n (S k)) by (try lia; intros l Hl; destruct (Nat.eqb_spec l k); auto; lia).
  cbn [sum]. rewrite Nat.eqb_refl, (sum_0 O RL) by (intros l Hl; destruct (Nat.eqb_spec l k); auto; lia). ring.
Qed.
Lemma lu_given : forall M N (A G : nat -> nat -> T),
  (forall l, l < min M N -> G l l <> o0 O) ->
  (forall i j, i < M -> j < N -> A i j = sum O (min M N) (fun l => omul O (unit_lower O G i l) (upper_trap O G l j))) ->
  forall k, k <= min M N -> forall i j, i < M -> j < N ->
  lu_after O (el_sub O) (fun l => l) k A i j =
    if min i j <? k then G i j else sum O (min M N) (fun l => if k <=? l then omul O (unit_lower O G i l) (upper_trap O G l j) else o0 O).
Proof.
  intros M N A G NZ HA. set (n := min M N) in *.
  set (t := fun i j l => omul O (unit_lower O G i l) (upper_trap O G l j)).
  set (rest := fun k i j => sum O n (fun l => if k <=? l then t i j l else o0 O)).
  assert (Low : forall k i j, k <= i -> k <= j -> k < n -> i = k \/ j = k -> rest k i j = t i j k).
  { intros k i j Hi Hj Hk Or. unfold rest. rewrite sum_first by auto.
    rewrite (sum_0 O RL); [ring|]. intros l Hl. destruct (Nat.leb_spec (S k) l); auto. unfold t, unit_lower, upper_trap.
    destruct Or as [-> | ->].
    - destruct (Nat.ltb_spec l k); [lia|]. destruct (Nat.eqb_spec l k); [lia|]. apply (mul_0_l O RL).
    - destruct (Nat.leb_spec l k); [lia|]. apply (mul_0_r O RL). }
  induction k as [|k IH]; intros Hk i j Hi Hj.
  - cbn [lu_after]. rewrite HA by auto. reflexivity.
  - assert (IH' : forall i j, i < M -> j < N -> swap_rows k k (lu_after O (el_sub O) (fun l => l) k A) i j = if min i j <? k then G i j else rest k i j).
    { intros i' j' Hi' Hj'. unfold swap_rows. rewrite interchange_same. apply IH; auto; lia. }
    cbn [lu_after]. fold (rest (S k) i j).
    assert (PV : rest k k k = G k k).
    { rewrite Low by (auto; lia). unfold t, unit_lower, upper_trap. rewrite Nat.ltb_irrefl, Nat.eqb_refl, Nat.leb_refl. ring. }
    assert (Row : forall j, k <= j -> rest k k j = G k j).
    { intros j' Hj'. rewrite Low by (auto; lia). unfold t, unit_lower, upper_trap. rewrite Nat.ltb_irrefl, Nat.eqb_refl. destruct (Nat.leb_spec k j'); [|lia]. ring. }
    destruct (Nat.leb_spec i k) as [Hik|Hik].
    + rewrite eliminate_top by auto. rewrite IH' by auto. destruct (Nat.ltb_spec (min i j) k), (Nat.ltb_spec (min i j) (S k)); auto; try lia.
      replace i with k by lia. apply Row. lia.
    + destruct (Nat.lt_trichotomy j k) as [Hjk|[->|Hjk]].
      * rewrite eliminate_left by auto. rewrite IH' by auto. destruct (Nat.ltb_spec (min i j) k), (Nat.ltb_spec (min i j) (S k)); auto; lia.
      * rewrite eliminate_col by auto. rewrite !IH' by (auto; lia).
        destruct (Nat.ltb_spec (min i k) k); [lia|]. destruct (Nat.ltb_spec (min k k) k); [lia|]. destruct (Nat.ltb_spec (min i k) (S k)); [|lia].
        rewrite PV, Low by (auto; lia). unfold t, unit_lower, upper_trap. destruct (Nat.ltb_spec k i); [|lia]. rewrite Nat.leb_refl.
        symmetry. apply (div_unique O FL); auto.
      * unfold eliminate. destruct (Nat.ltb_spec k i); [|lia]. destruct (Nat.eqb_spec j k); [lia|]. destruct (Nat.ltb_spec k j); [|lia].
        rewrite !IH' by (auto; lia). destruct (Nat.ltb_spec (min i j) k); [lia|]. destruct (Nat.ltb_spec (min i k) k); [lia|].
        destruct (Nat.ltb_spec (min k k) k); [lia|]. destruct (Nat.ltb_spec (min k j) k); [lia|]. destruct (Nat.ltb_spec (min i j) (S k)); [lia|].
        rewrite PV, (Low k i k), Row by (auto; lia).
        assert (F : odiv O (t i k k) (G k k) = G i k).
        { unfold t, unit_lower, upper_trap. destruct (Nat.ltb_spec k i); [|lia]. rewrite Nat.leb_refl. symmetry. apply (div_unique O FL); auto. }
        rewrite F. unfold el_sub. unfold rest at 1. rewrite sum_first by lia.
        transitivity (osub O (oadd O (t i j k) (rest (S k) i j)) (omul O (G i k) (G k j))); [reflexivity|].
        transitivity (rest (S k) i j); [|reflexivity]. generalize (rest (S k) i j). intros r.
        unfold t, unit_lower, upper_trap. destruct (Nat.ltb_spec k i); [|lia]. destruct (Nat.leb_spec k j); [|lia]. ring.
Qed.
End Given.

(* ------------------------------------------------------------------ C37: getrf, row-major *)
(** The row-major form does not pivot and does not detect a zero pivot: for the regular matrix [0 1; 1 0] no exception is thrown
    and the result is not a factorisation. *)
Definition z22 := DMat 2 2 (fun i j => 2 * i + j).
Definition z_m (a : nat) : Qc := nth a (map (fun z => Q2Qc (inject_Z z)) [0; 1; 1; 0]%Z) 0%Qc.
Theorem C37_getrf_row_major_pivots_refuted :
  ~ dependent_columns qops 2 2 (fun i j => z_m (d_at z22 i j)) /\
  exists m' p', getrf_rm Qc qops (fun x => x <? 4) z22 (z_m, fun _ => 7) = Ok (m', p') /\
    ~ lu_factorisation qops 2 2 (fun i j => z_m (d_at z22 i j)) (fun i j => m' (d_at z22 i j)) p'.
Proof.
  split.
  - intros (x & (j & Hj & NZ) & X). assert (X0 : (0 + 0 * x 0%nat + 1 * x 1%nat = 0)%Qc) by exact (X 0 ltac:(lia)).
    assert (X1 : (0 + 1 * x 0%nat + 0 * x 1%nat = 0)%Qc) by exact (X 1 ltac:(lia)).
    assert (Z1 : x 1 = 0%Qc) by (rewrite <- X0; ring). assert (Z0 : x 0 = 0%Qc) by (rewrite <- X1; ring).
    apply NZ. destruct j as [|[|]]; auto; lia.
  - destruct (getrf_rm_ok Qc qops (fun x => x <? 4) z22) with (m0 := z_m) (q0 := fun _ : nat => 7) as (m' & p' & E & U & F).
    + cbn. intros i j i' j' Hi Hj Hi' Hj' Q. lia.
    + cbn. intros i j Hi Hj. apply Nat.leb_le. lia.
    + exists m', p'. split; auto. intros (_ & D & _). apply (D 0); [cbn; lia|]. destruct U as [U _]. rewrite U by (split; cbn; lia). reflexivity.
Qed.
(** What it does compute: elimination without interchanges; ipiv[k] = k; it never throws.  Over a field the result is a factorisation A = L * U
    with a non-zero diagonal exactly if A has one, and then it is that one. *)
Theorem C37_getrf_row_major_no_pivoting : forall T (O : Ops T) al A m p, field_laws O ->
  distinct (d_m A) (d_n A) (d_at A) -> allocated al (d_m A) (d_n A) (d_at A) ->
  let M := d_m A in let N := d_n A in
  let factors := fun G => (forall l, l < min M N -> G l l <> o0 O) /\
    forall i j, i < M -> j < N -> m (d_at A i j) = sum O (min M N) (fun l => omul O (unit_lower O G i l) (upper_trap O G l j)) in
  exists m' p', getrf_rm T O al A (m, p) = Ok (m', p') /\
    let F := fun i j => m' (d_at A i j) in
    ((forall l, l < min M N -> F l l <> o0 O) -> factors F) /\
    (forall G, factors G -> forall i j, i < M -> j < N -> F i j = G i j) /\
    (forall a, (forall i j, i < M -> j < N -> a <> d_at A i j) -> m' a = m a) /\
    (forall i, p' i = if i <? min M N then i else p i).
Proof.
  intros T O al A m p FL D AL M N factors. pose proof (fl_ring O FL) as RL.
  destruct (getrf_rm_ok T O al A D AL m p) as (m' & p' & E & [U1 U2] & Q). exists m', p'. split; auto. cbv zeta. split; [|split; [|split]]; auto.
  - intros NZ. split; [exact NZ|]. intros i j Hi Hj. set (A0 := fun i j => m (d_at A i j)) in *. set (n := min M N) in *.
    assert (PO : pivots_ok O (el_sub O) (fun l => l) n A0).
    { intros l Hl. split; auto. intros Z. apply (NZ l Hl). rewrite U1 by (split; lia). rewrite lu_diag; auto. }
    assert (ID : forall k i j, interchanged (fun l => l) 0 k A0 i j = A0 i j).
    { induction k as [|k IH]; intros i' j'; auto. cbn [interchanged]. rewrite Nat.add_0_l, interchange_same. apply IH. }
    change (m (d_at A i j)) with (A0 i j). rewrite <- (ID n i j).
    rewrite (lu_factor O (el_sub O) FL (fun _ _ _ => eq_refl) (fun l => l) n A0 PO).
    assert (Z : (n <=? i) && (n <=? j) = false) by (unfold n; destruct (Nat.leb_spec (min M N) i), (Nat.leb_spec (min M N) j); auto; lia).
    rewrite Z, (add_0_r O RL). apply sum_ext. intros l Hl. unfold unit_lower, upper_trap. unfold n in Hl.
    destruct (Nat.ltb_spec l i); rewrite ?U1 by (split; lia); reflexivity.
  - intros G [NZ HG] i j Hi Hj. rewrite U1 by (split; auto).
    eapply eq_trans; [exact (lu_given O FL M N (fun i j => m (d_at A i j)) G NZ HG (min M N) ltac:(lia) i j Hi Hj)|].
    destruct (Nat.ltb_spec (min i j) (min M N)); auto. lia.
  - intros a Ha. apply U2. intros i j [Hi Hj]. auto.
Qed.
Example C37_example :
  match getrf_rm Qc qops (fun x => x <? 4) z22 (fun a => nth a (map (fun z => Q2Qc (inject_Z z)) [2; 4; 1; 5]%Z) 0%Qc, fun _ => 7) with
  | Ok (m', p') => (map (fun a => show (m' a)) (seq 0 4), map p' [0; 1; 2])
  | _ => ([], []) end = ([(2, 1%positive); (4, 1%positive); (1, 2%positive); (3, 1%positive)]%Z, [0; 1; 7]).
Proof. vm_compute. reflexivity. Qed.
