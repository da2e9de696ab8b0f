(** Properties_Round.v -- C49-C52: accuracy in rounded (IEEE 754) arithmetic.
    [rounded O val fin u eta] (Round_Spec.v) says what is assumed about the scalar operations; C49_ieee shows that IEEE binary formats satisfy it
    (double: u = 2^-53, eta = 2^-1075).  [ups u n] = (1+u)^n - 1 and [downs u n] = (1-u)^-n - 1 are about n*u; the terms with eta are the
    contribution of underflow.  An element of the result that is finite obeys the bound, and comes from finite elements of the operands. *)
From Coq Require Import Reals Lra Lia Arith Bool List ZArith.
From Flocq Require Import Core.Zaux Core.Raux IEEE754.BinarySingleNaN.
From Verif Require Import Base Base_Proofs Spec Algebra_Proofs Instances Layout_Model Layout_Proofs Simd_Model Reg_Model Tile_Model Gemm_Model Arg_Proofs
  Ger_Model Syrk_Model Trmm_Model Potrf_Model Tri_Model LU_Model Ref_Model LU_Theory LU_Proofs LU_Row_Proofs
  Properties_Gemm Properties_Ger Properties_Syrk Properties_Trmm Properties_Potrf Properties_Tri Properties_LU Properties_Ref
  Round_Spec Float_Proofs Round_Proofs RoundElem_Proofs RoundFact_Proofs RoundLU_Proofs.
Import ListNotations.
Local Open Scope R_scope.
Notation "i <' j" := (i < j)%nat (at level 70).

(* ------------------------------------------------------------------ C49: products *)
(** IEEE 754 arithmetic, round to nearest even, any precision and exponent range. *)
Theorem C49_ieee : forall prec emax (Hp : FLX.Prec_gt_0 prec) (Hm : Prec_lt_emax prec emax),
  rounded (fops prec emax Hp Hm) B2R is_finite (f_u prec) (f_eta prec emax).
Proof. exact fops_rounded. Qed.
Theorem C49_double : rounded b64ops B2R is_finite (/ 2 ^ 53) (/ 2 ^ 1075).
Proof.
  pose proof (fops_rounded 53 1024 eq_refl eq_refl) as H. unfold f_u, f_eta in H.
  replace (/ 2 ^ 53) with (bpow radix2 (- (53))). 2: { rewrite bpow_opp. f_equal. rewrite <- (IZR_Zpower radix2 53) by lia. rewrite pow_IZR. reflexivity. }
  replace (/ 2 ^ 1075) with (/ 2 * bpow radix2 (3 - 1024 - 53)). { exact H. }
  change (/ 2) with (bpow radix2 (-1)). rewrite <- bpow_plus. change (-1 + (3 - 1024 - 53))%Z with (- (1075))%Z. rewrite bpow_opp. f_equal.
  rewrite <- (IZR_Zpower radix2 1075) by lia. rewrite pow_IZR. reflexivity.
Qed.

Theorem C49_gemm : forall SS T (O : Ops T) val fin u eta al alpha A B beta C D m, rounded O val fin u eta -> 0 <' SS -> gemm_pre SS al A B C D ->
  exists m', gemm SS T O al alpha A B beta C D m = Ok m' /\
  forall i j, i <' g_rows D -> j <' g_cols D ->
    let K := g_cols A in let a k := m (g_addr SS A i k) in let b k := m (g_addr SS B k j) in let c := m (g_addr SS C i j) in
    let d := m' (g_addr SS D i j) in
    fin d = true ->
    (forall k, k <' K -> fin (a k) = true /\ fin (b k) = true) /\ fin alpha = true /\ fin beta = true /\ fin c = true /\
    Rabs (val d - (val alpha * Rsum K (fun k => val (a k) * val (b k)) + val beta * val c)) <=
      ups u (K + 2) * (Rabs (val alpha) * Rsum K (fun k => Rabs (val (a k) * val (b k))) + Rabs (val beta * val c)) +
      (1 + u) ^ (K + 2) * (INR K * Rabs (val alpha) + 2) * eta.
Proof.
  intros SS T O val fin u eta al alpha A B beta C D m RA HSS P. destruct (C17_gemm_ops SS T O al alpha A B beta C D m HSS P) as (m' & E & U & _).
  exists m'. split; auto. intros i j Hi Hj K a b c d F. unfold d in *. destruct (gp_szD _ _ _ _ _ _ P) as [Z1 Z2].
  rewrite U in F |- * by (split; lia). destruct (gemm_close O val fin u eta RA K a b alpha beta c F) as (G1 & G2 & G3 & G4 & _ & _ & G5). auto 10.
Qed.
(** No overflow: with finite operands whose products are not too large, every element is finite, so that the bound above applies. *)
Theorem C49_gemm_finite : forall SS T (O : Ops T) val fin u eta big al alpha A B beta C D m, rounded O val fin u eta -> ranged O val fin big ->
  0 <' SS -> gemm_pre SS al A B C D ->
  fin alpha = true -> fin beta = true ->
  exists m', gemm SS T O al alpha A B beta C D m = Ok m' /\
  forall i j, i <' g_rows D -> j <' g_cols D ->
    let K := g_cols A in let a k := m (g_addr SS A i k) in let b k := m (g_addr SS B k j) in let c := m (g_addr SS C i j) in
    let S := Rsum K (fun k => Rabs (val (a k) * val (b k))) in
    (forall k, k <' K -> fin (a k) = true /\ fin (b k) = true) -> fin c = true ->
    (1 + u) ^ K * (S + INR K * eta) <= big ->
    (1 + u) ^ (K + 1) * (Rabs (val alpha) * S + Rabs (val beta * val c) + (INR K * Rabs (val alpha) + 1) * eta) <= big ->
    fin (m' (g_addr SS D i j)) = true.
Proof.
  intros SS T O val fin u eta big al alpha A B beta C D m RA RG HSS P Fa Fb. destruct (C17_gemm_ops SS T O al alpha A B beta C D m HSS P) as (m' & E & U & _).
  exists m'. split; auto. intros i j Hi Hj K a b c S Fab Fc H1 H2. destruct (gp_szD _ _ _ _ _ _ P) as [Z1 Z2].
  rewrite U by (split; lia). apply (gemm_finite O val fin u eta RA big); auto.
Qed.
Theorem C49_double_range : ranged b64ops B2R is_finite (2 ^ 1023).
Proof.
  pose proof (fops_ranged 53 1024 eq_refl eq_refl) as H. unfold f_big in H.
  replace (2 ^ 1023) with (bpow radix2 (1024 - 1)); [exact H|]. rewrite <- (IZR_Zpower radix2 (1024 - 1)) by lia. rewrite pow_IZR. reflexivity.
Qed.
Theorem C49_ref_gemm : forall SS T (O : Ops T) val fin u eta al alpha A B beta C D m, rounded O val fin u eta -> 0 <' SS -> rgemm_pre SS al A B C D ->
  exists m', ref_gemm SS T O al alpha A B beta C D m = Ok m' /\
  forall i j, i <' g_rows D -> j <' g_cols D ->
    let K := g_cols A in let a k := m (g_addr SS A i k) in let b k := m (g_addr SS B k j) in let c := m (g_addr SS C i j) in
    let d := m' (g_addr SS D i j) in
    fin d = true ->
    (forall k, k <' K -> fin (a k) = true /\ fin (b k) = true) /\ fin alpha = true /\ fin beta = true /\ fin c = true /\
    Rabs (val d - (val alpha * Rsum K (fun k => val (a k) * val (b k)) + val beta * val c)) <=
      ups u (K + 3) * (Rabs (val alpha) * Rsum K (fun k => Rabs (val (a k) * val (b k))) + Rabs (val beta * val c)) +
      (1 + u) ^ (K + 3) * (2 * INR K * Rabs (val alpha) + 3) * eta.
Proof.
  intros SS T O val fin u eta al alpha A B beta C D m RA HSS P. destruct (C38_gemm_ops SS T O al alpha A B beta C D m HSS P) as (m' & E & U & _).
  exists m'. split; auto. intros i j Hi Hj K a b c d F. unfold d in *. destruct P as [_ _ _ _ _ _ [Z1 Z2]].
  rewrite U in F |- * by (split; lia). destruct (ref_gemm_close O val fin u eta RA K a b alpha beta c F) as (G1 & G2 & G3 & G4 & _ & _ & G5). auto 10.
Qed.
(** The optimised and the reference product of the same operands agree up to rounding. *)
Theorem C49_gemm_vs_reference : forall SS T (O : Ops T) val fin u eta al alpha A B beta C D m, rounded O val fin u eta -> 0 <' SS ->
  gemm_pre SS al A B C D -> rgemm_pre SS al A B C D ->
  exists m1 m2, gemm SS T O al alpha A B beta C D m = Ok m1 /\ ref_gemm SS T O al alpha A B beta C D m = Ok m2 /\
  forall i j, i <' g_rows D -> j <' g_cols D ->
    let K := g_cols A in let a k := val (m (g_addr SS A i k)) in let b k := val (m (g_addr SS B k j)) in let c := val (m (g_addr SS C i j)) in
    let d1 := m1 (g_addr SS D i j) in let d2 := m2 (g_addr SS D i j) in
    fin d1 = true -> fin d2 = true ->
    Rabs (val d1 - val d2) <=
      (ups u (K + 2) + ups u (K + 3)) * (Rabs (val alpha) * Rsum K (fun k => Rabs (a k * b k)) + Rabs (val beta * c)) +
      ((1 + u) ^ (K + 2) * (INR K * Rabs (val alpha) + 2) + (1 + u) ^ (K + 3) * (2 * INR K * Rabs (val alpha) + 3)) * eta.
Proof.
  intros SS T O val fin u eta al alpha A B beta C D m RA HSS P P'.
  destruct (C49_gemm SS T O val fin u eta al alpha A B beta C D m RA HSS P) as (m1 & E1 & H1).
  destruct (C49_ref_gemm SS T O val fin u eta al alpha A B beta C D m RA HSS P') as (m2 & E2 & H2).
  exists m1, m2. split; auto. split; auto. intros i j Hi Hj K a b c d1 d2 F1 F2.
  destruct (H1 i j Hi Hj F1) as (_ & _ & _ & _ & B1). destruct (H2 i j Hi Hj F2) as (_ & _ & _ & _ & B2).
  fold d1 in B1. fold d2 in B2. fold K in B1, B2. cbv zeta in B1, B2.
  set (E := val alpha * _ + _) in *. replace (val d1 - val d2) with ((val d1 - E) + - (val d2 - E)) by ring. eapply Rle_trans; [apply Rabs_triang|]. rewrite Rabs_Ropp.
  unfold a, b, c. lra.
Qed.

Theorem C49_ger : forall SS cc T (O : Ops T) val fin u eta al alpha x y A B m, rounded O val fin u eta -> 0 <' SS -> 0 <' cc -> ger_pre SS cc al x y A B ->
  exists m', ger_cm SS cc T O al alpha x y A B m = Ok m' /\
  forall i j, i <' g_rows B -> j <' g_cols B ->
    let xi := m (vaddr SS (x_ptr x) i) in let yj := m (vaddr SS (x_ptr y) j) in let a := m (g_addr SS A i j) in let b := m' (g_addr SS B i j) in
    fin b = true ->
    fin xi = true /\ fin yj = true /\ fin a = true /\
    Rabs (val b - (val alpha * val xi * val yj + val a)) <=
      ups u 2 * (Rabs (val alpha * val xi * val yj) + Rabs (val a)) + (1 + u) ^ 2 * (Rabs (val yj) + 1) * eta.
Proof.
  intros SS cc T O val fin u eta al alpha x y A B m RA HSS Hcc P. destruct (C23_ger_column_major SS cc T O al alpha x y A B m HSS Hcc P) as (m' & E & U & _).
  exists m'. split; auto. intros i j Hi Hj xi yj a b F. unfold b in *.
  assert (Bk : block (x_size x) (x_size y) i j) by (destruct P; split; lia).
  rewrite U in F |- * by auto. fold xi yj a in F |- *.
  destruct (ra_fma _ _ _ _ _ RA _ _ _ F) as (F1 & F2 & F3 & R1). destruct (ra_mul _ _ _ _ _ RA _ _ F1) as (F4 & F5 & R2).
  rewrite (proj1 (ra_1 _ _ _ _ _ RA _)) in F3. rewrite (proj2 (ra_1 _ _ _ _ _ RA _)) in R1 by auto. do 3 (split; auto).
  pose proof (rHu O val fin u eta RA) as Hu. pose proof (rHeta O val fin u eta RA) as He.
  pose proof (close_scale u eta _ _ _ _ _ (val yj) (close_round u eta Hu He _ _ R2)) as C1.
  pose proof (close_next u eta Hu He _ _ _ _ _ _ (close_plus u eta _ _ _ _ _ _ _ _ _ C1 (exact_close O val fin u eta RA 1 (val a))) R1) as (_ & _ & C2).
  rewrite Rabs_mult. rewrite Rmult_1_l, Rplus_0_r in C2. exact C2.
Qed.
Theorem C49_syrk : forall SS cc T (O : Ops T) val fin u eta al alpha A beta C D m, rounded O val fin u eta -> 0 <' SS -> 0 <' cc -> syrk_pre SS cc al A C D ->
  exists m', syrkLower SS cc T O al alpha A beta C D m = Ok m' /\
  forall i j, i <' v_m D -> (j <= i)%nat ->
    let K := v_n A in let ai k := m (v_addr SS A i k) in let aj k := m (v_addr SS A j k) in let c := m (v_addr SS C i j) in let d := m' (v_addr SS D i j) in
    fin d = true ->
    (forall k, k <' K -> fin (ai k) = true /\ fin (aj k) = true) /\ fin c = true /\
    Rabs (val d - (val beta * val c + val alpha * Rsum K (fun k => val (ai k) * val (aj k)))) <=
      ups u (1 + K) * (Rabs (val beta * val c) + Rabs (val alpha) * Rsum K (fun k => Rabs (val (ai k) * val (aj k)))) +
      (1 + u) ^ (1 + K) * (1 + Rsum K (fun k => Rabs (val (aj k))) + INR K) * eta.
Proof.
  intros SS cc T O val fin u eta al alpha A beta C D m RA HSS Hcc P. destruct (C24_syrk_ops SS cc T O al alpha A beta C D m HSS Hcc P) as (m' & E & U & _).
  exists m'. split; auto. intros i j Hi Hj K ai aj c d F. unfold d in *. destruct (sp_szD _ _ _ _ _ _ P) as [Z1 Z2].
  rewrite U in F |- * by (unfold lower; lia). destruct (syrk_close O val fin u eta RA K ai aj alpha beta c F) as (G1 & G2 & G3 & _ & _ & G5).
  split; [intros k Hk; destruct (G1 k Hk) as (? & ? & _); auto|]. auto.
Qed.
Theorem C49_trmm_right : forall SS cc T (O : Ops T) val fin u eta al alpha B A C m, rounded O val fin u eta -> 0 <' SS -> 0 <' cc -> trmmR_pre SS cc al B A C ->
  exists m', trmmR SS cc T O al alpha B A Lower false C m = Ok m' /\
  forall i j, i <' g_rows B -> j <' g_cols B ->
    let K := (g_cols B - j)%nat in let b k := m (g_addr SS B i (j + k)) in let a k := m (g_addr SS A (j + k) j) in let c := m' (g_addr SS C i j) in
    fin c = true ->
    (forall k, k <' K -> fin (b k) = true /\ fin (a k) = true) /\
    Rabs (val c - val alpha * Rsum K (fun k => val (b k) * val (a k))) <=
      ups u (1 + K) * (Rabs (val alpha) * Rsum K (fun k => Rabs (val (b k) * val (a k)))) +
      (1 + u) ^ (1 + K) * (Rsum K (fun k => Rabs (val (a k))) + INR K) * eta.
Proof.
  intros SS cc T O val fin u eta al alpha B A C m RA HSS Hcc P. destruct (C26_trmm_right_ops SS cc T O al alpha B A C m HSS Hcc P) as (m' & E & U & _).
  exists m'. split; auto. intros i j Hi Hj K b a c F. unfold c in *. rewrite U in F |- * by (split; auto).
  destruct (trmm_close O val fin u eta RA K b a alpha F) as (G1 & _ & _ & G5).
  split; [intros k Hk; destruct (G1 k Hk) as (? & ? & _); auto|]. auto.
Qed.
(** Left product with an upper triangular matrix: the sum runs over the stored triangle, i <= k < M; the roundings over its SIMD block. *)
Theorem C49_trmm_left : forall SS cc T (O : Ops T) val fin u eta al alpha A B C m, rounded O val fin u eta -> 0 <' SS -> 0 <' cc -> trmmL_pre SS cc al A B C ->
  (g_rows B mod (cc * SS) = 0)%nat -> (g_cols B mod (cc * SS) = 0)%nat ->
  exists m', trmmL SS cc T O al alpha A Upper false B C m = Ok m' /\
  forall i j, i <' g_rows B -> j <' g_cols B ->
    let M := g_rows B in let a k := val (m (g_addr SS A i k)) in let b k := val (m (g_addr SS B k j)) in let c := m' (g_addr SS C i j) in
    fin c = true ->
    Rabs (val c - val alpha * Rsum (M - i) (fun k => a (i + k)%nat * b (i + k)%nat)) <=
      ups u (1 + M) * (Rabs (val alpha) * Rsum (M - i) (fun k => Rabs (a (i + k)%nat * b (i + k)%nat))) +
      (1 + u) ^ (1 + M) * (Rsum M (fun k => Rabs (b k)) + INR M) * eta.
Proof.
  intros SS cc T O val fin u eta al alpha A B C m RA HSS Hcc P Z1 Z2.
  destruct (C25_trmm_left_ops SS cc T O al alpha A B C m HSS Hcc P Z1 Z2) as (m' & E & U & _).
  exists m'. split; auto. intros i j Hi Hj M a b c F. unfold c in *. rewrite U in F |- * by (split; auto). cbv zeta in F |- *.
  pose proof (Nat.mul_div_le i SS ltac:(lia)) as Hs. set (s := (SS * (i / SS))%nat) in *. clearbody s.
  destruct (trmm_close O val fin u eta RA (g_rows B - s) _ _ alpha F) as (G1 & G2).
  pose proof (rHu O val fin u eta RA) as Hu. pose proof (rHeta O val fin u eta RA) as He. fold M in G2, F |- *.
  assert (S : forall f : R -> R, f 0 = 0 ->
    Rsum (M - s) (fun k => f (val (upper_of O (fun i k => m (g_addr SS A i k)) i (s + k)) * val (m (g_addr SS B (s + k) j)))) =
    Rsum (M - i) (fun k => f (a (i + k)%nat * b (i + k)%nat))).
  { intros f f0. replace (M - s)%nat with ((i - s) + (M - i))%nat by (unfold M in *; lia). rewrite Rsum_app.
    rewrite (Rsum_ext (i - s) _ (fun _ => 0)).
    - rewrite Rsum_const, Rmult_0_r, Rplus_0_l. apply Rsum_ext. intros k Hk. replace (s + (i - s + k))%nat with (i + k)%nat by lia. unfold upper_of.
      destruct (Nat.leb_spec i (i + k)); [reflexivity|lia].
    - intros k Hk. unfold upper_of. destruct (Nat.leb_spec i (s + k)); [lia|]. rewrite (proj2 (ra_0 _ _ _ _ _ RA)), Rmult_0_l. auto. }
  rewrite (S Rabs Rabs_R0), (S (fun x => x) eq_refl) in G2.
  apply (close_weaken u eta Hu He _ (1 + M) _ (Rsum M (fun k => Rabs (b k)) + INR M)) with (A' := Rabs (val alpha) * Rsum (M - i) (fun k => Rabs (a (i + k)%nat * b (i + k)%nat))) in G2; try lia.
  - destruct G2 as (_ & _ & G). exact G.
  - apply Rplus_le_compat; [|apply le_INR; lia]. replace M with (s + (M - s))%nat at 2 by (unfold M in *; lia). rewrite Rsum_app.
    assert (0 <= Rsum s (fun k => Rabs (b k))) by (apply Rsum_nonneg; intros; apply Rabs_pos). unfold b. unfold b in H. lra.
  - lra.
Qed.

(* ------------------------------------------------------------------ C50: Cholesky *)
Lemma load_one : forall T (O : Ops T) val fin u eta, rounded O val fin u eta -> forall x, fin (omul O (o1 O) x) = true -> fin x = true /\ val (omul O (o1 O) x) = val x.
Proof. intros T O val fin u eta RA x F. rewrite (proj1 (ra_1 _ _ _ _ _ RA x)) in F. split; auto. apply (ra_1 _ _ _ _ _ RA). auto. Qed.
(** Backward error: L * L^T is A up to a small relative perturbation of |L| * |L|^T.  A matrix that is not numerically positive definite yields
    an element that is not finite. *)
Theorem C50_potrf_dense : forall SS cc T (O : Ops T) val fin u eta al A L m, rounded O val fin u eta -> 0 <' SS -> 0 <' cc -> potrf_pre SS cc al A L ->
  exists m', potrf_dense SS cc (cc * SS) T O al A L m = Ok m' /\
  forall i j, lower (v_m A) (v_n A) i j ->
    let a := m (v_addr SS A i j) in let l i j := m' (v_addr SS L i j) in
    fin (l i j) = true -> fin (l j j) = true ->
    fin a = true /\
    Rabs (val a - Rsum (S j) (fun k => val (l i k) * val (l j k))) <=
      downs u (j + 4) * Rsum (S j) (fun k => Rabs (val (l i k) * val (l j k))) +
      (/ (1 - u)) ^ (j + 4) * (eta * (INR j + (Rabs (val (l i j)) + Rabs (val (l j j)) + eta))).
Proof.
  intros SS cc T O val fin u eta al A L m RA HSS Hcc P. destruct (C28_potrf_dense_ops SS cc T O al A L m HSS Hcc P) as (m' & E & H & _).
  exists m'. split; auto. intros i j Hl a l F1 F2.
  assert (Hjj : lower (v_m A) (v_n A) j j) by (unfold lower in *; lia).
  apply (chol_backward O val fin u eta RA (cc * SS) (fun x => omul O (o1 O) x) (fun i j => m (v_addr SS A i j)) l); auto; try apply H; auto; try lia.
  apply (load_one T O val fin u eta RA).
Qed.
Theorem C50_potrf_panel : forall SS cc T (O : Ops T) val fin u eta al A L m, rounded O val fin u eta -> 0 <' SS -> 0 <' cc -> potrf_pre SS cc al A L ->
  exists m', potrf_panel SS cc (cc * SS) T O al A L m = Ok m' /\
  forall i j, lower (v_m A) (v_n A) i j ->
    let a := m (v_addr SS A i j) in let l i j := m' (v_addr SS L i j) in
    fin (l i j) = true -> fin (l j j) = true ->
    fin a = true /\
    Rabs (val a - Rsum (S j) (fun k => val (l i k) * val (l j k))) <=
      downs u (j + 4) * Rsum (S j) (fun k => Rabs (val (l i k) * val (l j k))) +
      (/ (1 - u)) ^ (j + 4) * (eta * (INR j + (Rabs (val (l i j)) + Rabs (val (l j j)) + eta))).
Proof.
  intros SS cc T O val fin u eta al A L m RA HSS Hcc P. destruct (C28_potrf_panel_ops SS cc T O al A L m HSS Hcc P) as (m' & E & H & _).
  exists m'. split; auto. intros i j Hl a l F1 F2.
  assert (Hjj : lower (v_m A) (v_n A) j j) by (unfold lower in *; lia).
  apply (chol_backward O val fin u eta RA (cc * SS) (fun x => x) (fun i j => m (v_addr SS A i j)) l); auto; try apply H; auto; lia.
Qed.

(* ------------------------------------------------------------------ C51: triangular solves *)
(** The residual of each equation, relative to the terms of the equation. *)
Theorem C51_trsm_lower : forall T (O : Ops T) val fin u eta al unit A B X m, rounded O val fin u eta -> trsm_pre al Lower unit A B X ->
  exists m', trsm T O al Lower unit A B X m = Ok m' /\
  forall i j, i <' d_m B -> j <' d_n B ->
    let a k := m (d_at A i k) in let x k := m' (d_at X k j) in let b := m (d_at B i j) in
    let aii := if unit then 1 else val (a i) in
    fin (x i) = true -> (unit = false -> fin (a i) = true) ->
    fin b = true /\ (forall k, k <' i -> fin (a k) = true /\ fin (x k) = true) /\
    Rabs (val b - (Rsum i (fun k => val (a k) * val (x k)) + aii * val (x i))) <=
      downs u (i + 2) * (Rsum i (fun k => Rabs (val (a k) * val (x k))) + Rabs (aii * val (x i))) +
      (/ (1 - u)) ^ (i + 2) * (eta * (2 * INR i + (if unit then 0 else Rabs aii))).
Proof.
  intros T O val fin u eta al unit A B X m RA P. destruct (C31_trsm_ops T O al Lower unit A B X m P) as (m' & E & H & _).
  exists m'. split; auto. intros i j Hi Hj a x b aii Fx Fa. specialize (H i j Hi Hj). cbv zeta in H. destruct unit.
  - destruct (solve_unit_backward O val fin u eta RA i a x b (x i) H Fx) as (G1 & G2 & G3). split; auto. split; auto. unfold aii. rewrite Rmult_1_l, Rplus_0_r. exact G3.
  - destruct (solve_backward O val fin u eta RA i a x b (a i) (x i) H Fx (Fa eq_refl)) as (G1 & G2 & _ & G3). split; auto. split; auto.
    unfold aii. rewrite (Rmult_comm (val (a i))). exact G3.
Qed.
Theorem C51_trsm_upper : forall T (O : Ops T) val fin u eta al unit A B X m, rounded O val fin u eta -> trsm_pre al Upper unit A B X ->
  exists m', trsm T O al Upper unit A B X m = Ok m' /\
  forall i j, i <' d_m B -> j <' d_n B ->
    let n := (d_m B - (i + 1))%nat in
    let a k := m (d_at A i k) in let x k := m' (d_at X k j) in let b := m (d_at B i j) in
    let aii := if unit then 1 else val (a i) in
    fin (x i) = true -> (unit = false -> fin (a i) = true) ->
    fin b = true /\ (forall k, i <' k -> k <' d_m B -> fin (a k) = true /\ fin (x k) = true) /\
    Rabs (val b - (Rsum n (fun c => val (a (i + 1 + c)%nat) * val (x (i + 1 + c)%nat)) + aii * val (x i))) <=
      downs u (n + 2) * (Rsum n (fun c => Rabs (val (a (i + 1 + c)%nat) * val (x (i + 1 + c)%nat))) + Rabs (aii * val (x i))) +
      (/ (1 - u)) ^ (n + 2) * (eta * (2 * INR n + (if unit then 0 else Rabs aii))).
Proof.
  intros T O val fin u eta al unit A B X m RA P. destruct (C31_trsm_ops T O al Upper unit A B X m P) as (m' & E & H & _).
  exists m'. split; auto. intros i j Hi Hj n a x b aii Fx Fa. specialize (H i j Hi Hj). cbv zeta in H.
  assert (W : (forall c, c <' n -> fin (a (i + 1 + c)%nat) = true /\ fin (x (i + 1 + c)%nat) = true) -> forall k, i <' k -> k <' d_m B -> fin (a k) = true /\ fin (x k) = true).
  { intros G k Hk Hk'. specialize (G (k - (i + 1))%nat). replace (i + 1 + (k - (i + 1)))%nat with k in G by lia. apply G. unfold n. lia. }
  destruct unit.
  - destruct (solve_unit_backward O val fin u eta RA n (fun c => a (i + 1 + c)%nat) (fun c => x (i + 1 + c)%nat) b (x i) H Fx) as (G1 & G2 & G3).
    split; auto. split; auto. unfold aii. rewrite Rmult_1_l, Rplus_0_r. exact G3.
  - destruct (solve_backward O val fin u eta RA n (fun c => a (i + 1 + c)%nat) (fun c => x (i + 1 + c)%nat) b (a i) (x i) H Fx (Fa eq_refl)) as (G1 & G2 & _ & G3).
    split; auto. split; auto. unfold aii. rewrite (Rmult_comm (val (a i))). exact G3.
Qed.

(* ------------------------------------------------------------------ C52: LU *)
(** Unblocked LU with partial pivoting, if every element of the result is finite: the multipliers are at most one in magnitude, and the
    interchanges recorded in ipiv turn A into L * U up to a small relative perturbation of |L| * |U|. *)
Theorem C52_getf2_column_major : forall SS cc T (O : Ops T) val fin u eta al A m p m' p', rounded O val fin u eta -> 0 <' SS -> 0 <' cc -> getf2_pre SS cc al A ->
  getf2_cm SS cc T O al A (m, p) = Ok (m', p') ->
  let M := g_rows A in let N := g_cols A in let r := min M N in let F i j := m' (g_addr SS A i j) in
  (forall i j, i <' M -> j <' N -> fin (F i j) = true) ->
  let L := unit_lower rops (fun i j => val (F i j)) in let U := upper_trap rops (fun i j => val (F i j)) in
  let B := interchanged p' 0 r (fun i j => m (g_addr SS A i j)) in
  (forall l, l <' r -> (l <= p' l)%nat /\ p' l <' M) /\
  (forall i l, l <' r -> l <' i -> i <' M -> Rabs (L i l) <= 1) /\
  (forall i j, i <' M -> j <' N -> fin (B i j) = true /\
     Rabs (val (B i j) - Rsum r (fun l => L i l * U l j)) <=
       downs u r * Rsum r (fun l => Rabs (L i l * U l j)) +
       (/ (1 - u)) ^ r * (eta * (INR r + (if (j <? i)%nat then Rabs (val (F j j)) else 0)))).
Proof.
  intros SS cc T O val fin u eta al A m p m' p' RA HSS Hcc P E M N r F FF L U B.
  destruct (C35_getf2_column_major_ops SS cc T O al A m p HSS Hcc P) as [(m1 & p1 & E1 & R & [V _] & _)|[E1 _]]; [|discriminate (eq_trans (eq_sym E1) E)].
  pose proof (eq_trans (eq_sym E1) E) as E2. injection E2 as -> ->. fold M N r in R, V.
  assert (HF : forall i j, i <' M -> j <' N -> F i j = lu_after O (el_cm O) p' r (fun i j => m (g_addr SS A i j)) i j) by (intros i j Hi Hj; apply V; split; auto).
  split; [intros l Hl; destruct (R l Hl) as [[X _] _]; lia|]. split.
  - intros i l Hl Hi HiM. unfold L, unit_lower. destruct (Nat.ltb_spec l i); [|lia]. rewrite HF by (unfold r in *; lia).
    apply (lu_multipliers_round O val fin u eta RA (el_cm O) M p' r); auto; try (unfold r; lia).
    intros i' l' Hl' Hi'. rewrite <- HF by (unfold r in *; lia). apply FF; unfold r in *; lia.
  - intros i j Hi Hj. destruct (lu_backward O val fin u eta RA (el_cm O) 0 M N p' (fun i j => m (g_addr SS A i j)) F) with (i := i) (j := j) as (G1 & G2); auto.
    + apply el_cm_chain; auto.
    + intros l Hl. destruct (R l Hl) as [[X _] _]. lia.
    + split; auto. fold r in G2. rewrite Nat.add_0_r in G2. change (INR 1) with 1 in G2. rewrite Rmult_1_l in G2. exact G2.
Qed.
Theorem C52_getf2_row_major : forall T (O : Ops T) val fin u eta al A m p m' p', rounded O val fin u eta ->
  distinct (d_m A) (d_n A) (d_at A) -> allocated al (d_m A) (d_n A) (d_at A) ->
  getf2_rm T O al A (m, p) = Ok (m', p') ->
  let M := d_m A in let N := d_n A in let r := min M N in let F i j := m' (d_at A i j) in
  (forall i j, i <' M -> j <' N -> fin (F i j) = true) ->
  let L := unit_lower rops (fun i j => val (F i j)) in let U := upper_trap rops (fun i j => val (F i j)) in
  let B := interchanged p' 0 r (fun i j => m (d_at A i j)) in
  (forall l, l <' r -> (l <= p' l)%nat /\ p' l <' M) /\
  (forall i l, l <' r -> l <' i -> i <' M -> Rabs (L i l) <= 1) /\
  (forall i j, i <' M -> j <' N -> fin (B i j) = true /\
     Rabs (val (B i j) - Rsum r (fun l => L i l * U l j)) <=
       downs u (r + 1) * Rsum r (fun l => Rabs (L i l * U l j)) +
       (/ (1 - u)) ^ (r + 1) * (eta * (2 * INR r + (if (j <? i)%nat then Rabs (val (F j j)) else 0)))).
Proof.
  intros T O val fin u eta al A m p m' p' RA D AL E M N r F FF L U B.
  destruct (C35_getf2_row_major_ops T O al A m p D AL) as [(m1 & p1 & E1 & R & [V _] & _)|[E1 _]]; [|discriminate (eq_trans (eq_sym E1) E)].
  pose proof (eq_trans (eq_sym E1) E) as E2. injection E2 as -> ->. fold M N r in R, V.
  assert (HF : forall i j, i <' M -> j <' N -> F i j = lu_after O (el_rm O) p' r (fun i j => m (d_at A i j)) i j) by (intros i j Hi Hj; apply V; split; auto).
  split; [intros l Hl; destruct (R l Hl) as [[X _] _]; lia|]. split.
  - intros i l Hl Hi HiM. unfold L, unit_lower. destruct (Nat.ltb_spec l i); [|lia]. rewrite HF by (unfold r in *; lia).
    apply (lu_multipliers_round O val fin u eta RA (el_rm O) M p' r); auto; try (unfold r; lia).
    intros i' l' Hl' Hi'. rewrite <- HF by (unfold r in *; lia). apply FF; unfold r in *; lia.
  - intros i j Hi Hj. destruct (lu_backward O val fin u eta RA (el_rm O) 1 M N p' (fun i j => m (d_at A i j)) F) with (i := i) (j := j) as (G1 & G2); auto.
    + apply el_rm_chain; auto.
    + intros l Hl. destruct (R l Hl) as [[X _] _]. lia.
Qed.

(* ------------------------------------------------------------------ examples, in double *)
Definition d64 (z : Z) : b64 := binary_normalize 53 1024 eq_refl eq_refl mode_NE z 0 false.
(** The 6x5 by 5x3 product of C17_example, on doubles that are not integers (thirds): all elements are finite, so the bound applies to each. *)
Definition e_m64 (x : nat) : b64 := odiv b64ops (d64 (Z.of_nat x)) (d64 3).
Example C49_example : exists m', gemm 4 b64 b64ops Properties_Gemm.e_al (e_m64 2) Properties_Gemm.aA Properties_Gemm.aB (e_m64 1) Properties_Gemm.aD Properties_Gemm.aD e_m64 = Ok m' /\
  forall i j, (i < 6)%nat -> (j < 3)%nat -> is_finite (m' (g_addr 4 Properties_Gemm.aD i j)) = true.
Proof.
  destruct (C49_gemm 4 b64 b64ops B2R is_finite _ _ Properties_Gemm.e_al (e_m64 2) Properties_Gemm.aA Properties_Gemm.aB (e_m64 1) Properties_Gemm.aD Properties_Gemm.aD e_m64 C49_double ltac:(lia) C17_example) as (m' & E & _).
  exists m'. split; auto.
  assert (X : match gemm 4 b64 b64ops Properties_Gemm.e_al (e_m64 2) Properties_Gemm.aA Properties_Gemm.aB (e_m64 1) Properties_Gemm.aD Properties_Gemm.aD e_m64 with
              | Ok m' => forallb (fun i => forallb (fun j => is_finite (m' (g_addr 4 Properties_Gemm.aD i j))) (seq 0 3)) (seq 0 6) | _ => false end = true) by (vm_compute; reflexivity).
  rewrite E in X. rewrite forallb_forall in X. intros i j Hi Hj. specialize (X i ltac:(apply in_seq; lia)). rewrite forallb_forall in X. apply X. apply in_seq. lia.
Qed.
(** Cholesky of the 6x4 example with A(i,j) = min(i,j) + 1 + [i = j] in double: every element of the factor is finite; the square of the computed
    sqrt 2 is not 2. *)
Definition x_m64 (x : nat) : b64 := if (x <? 32)%nat then d64 (Z.of_nat (min (x mod 8) (x / 8) + (if x mod 8 =? x / 8 then 2 else 1))%nat) else d64 7.
Example C50_example :
  match potrf_dense 4 1 4 b64 b64ops x_al (whole xA) (whole xL) x_m64 with
  | Ok m' => forallb (fun i => forallb (fun j => is_finite (m' (c_addr 4 xL i j))) (seq 0 (min (i + 1) 4))) (seq 0 6) &&
             negb (Beqb (omul b64ops (m' (c_addr 4 xL 0 0)) (m' (c_addr 4 xL 0 0))) (d64 2))
  | _ => false end = true.
Proof. vm_compute. reflexivity. Qed.
(** An indefinite matrix: the factor contains a NaN. *)
Example C50_example_indefinite :
  match potrf_dense 4 1 4 b64 b64ops x_al (whole xA) (whole xL) (fun x => if (x <? 32)%nat then d64 (Z.of_nat (x mod 8 + x / 8)%nat) else d64 7) with
  | Ok m' => is_nan (m' (c_addr 4 xL 1 1)) | _ => false end = true.
Proof. vm_compute. reflexivity. Qed.
Example C51_example :
  match trsm b64 b64ops t_al Lower false tA tB tB (fun x => d64 (t_m x)) with
  | Ok m' => forallb (fun i => forallb (fun j => is_finite (m' (d_at tB i j))) (seq 0 2)) (seq 0 3) | _ => false end = true.
Proof. vm_compute. reflexivity. Qed.
Example C52_example :
  match getf2_cm 4 1 b64 b64ops (c_alloc 4 fA) (MArg (whole fA) false) ((fun a => d64 (nth a [0; 4; 2; 99; 2; 1; 1; 99]%Z 0%Z)), fun _ => 7%nat) with
  | Ok (m', p') => forallb (fun i => forallb (fun j => is_finite (m' (c_addr 4 fA i j))) (seq 0 2)) (seq 0 3) | _ => false end = true.
Proof. vm_compute. reflexivity. Qed.
