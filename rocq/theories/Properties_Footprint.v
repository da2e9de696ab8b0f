(** Properties_Footprint.v -- C61: footprints of the calls; batches of independent calls can be run in any order. *)
From Coq Require Import Arith Lia List Bool PeanoNat Permutation ZArith.
From Verif Require Import Base Base_Proofs Spec Footprint_Spec Algebra_Proofs Instances Layout_Model Layout_Proofs Simd_Model Simd_Proofs Vec_Proofs Ger_Proofs Tile_Model Arg_Proofs Gemm_Model Properties_Gemm Ger_Model Properties_Ger
  Syrk_Model Properties_Syrk Trmm_Model Trmm_Proofs Properties_Trmm Potrf_Model Potrf_Proofs Properties_Potrf Tri_Model Properties_Tri LU_Model LU_Proofs Properties_LU
  Assign_Model Properties_Assign Container_Model Properties_Container Ref_Model Properties_Ref Properties_DynReg.
Import ListNotations.

(* ------------------------------------------------------------------ batches *)
Section Batch.
Context {T : Type}.
Notation action := (@action T).

Lemma indep_sym : forall c d : action, independent c d -> independent d c.
Proof. intros c d H x. destruct (H x). auto. Qed.

(** Every call of a batch finds its operands as they were at the beginning, and its result is there at the end. *)
Theorem C61_batch : forall (l : list action) m, Forall confined l -> ForallOrdPairs independent l ->
  exists m', in_order l m = Ok m' /\
    (forall c, In c l -> exists mc, a_op c m = Ok mc /\ forall x, a_result c x -> m' x = mc x) /\
    (forall x, (forall c, In c l -> ~ a_writes c x) -> m' x = m x).
Proof.
  induction l as [|c l IH]; intros m HC HI.
  - exists m. cbn. split; auto. split; [tauto|auto].
  - inversion HC as [|? ? Cc Cl]; subst. inversion HI as [|? ? Ic Il]; subst.
    destruct Cc as [RW Cc]. destruct (Cc m m) as (m1 & _ & E1 & _ & _ & F1 & _); auto.
    destruct (IH m1 Cl Il) as (m' & E & V & F). exists m'. cbn [in_order]. rewrite E1. cbn [bind]. split; auto.
    rewrite Forall_forall in Ic, Cl. split.
    + intros d [<-|Hd].
      * exists m1. split; auto. intros x Hx. apply F. intros d Hd. destruct (Ic d Hd x) as [I _]. apply (proj2 (I (RW x Hx))).
      * destruct (V d Hd) as (md1 & Ed1 & Vd). destruct (Cl d Hd) as [_ Cd].
        destruct (Cd m m1) as (md & md1' & Ed & Ed1' & Eq & _).
        { intros x Hx. symmetry. apply F1. intros W. destruct (Ic d Hd x) as [I _]. destruct (I W). tauto. }
        exists md. split; auto. intros x Hx. rewrite Vd by auto. pose proof (eq_trans (eq_sym Ed1) Ed1') as Q. injection Q as ->. symmetry. apply Eq; auto.
    + intros x Hx. rewrite F by (intros d Hd; apply Hx; right; auto). apply F1. apply Hx. left. auto.
Qed.

Lemma perm_pairs : forall l l' : list action, Permutation l l' -> ForallOrdPairs independent l -> ForallOrdPairs independent l'.
Proof.
  intros l l' P. induction P; intros H; auto.
  - inversion H; subst. constructor; auto. rewrite Forall_forall in *. intros y Hy. apply H2. apply (Permutation_in y (Permutation_sym P)); auto.
  - inversion H as [|? ? H1 H2]; subst. inversion H2 as [|? ? H3 H4]; subst. inversion H1 as [|? ? H5 H6]; subst.
    constructor; [constructor; [apply indep_sym; auto|auto]|]. constructor; auto.
Qed.

(** In whatever order the calls are made: success, the same results, and nothing else changed. *)
Theorem C61_any_order : forall (l l' : list action) m, Forall confined l -> ForallOrdPairs independent l -> Permutation l l' ->
  exists m1 m2, in_order l m = Ok m1 /\ in_order l' m = Ok m2 /\
    forall x, (exists c, In c l /\ a_result c x) \/ (forall c, In c l -> ~ a_writes c x) -> m1 x = m2 x.
Proof.
  intros l l' m HC HI P.
  destruct (C61_batch l m HC HI) as (m1 & E1 & V1 & F1).
  destruct (C61_batch l' m) as (m2 & E2 & V2 & F2).
  { rewrite Forall_forall in *. intros c Hc. apply HC. apply (Permutation_in c (Permutation_sym P)); auto. }
  { eapply perm_pairs; eauto. }
  exists m1, m2. split; auto. split; auto. intros x [(c & Hc & Hx)|Hx].
  - destruct (V1 c Hc) as (mc & Ec & Q1). destruct (V2 c (Permutation_in c P Hc)) as (mc' & Ec' & Q2).
    rewrite Q1, Q2 by auto. pose proof (eq_trans (eq_sym Ec) Ec') as Q. injection Q as ->. reflexivity.
  - rewrite F1, F2; auto. intros c Hc. apply Hx. apply (Permutation_in c (Permutation_sym P)); auto.
Qed.
End Batch.

(* ------------------------------------------------------------------ footprints of the calls *)
(** A call that puts e into the cells P of a matrix and changes nothing else. *)
Lemma confined_updated : forall T (f : mem T -> res (mem T)) (R : nat -> Prop) (P : nat -> nat -> Prop) ad (e : mem T -> nat -> nat -> T),
  (forall m, exists m', f m = Ok m' /\ updated P ad (e m) m m') ->
  (forall m1 m2, (forall x, R x -> m1 x = m2 x) -> forall i j, P i j -> e m1 i j = e m2 i j) ->
  confined (Action f R (cells P ad) (cells P ad)).
Proof.
  intros T f R P ad e H HE. split; [auto|]. cbn. intros m1 m2 HR.
  destruct (H m1) as (m1' & E1 & V1 & F1). destruct (H m2) as (m2' & E2 & V2 & F2). exists m1', m2'. repeat split; auto.
  - intros x (i & j & Hp & ->). rewrite V1, V2 by auto. auto.
  - intros x Hx. apply F1. intros i j Hp E. apply Hx. exists i, j. auto.
  - intros x Hx. apply F2. intros i j Hp E. apply Hx. exists i, j. auto.
Qed.
Lemma cells_block : forall M N ad i j, i < M -> j < N -> cells (block M N) ad (ad i j).
Proof. intros. exists i, j. unfold block. auto. Qed.

(** gemm reads A, B, C and writes D. *)
Theorem C61_gemm : forall SS T (O : Ops T) al alpha A B beta C D, 0 < SS -> gemm_pre SS al A B C D ->
  let M := g_rows A in let N := g_cols B in let K := g_cols A in
  confined (Action (gemm SS T O al alpha A B beta C D)
    (fun x => cells (block M K) (g_addr SS A) x \/ cells (block K N) (g_addr SS B) x \/ cells (block M N) (g_addr SS C) x)
    (cells (block M N) (g_addr SS D)) (cells (block M N) (g_addr SS D))).
Proof.
  intros SS T O al alpha A B beta C D HSS P M N K.
  eapply confined_updated; [intros m; apply (C17_gemm_ops SS T O al alpha A B beta C D m HSS P)|]. cbn beta.
  intros m1 m2 H i j [Hi Hj]. f_equal; [apply H; right; right; apply cells_block; auto|]. f_equal.
  apply fma_chain_ext; intros k Hk; apply H; [left|right; left]; apply cells_block; auto.
Qed.
(** ger reads x, y, A and writes B. *)
Theorem C61_ger : forall SS cc T (O : Ops T) al alpha x y A B, 0 < SS -> 0 < cc -> ger_pre SS cc al x y A B ->
  confined (Action (ger_cm SS cc T O al alpha x y A B)
    (fun a => (exists i, i < x_size x /\ a = vaddr SS (x_ptr x) i) \/ (exists j, j < x_size y /\ a = vaddr SS (x_ptr y) j) \/
              cells (block (x_size x) (x_size y)) (g_addr SS A) a)
    (cells (block (x_size x) (x_size y)) (g_addr SS B)) (cells (block (x_size x) (x_size y)) (g_addr SS B))).
Proof.
  intros SS cc T O al alpha x y A B HSS Hcc P.
  eapply confined_updated; [intros m; apply (C23_ger_column_major SS cc T O al alpha x y A B m HSS Hcc P)|]. cbn beta.
  intros m1 m2 H i j [Hi Hj]. f_equal; [f_equal; apply H; left; eauto|apply H; right; left; eauto|]. f_equal.
  apply H. right. right. apply cells_block; auto.
Qed.
(** syrk reads A and the lower triangle of C and writes the lower triangle of D. *)
Theorem C61_syrk : forall SS cc T (O : Ops T) al alpha A beta C D, 0 < SS -> 0 < cc -> syrk_pre SS cc al A C D ->
  confined (Action (syrkLower SS cc T O al alpha A beta C D)
    (fun x => cells (block (v_m A) (v_n A)) (v_addr SS A) x \/ cells (lower (v_m A) (v_m A)) (v_addr SS C) x)
    (cells (lower (v_m A) (v_m A)) (v_addr SS D)) (cells (lower (v_m A) (v_m A)) (v_addr SS D))).
Proof.
  intros SS cc T O al alpha A beta C D HSS Hcc P.
  eapply confined_updated; [intros m; apply (C24_syrk_ops SS cc T O al alpha A beta C D m HSS Hcc P)|]. cbn beta.
  intros m1 m2 H i j Hij. pose proof Hij as (H1 & H2 & H3). replace (m2 (v_addr SS C i j)) with (m1 (v_addr SS C i j)) by (apply H; right; exists i, j; auto).
  apply fma_chain_ext; intros k Hk; [f_equal|]; apply H; left; apply cells_block; auto.
Qed.
(** trmm from the left reads A and B and writes C. *)
Theorem C61_trmm_left : forall SS cc T (O : Ops T) al alpha A B C, 0 < SS -> 0 < cc -> trmmL_pre SS cc al A B C ->
  let M := g_rows B in let N := g_cols B in
  confined (Action (trmmL SS cc T O al alpha A Upper false B C)
    (fun x => cells (block M M) (g_addr SS A) x \/ cells (block M N) (g_addr SS B) x)
    (cells (block M N) (g_addr SS C)) (cells (block M N) (g_addr SS C))).
Proof.
  intros SS cc T O al alpha A B C HSS Hcc P M N.
  eapply confined_updated; [intros m; apply (left_run SS cc T O al alpha A B C m HSS Hcc P)|].
  intros m1 m2 H i j [Hi Hj]. unfold trmmL_val. destruct (find _ _) as [c|] eqn:Ef; auto. unfold trmmL_elem.
  destruct (k_full c); apply fma_chain_ext; intros k Hk.
  - f_equal. unfold upper_part. destruct (_ <=? _); auto. apply H. left. apply cells_block; [exact Hi|]. unfold M. lia.
  - apply H. right. apply cells_block; auto. unfold M. lia.
  - f_equal. apply H. left. apply cells_block; [exact Hi|]. unfold M. lia.
  - apply H. right. apply cells_block; auto. unfold M. lia.
Qed.
(** trmm from the right reads B and the lower triangle of A and writes C. *)
Theorem C61_trmm_right : forall SS cc T (O : Ops T) al alpha B A C, 0 < SS -> 0 < cc -> trmmR_pre SS cc al B A C ->
  let M := g_rows B in let N := g_cols B in
  confined (Action (trmmR SS cc T O al alpha B A Lower false C)
    (fun x => cells (lower N N) (g_addr SS A) x \/ cells (block M N) (g_addr SS B) x)
    (cells (block M N) (g_addr SS C)) (cells (block M N) (g_addr SS C))).
Proof.
  intros SS cc T O al alpha B A C HSS Hcc P M N.
  eapply confined_updated; [intros m; apply (C26_trmm_right_ops SS cc T O al alpha B A C m HSS Hcc P)|]. cbn beta.
  intros m1 m2 H i j [Hi Hj]. apply fma_chain_ext; intros k Hk.
  - f_equal. apply H. right. apply cells_block; auto. unfold N in *. lia.
  - apply H. left. exists (j + k), j. unfold lower, N in *. split; auto. lia.
Qed.

(** Assignment reads the source and writes the target. *)
Theorem C61_assign : forall SS T al a b, 0 < SS -> arg_ok SS a -> g_rows b = g_rows a -> g_cols b = g_cols a ->
  allocated al (g_rows a) (g_cols a) (g_addr SS a) -> allocated al (g_rows a) (g_cols a) (g_addr SS b) ->
  separate (g_rows a) (g_cols a) (g_addr SS a) (g_rows a) (g_cols a) (g_addr SS b) ->
  confined (Action (m_assign SS T al a b) (cells (block (g_rows a) (g_cols a)) (g_addr SS b))
    (cells (block (g_rows a) (g_cols a)) (g_addr SS a)) (cells (block (g_rows a) (g_cols a)) (g_addr SS a))).
Proof.
  intros SS T al a b HSS Ha E1 E2 A1 A2 SEP.
  eapply confined_updated; [intros m; apply (C48_assign SS T al a b m HSS Ha E1 E2 A1 A2)|].
  - intros i j i' j' [Hi Hj] [Hi' Hj'] _. apply SEP; auto.
  - cbn beta. intros m1 m2 H i j [Hi Hj]. apply H. apply cells_block; auto.
Qed.
Theorem C61_assign_panel_to_dense : forall SS T (O : Ops T) al L R, 0 < SS ->
  c_kind (v_cont L) = Dense -> c_kind (v_cont R) = Panel ->
  window_ok SS L -> window_ok SS R -> rows_aligned SS L R -> v_m L = v_m R -> v_n L = v_n R ->
  buffer_live SS al (v_cont L) -> buffer_live SS al (v_cont R) -> buffers_apart SS (v_cont L) (v_cont R) ->
  confined (Action (assign_dense_panel SS T O al L R) (cells (block (v_m R) (v_n R)) (v_addr SS R))
    (cells (block (v_m R) (v_n R)) (v_addr SS L)) (cells (block (v_m R) (v_n R)) (v_addr SS L))).
Proof.
  intros SS T O al L R HSS H1 H2 H3 H4 H5 H6 H7 H8 H9 H10.
  eapply confined_updated; [intros m; apply (C40_assign_panel_to_dense SS T O al L R m); auto|].
  cbn beta. intros m1 m2 H i j [Hi Hj]. apply H. apply cells_block; auto.
Qed.
(** laswp reads and writes A. *)
Theorem C61_laswp : forall T al A k0 k1 ipiv, distinct (d_m A) (d_n A) (d_at A) -> allocated al (d_m A) (d_n A) (d_at A) ->
  k0 <= k1 -> k1 <= d_m A -> (forall k, k0 <= k < k1 -> ipiv k < d_m A) ->
  confined (Action (laswp T al A k0 k1 ipiv) (cells (block (d_m A) (d_n A)) (d_at A)) (cells (block (d_m A) (d_n A)) (d_at A)) (cells (block (d_m A) (d_n A)) (d_at A))).
Proof.
  intros T al A k0 k1 ipiv D AL K0 K1 HP.
  eapply confined_updated; [intros m; apply (C34_laswp T al A k0 k1 ipiv m); auto|].
  intros m1 m2 H i j [Hi Hj].
  assert (G : forall n, k0 + n <= k1 -> forall i, i < d_m A ->
    interchanged ipiv k0 n (fun i j => m1 (d_at A i j)) i j = interchanged ipiv k0 n (fun i j => m2 (d_at A i j)) i j).
  { induction n as [|n IH]; intros Hn i' Hi'; cbn [interchanged].
    - apply H. apply cells_block; auto.
    - apply IH; [lia|]. specialize (HP (k0 + n) ltac:(lia)). unfold interchange. destruct (i' =? k0 + n); auto. destruct (i' =? ipiv (k0 + n)); auto. lia. }
  apply G; auto. lia.
Qed.
(** swap reads and writes its two vectors. *)
Theorem C61_swap : forall SS T al n x y, 0 < SS -> vec_ok SS x -> vec_ok SS y ->
  (forall i, i < n -> al (vaddr SS x i) = true) -> (forall i, i < n -> al (vaddr SS y i) = true) ->
  (forall i j, i < n -> j < n -> vaddr SS x i = vaddr SS x j -> i = j) -> (forall i j, i < n -> j < n -> vaddr SS y i = vaddr SS y j -> i = j) ->
  (forall i j, i < n -> j < n -> vaddr SS x i <> vaddr SS y j) ->
  let F := fun a => exists i, i < n /\ (a = vaddr SS x i \/ a = vaddr SS y i) in
  confined (Action (swap_ptr SS T al n x y) F F F).
Proof.
  intros SS T al n x y HSS Hx Hy Ax Ay Dx Dy Dxy F. split; [auto|]. cbn. intros m1 m2 HR.
  destruct (C33_swap SS T al n x y m1 HSS Hx Hy Ax Ay Dx Dy Dxy) as (m1' & E1 & V1 & F1).
  destruct (C33_swap SS T al n x y m2 HSS Hx Hy Ax Ay Dx Dy Dxy) as (m2' & E2 & V2 & F2). exists m1', m2'. repeat split; auto.
  - intros a (i & Hi & [->| ->]); destruct (V1 i Hi) as [A1 A2], (V2 i Hi) as [B1 B2]; rewrite ?A1, ?A2, ?B1, ?B2; apply HR; exists i; auto.
  - intros a Ha. apply F1. intros i Hi. split; intros E; apply Ha; exists i; auto.
  - intros a Ha. apply F2. intros i Hi. split; intros E; apply Ha; exists i; auto.
Qed.

(** trsm reads A and B and writes X. *)
Theorem C61_trsm : forall T (O : Ops T) al ul unit A B X, trsm_pre al ul unit A B X ->
  let M := d_m B in let N := d_n B in
  confined (Action (trsm T O al ul unit A B X)
    (fun x => cells (fun i k => i < M /\ k < M /\ match ul with Lower => k <= i | Upper => i <= k end) (d_at A) x \/ cells (block M N) (d_at B) x)
    (cells (block M N) (d_at X)) (cells (block M N) (d_at X))).
Proof.
  intros T O al ul unit A B X P M N. split; [auto|]. cbn [a_op a_reads a_writes a_result]. intros m1 m2 HR.
  destruct (C31_trsm_ops T O al ul unit A B X m1 P) as (m1' & E1 & V1 & F1).
  destruct (C31_trsm_ops T O al ul unit A B X m2 P) as (m2' & E2 & V2 & F2). exists m1', m2'. fold M N in V1, V2, F1, F2.
  assert (HA : forall i k, i < M -> k < M -> match ul with Lower => k <= i | Upper => i <= k end -> m1 (d_at A i k) = m2 (d_at A i k)).
  { intros i k Hi Hk Hu. apply HR. left. exists i, k. auto. }
  assert (HB : forall i j, i < M -> j < N -> m1 (d_at B i j) = m2 (d_at B i j)).
  { intros i j Hi Hj. apply HR. right. apply cells_block; auto. }
  assert (STEP : forall i j, i < M -> j < N ->
    (forall k, k < M -> match ul with Lower => k < i | Upper => i < k end -> m1' (d_at X k j) = m2' (d_at X k j)) -> m1' (d_at X i j) = m2' (d_at X i j)).
  { intros i j Hi Hj IH. rewrite V1, V2 by auto. destruct ul.
    - replace (sub_chain O i (fun k => m1 (d_at A i k)) (fun k => m1' (d_at X k j)) (m1 (d_at B i j)))
        with (sub_chain O i (fun k => m2 (d_at A i k)) (fun k => m2' (d_at X k j)) (m2 (d_at B i j))).
      2:{ rewrite HB by auto. apply sub_chain_ext; intros k Hk; symmetry; [apply HA|apply IH]; auto; lia. }
      destruct unit; auto. rewrite HA by auto. reflexivity.
    - replace (sub_chain O (M - (i + 1)) (fun c => m1 (d_at A i (i + 1 + c))) (fun c => m1' (d_at X (i + 1 + c) j)) (m1 (d_at B i j)))
        with (sub_chain O (M - (i + 1)) (fun c => m2 (d_at A i (i + 1 + c))) (fun c => m2' (d_at X (i + 1 + c) j)) (m2 (d_at B i j))).
      2:{ rewrite HB by auto. apply sub_chain_ext; intros k Hk; symmetry; [apply HA|apply IH]; auto; lia. }
      destruct unit; auto. rewrite HA by auto. reflexivity. }
  assert (EQ : forall i j, i < M -> j < N -> m1' (d_at X i j) = m2' (d_at X i j)).
  { intros i j Hi Hj. destruct ul.
    - revert Hi. induction i as [i IH] using lt_wf_ind. intros Hi. apply STEP; auto.
    - remember (M - i) as d eqn:Ed. revert i Ed Hi. induction d as [d IH] using lt_wf_ind. intros i Ed Hi. apply STEP; auto.
      intros k Hk Hik. apply (IH (M - k)); lia. }
  repeat split; auto.
  - intros x (i & j & [Hi Hj] & ->). auto.
  - intros x Hx. apply F1. intros i j Hi Hj E. apply Hx. exists i, j. unfold block. auto.
  - intros x Hx. apply F2. intros i j Hi Hj E. apply Hx. exists i, j. unfold block. auto.
Qed.

(** The equations of the factorization determine the lower triangle. *)
Lemma chol_det : forall T (O : Ops T) TS ld M N (a b l g : nat -> nat -> T), 0 < TS -> N <= M ->
  (forall i j, lower M N i j -> a i j = b i j) ->
  (forall i j, lower M N i j -> chol_elem O TS ld a l i j) -> (forall i j, lower M N i j -> chol_elem O TS ld b g i j) ->
  forall i j, lower M N i j -> l i j = g i j.
Proof.
  intros T O TS ld M N a b l g HT HNM Hab Hl Hg.
  assert (Q : forall j i, lower M N i j -> l i j = g i j); [|auto].
  induction j as [j IH] using lt_wf_ind.
  assert (NUM : forall i, lower M N i j -> chol_num O TS ld a l i j = chol_num O TS ld b g i j).
  { intros i Hij. unfold chol_num. cbv zeta. set (k := TS * (j / TS)). assert (Hk : k <= j) by (apply Nat.mul_div_le; lia).
    unfold lower in *. rewrite Hab by lia.
    assert (E : forall x c, x = i \/ x = j -> c < j -> l x c = g x c) by (intros; apply IH; lia).
    replace (fma_chain O k (fun c => omul O (om1 O) (l i c)) (fun c => l j c) (ld (b i j)))
      with (fma_chain O k (fun c => omul O (om1 O) (g i c)) (fun c => g j c) (ld (b i j))).
    - apply fnma_chain_ext'; intros c Hc; apply E; auto; lia.
    - apply fma_chain_ext; intros c Hc; [f_equal|]; symmetry; apply E; auto; lia. }
  assert (DG : j < N -> l j j = g j j).
  { intros Hj. assert (Hjj : lower M N j j) by (unfold lower; lia). rewrite (Hl j j Hjj), (Hg j j Hjj), NUM by auto.
    pose proof (Nat.mul_succ_div_gt j TS ltac:(lia)) as X. rewrite (proj2 (Nat.ltb_lt _ _)) by lia. reflexivity. }
  intros i Hij. pose proof Hij as (H1 & H2 & H3). rewrite (Hl i j Hij), (Hg i j Hij), NUM, (NUM j), DG by (auto; unfold lower; lia). reflexivity.
Qed.
(** potrf reads the lower triangle of A; the lower triangle of L depends on nothing else; the padding rows of L may be changed as well. *)
Theorem C61_potrf_dense : forall SS cc T (O : Ops T) al A L, 0 < SS -> 0 < cc -> potrf_pre SS cc al A L ->
  let M := v_m A in let N := v_n A in
  confined (Action (potrf_dense SS cc (cc * SS) T O al A L) (cells (lower M N) (v_addr SS A))
    (cells (lower (nextMultiple M (cc * SS)) N) (v_addr SS L)) (cells (lower M N) (v_addr SS L))).
Proof.
  intros SS cc T O al A L HSS Hcc P M N. assert (HT : 0 < cc * SS) by nia.
  destruct (nextMultiple_spec M (cc * SS) HT) as (NM & _).
  split; cbn [a_op a_reads a_writes a_result]; [intros x (i & j & Hij & ->); exists i, j; unfold lower in *; split; auto; lia|]. intros m1 m2 HR.
  destruct (C28_potrf_dense_ops SS cc T O al A L m1 HSS Hcc P) as (m1' & E1 & V1 & F1).
  destruct (C28_potrf_dense_ops SS cc T O al A L m2 HSS Hcc P) as (m2' & E2 & V2 & F2). exists m1', m2'. repeat split; auto.
  - intros x (i & j & Hij & ->).
    apply (chol_det T O (cc * SS) (fun x => omul O (o1 O) x) M N (fun i j => m1 (v_addr SS A i j)) (fun i j => m2 (v_addr SS A i j))
      (fun i j => m1' (v_addr SS L i j)) (fun i j => m2' (v_addr SS L i j))); auto.
    + destruct (pp_sz _ _ _ _ _ P). auto.
    + intros i' j' H'. apply HR. exists i', j'. auto.
  - intros x Hx. apply F1. intros i j Hij E. apply Hx. exists i, j. auto.
  - intros x Hx. apply F2. intros i j Hij E. apply Hx. exists i, j. auto.
Qed.
Theorem C61_potrf_panel : forall SS cc T (O : Ops T) al A L, 0 < SS -> 0 < cc -> potrf_pre SS cc al A L ->
  let M := v_m A in let N := v_n A in let TS := cc * SS in
  confined (Action (potrf_panel SS cc TS T O al A L) (cells (lower M N) (v_addr SS A))
    (cells (fun i j => i < nextMultiple M TS /\ j < N /\ TS * (j / TS) <= i) (v_addr SS L)) (cells (lower M N) (v_addr SS L))).
Proof.
  intros SS cc T O al A L HSS Hcc P M N TS. assert (HT : 0 < TS) by (unfold TS; nia).
  destruct (nextMultiple_spec M TS HT) as (NM & _).
  split; cbn [a_op a_reads a_writes a_result].
  { intros x (i & j & Hij & ->). exists i, j. unfold lower in *. pose proof (Nat.mul_div_le j TS ltac:(lia)). split; auto. lia. }
  intros m1 m2 HR.
  destruct (C28_potrf_panel_ops SS cc T O al A L m1 HSS Hcc P) as (m1' & E1 & V1 & F1).
  destruct (C28_potrf_panel_ops SS cc T O al A L m2 HSS Hcc P) as (m2' & E2 & V2 & F2). exists m1', m2'. repeat split; auto.
  - intros x (i & j & Hij & ->).
    apply (chol_det T O TS (fun x => x) M N (fun i j => m1 (v_addr SS A i j)) (fun i j => m2 (v_addr SS A i j))
      (fun i j => m1' (v_addr SS L i j)) (fun i j => m2' (v_addr SS L i j))); auto.
    + destruct (pp_sz _ _ _ _ _ P). auto.
    + intros i' j' H'. apply HR. exists i', j'. auto.
  - intros x Hx. apply F1. intros i j H1 H2 H3 E. apply Hx. exists i, j. auto.
  - intros x Hx. apply F2. intros i j H1 H2 H3 E. apply Hx. exists i, j. auto.
Qed.

(** The reference kernels gemm and axpy. *)
Theorem C61_ref_gemm : forall SS T (O : Ops T) al alpha A B beta C D, 0 < SS -> rgemm_pre SS al A B C D ->
  let M := g_rows A in let N := g_cols B in let K := g_cols A in
  confined (Action (ref_gemm SS T O al alpha A B beta C D)
    (fun x => cells (block M K) (g_addr SS A) x \/ cells (block K N) (g_addr SS B) x \/ cells (block M N) (g_addr SS C) x)
    (cells (block M N) (g_addr SS D)) (cells (block M N) (g_addr SS D))).
Proof.
  intros SS T O al alpha A B beta C D HSS P M N K.
  eapply confined_updated; [intros m; apply (C38_gemm_ops SS T O al alpha A B beta C D m HSS P)|]. cbn beta.
  intros m1 m2 H i j [Hi Hj]. f_equal; [f_equal|f_equal; apply H; right; right; apply cells_block; auto].
  apply add_chain_ext; intros k Hk; apply H; [left|right; left]; apply cells_block; auto.
Qed.

(* ------------------------------------------------------------------ gemm window by window *)
(** The m-by-n window of a gemm argument whose first element is (r, c). *)
Definition arg_window (af : bool) (X : marg) (r c m n : nat) : marg :=
  MArg (if g_trans X then subsubmatrix af (g_view X) c r n m else subsubmatrix af (g_view X) r c m n) (g_trans X).
Record rect := Rect { q_af : bool; q_r : nat; q_c : nat; q_m : nat; q_n : nat }.
Definition inside (q : rect) (i j : nat) : Prop := q_r q <= i < q_r q + q_m q /\ q_c q <= j < q_c q + q_n q.
(** gemm(alpha, rows of A, columns of B, beta, window of C, window of D) *)
Definition gemm_window (SS : nat) T (O : Ops T) al alpha A B beta C D (q : rect) : mem T -> res (mem T) :=
  gemm SS T O al alpha (arg_window (q_af q) A (q_r q) 0 (q_m q) (g_cols A)) (arg_window (q_af q) B 0 (q_c q) (g_rows B) (q_n q)) beta
    (arg_window (q_af q) C (q_r q) (q_c q) (q_m q) (q_n q)) (arg_window (q_af q) D (q_r q) (q_c q) (q_m q) (q_n q)).
Definition window_pre (SS : nat) al A B C D (q : rect) : Prop :=
  gemm_pre SS al (arg_window (q_af q) A (q_r q) 0 (q_m q) (g_cols A)) (arg_window (q_af q) B 0 (q_c q) (g_rows B) (q_n q))
    (arg_window (q_af q) C (q_r q) (q_c q) (q_m q) (q_n q)) (arg_window (q_af q) D (q_r q) (q_c q) (q_m q) (q_n q)).
Fixpoint windows_in_order (SS : nat) T (O : Ops T) al alpha A B beta C D (l : list rect) (m : mem T) : res (mem T) :=
  match l with [] => Ok m | q :: l => m <- gemm_window SS T O al alpha A B beta C D q m ;; windows_in_order SS T O al alpha A B beta C D l m end.

Lemma arg_window_rows : forall af X r c m n, g_rows (arg_window af X r c m n) = m.
Proof. intros af [v []] r c m n; reflexivity. Qed.
Lemma arg_window_cols : forall af X r c m n, g_cols (arg_window af X r c m n) = n.
Proof. intros af [v []] r c m n; reflexivity. Qed.
Lemma arg_window_addr : forall SS af X r c m n i j, g_addr SS (arg_window af X r c m n) i j = g_addr SS X (r + i) (c + j).
Proof. intros SS af [v []] r c m n i j; unfold g_addr, v_addr, arg_window; cbn; rewrite <- !Nat.add_assoc; reflexivity. Qed.

Section Windows.
Variables (SS : nat) (T : Type) (O : Ops T) (al : alloc) (alpha beta : T) (A B C D : marg).
Hypothesis HSS : 0 < SS.
Hypothesis HP : gemm_pre SS al A B C D.
Let M := g_rows A. Let N := g_cols B. Let K := g_cols A.
Definition w_action (q : rect) : @action T :=
  Action (gemm_window SS T O al alpha A B beta C D q)
    (fun x => cells (fun i k => q_r q <= i < q_r q + q_m q /\ k < K) (g_addr SS A) x \/ cells (fun k j => k < K /\ q_c q <= j < q_c q + q_n q) (g_addr SS B) x \/
              cells (inside q) (g_addr SS C) x) (cells (inside q) (g_addr SS D)) (cells (inside q) (g_addr SS D)).
Lemma w_val : forall q m, window_pre SS al A B C D q -> exists m', gemm_window SS T O al alpha A B beta C D q m = Ok m' /\
  updated (inside q) (g_addr SS D) (fun i j => ofma O beta (m (g_addr SS C i j))
         (omul O (fma_chain O K (fun k => m (g_addr SS A i k)) (fun k => m (g_addr SS B k j)) (o0 O)) alpha)) m m'.
Proof.
  intros [af r c mm nn] m P. unfold window_pre in P. cbn [q_af q_r q_c q_m q_n] in *.
  destruct (C17_gemm_ops SS T O al alpha _ _ beta _ _ m HSS P) as (m' & E & V & F). exists m'. split; [exact E|].
  rewrite arg_window_rows, arg_window_cols in V, F. split.
  - intros i j [Hi Hj]. cbn [q_r q_c q_m q_n] in *. specialize (V (i - r) (j - c)). rewrite !arg_window_addr, arg_window_cols in V.
    replace (r + (i - r)) with i in V by lia. replace (c + (j - c)) with j in V by lia. rewrite V by (unfold block; lia). f_equal. f_equal.
    apply fma_chain_ext; intros k Hk; rewrite !arg_window_addr; do 2 f_equal; lia.
  - intros a Ha. apply F. intros i j [Hi Hj]. rewrite arg_window_addr. apply Ha. split; cbn [q_r q_c q_m q_n]; lia.
Qed.
Lemma w_confined : forall q, window_pre SS al A B C D q -> confined (w_action q).
Proof.
  intros q P. eapply confined_updated; [intros m; apply (w_val q m P)|]. cbn beta. intros m1 m2 H i j [Hi Hj].
  f_equal; [apply H; right; right; exists i, j; split; [split; auto|auto]|]. f_equal. apply fma_chain_ext; intros k Hk; apply H.
  - left. exists i, k. auto.
  - right. left. exists k, j. auto.
Qed.
Lemma w_independent : forall q q', q_r q + q_m q <= M -> q_c q + q_n q <= N -> q_r q' + q_m q' <= M -> q_c q' + q_n q' <= N ->
  (forall i j, inside q i j -> ~ inside q' i j) -> independent (w_action q) (w_action q').
Proof.
  assert (H : forall q q', q_r q + q_m q <= M -> q_c q + q_n q <= N -> q_r q' + q_m q' <= M -> q_c q' + q_n q' <= N ->
    (forall i j, inside q i j -> ~ inside q' i j) -> forall x, a_writes (w_action q) x -> ~ a_reads (w_action q') x /\ ~ a_writes (w_action q') x).
  { intros q q' B1 B2 B3 B4 Dj x (i & j & [Hi Hj] & ->). cbn [w_action a_reads a_writes].
    assert (Hb : block M N i j) by (split; lia). destruct Hb as [HiM HjN]. split.
    - intros [(i' & k & [Hi' Hk] & E)|[(k & j' & [Hk Hj'] & E)|(i' & j' & [Hi' Hj'] & E)]].
      + apply (gp_sepA _ _ _ _ _ _ HP i j i' k) in E; auto. fold M. lia.
      + apply (gp_sepB _ _ _ _ _ _ HP i j k j') in E; auto; [rewrite (gp_szB _ _ _ _ _ _ HP); auto|fold N; lia].
      + apply (gp_sepC _ _ _ _ _ _ HP i j i' j') in E; [|split; auto|split; [fold M|fold N]; lia]. destruct E as [<- <-]. apply (Dj i j); split; auto.
    - intros (i' & j' & [Hi' Hj'] & E). apply (g_distinct SS HSS D (gp_D _ _ _ _ _ _ HP)) in E;
        rewrite ?(proj1 (gp_szD _ _ _ _ _ _ HP)), ?(proj2 (gp_szD _ _ _ _ _ _ HP)); fold M N; try lia.
      destruct E as [<- <-]. apply (Dj i j); split; auto. }
  intros q q' B1 B2 B3 B4 Dj x. split; apply H; auto. intros i j H1 H2. apply (Dj i j); auto.
Qed.
End Windows.

Lemma ordpairs_map : forall A B (f : A -> B) (R : B -> B -> Prop) l, ForallOrdPairs (fun x y => R (f x) (f y)) l -> ForallOrdPairs R (map f l).
Proof.
  intros A B f R l H. induction H as [|x l H1 H2 IH]; cbn; constructor; auto. rewrite Forall_map. exact H1.
Qed.
Lemma ordpairs_impl : forall A (P Q : A -> A -> Prop) l, (forall x y, In x l -> In y l -> P x y -> Q x y) -> ForallOrdPairs P l -> ForallOrdPairs Q l.
Proof.
  intros A P Q l. induction l as [|x l IH]; intros H F; [constructor|]. inversion F as [|? ? F1 F2]; subst. rewrite Forall_forall in F1. constructor.
  - rewrite Forall_forall. intros y Hy. apply H; cbn; auto.
  - apply IH; auto. intros a b Ha Hb. apply H; cbn; auto.
Qed.

(** Computing D window by window, in whatever order and with whatever sizes of the windows, leaves exactly the same memory as one call: the result of an element
    does not depend on the kernel it is computed by. *)
Theorem C61_gemm_by_windows : forall SS T (O : Ops T) al alpha A B beta C D (l : list rect) m, 0 < SS -> gemm_pre SS al A B C D ->
  let M := g_rows A in let N := g_cols B in
  (forall q, In q l -> window_pre SS al A B C D q /\ q_r q + q_m q <= M /\ q_c q + q_n q <= N) ->
  ForallOrdPairs (fun q q' => forall i j, inside q i j -> ~ inside q' i j) l ->
  (forall i j, i < M -> j < N -> exists q, In q l /\ inside q i j) ->
  exists m1 m2, gemm SS T O al alpha A B beta C D m = Ok m1 /\ windows_in_order SS T O al alpha A B beta C D l m = Ok m2 /\ forall a, m1 a = m2 a.
Proof.
  intros SS T O al alpha A B beta C D l m HSS HP M N HW HD HC.
  destruct (C17_gemm_ops SS T O al alpha A B beta C D m HSS HP) as (m1 & E1 & V1 & F1).
  destruct (C61_batch (map (w_action SS T O al alpha beta A B C D) l) m) as (m2 & E2 & V2 & F2).
  - rewrite Forall_map, Forall_forall. intros q Hq. apply w_confined; auto. apply HW; auto.
  - apply ordpairs_map. eapply ordpairs_impl; [|exact HD]. intros q q' Hq Hq' Dj. cbn beta in *. destruct (HW q Hq) as (_ & ? & ?), (HW q' Hq') as (_ & ? & ?).
    apply w_independent; auto.
  - exists m1, m2. split; auto. split.
    + rewrite <- E2. clear. revert m. induction l as [|q l IH]; intros m; cbn [map in_order windows_in_order]; auto. cbn [w_action a_op].
      destruct (gemm_window SS T O al alpha A B beta C D q m); cbn [bind]; auto.
    + intros a. destruct (block_dec M N (g_addr SS D) a) as [(i & j & Hi & Hj & ->)|Hn].
      * destruct (HC i j Hi Hj) as (q & Hq & Hin). destruct (HW q Hq) as (P & _).
        destruct (V2 (w_action SS T O al alpha beta A B C D q) (in_map _ _ _ Hq)) as (mc & Ec & Q). cbn [w_action a_op a_result] in *.
        destruct (w_val SS T O al alpha beta A B C D HSS q m P) as (mc' & Ec' & Vc & _).
        pose proof (eq_trans (eq_sym Ec) Ec') as X. injection X as ->.
        rewrite Q by (exists i, j; auto). rewrite V1, Vc by (auto; split; auto). reflexivity.
      * rewrite F1 by (intros i j [Hi Hj]; auto). symmetry. apply F2. intros c Hc. apply in_map_iff in Hc. destruct Hc as (q & <- & Hq).
        destruct (HW q Hq) as (_ & B1 & B2). cbn [w_action a_writes]. intros (i & j & [Hi Hj] & E). apply (Hn i j); auto; lia.
Qed.

(* ------------------------------------------------------------------ concrete cases *)
(** A 6-by-2 at 0, B 2-by-3 at 16, C = D 6-by-3 at 32, in three windows. *)
Definition wA := MArg (whole (Cont Dense false columnMajor 6 2 0)) false.
Definition wB := MArg (whole (Cont Dense false columnMajor 2 3 16)) false.
Definition wD := MArg (whole (Cont Dense false columnMajor 6 3 32)) false.
Definition w_al (x : nat) : bool := x <? 64.
Definition w_l := [Rect true 4 0 2 3; Rect true 0 2 4 1; Rect true 0 0 4 2].
Lemma wA_at : forall i j, g_addr 4 wA i j = i + 8 * j. Proof. intros. cbn. lia. Qed.
Lemma wB_at : forall i j, g_addr 4 wB i j = 16 + i + 4 * j. Proof. intros. cbn. lia. Qed.
Lemma wD_at : forall i j, g_addr 4 wD i j = 32 + i + 8 * j. Proof. intros. cbn. lia. Qed.
Lemma w_pre : forall af r c m n, (r = 0 \/ r = 4) -> r + m <= 6 -> c + n <= 3 ->
  window_pre 4 w_al wA wB wD wD (Rect af r c m n).
Proof.
  intros af r c m n Hr Hm Hn. unfold window_pre. cbn [q_af q_r q_c q_m q_n].
  assert (NM : nextMultiple m 4 <= 8 /\ (r = 4 -> nextMultiple m 4 <= 4)).
  { split; [apply nextMultiple_least; [lia|lia|reflexivity]|intros ->; apply nextMultiple_least; [lia|lia|reflexivity]]. }
  constructor; rewrite ?arg_window_rows, ?arg_window_cols; try reflexivity; try (split; reflexivity); try (intros X; discriminate X);
    try (unfold arg_ok, arg_window, subsubmatrix; cbn [g_trans g_view wA wB wD whole v_cont v_i v_j v_m v_n v_af c_kind c_rows c_cols c_base c_so];
         repeat split; try lia; try (intros _; destruct Hr as [->| ->]; reflexivity); fail).
  all: try (intros i j Hi Hj; rewrite arg_window_addr, ?wA_at, ?wB_at, ?wD_at; change (g_cols wA) with 2 in *; change (g_rows wB) with 2 in *; apply Nat.ltb_lt; lia).
  all: change (g_cols wA) with 2 in *; change (g_rows wB) with 2 in *.
  - split; [reflexivity|]. cbn. split; [lia|]. split; [lia|]. intros _. destruct Hr as [->| ->]; reflexivity.
  - split; [reflexivity|]. cbn. split; [lia|]. split; [lia|]. intros _. reflexivity.
  - intros i j i' j' Hi Hj Hi' Hj'. rewrite !arg_window_addr, wA_at, wD_at. lia.
  - intros i j i' j' Hi Hj Hi' Hj'. rewrite !arg_window_addr, wB_at, wD_at. lia.
  - intros i j i' j' [Hi Hj] [Hi' Hj']. rewrite !arg_window_addr, !wD_at. lia.
Qed.
Lemma w_pre0 : gemm_pre 4 w_al wA wB wD wD.
Proof.
  pose proof (w_pre true 0 0 6 3 (or_introl eq_refl) ltac:(lia) ltac:(lia)) as P.
  destruct P; constructor; assumption.
Qed.

Example C61_example_windows : gemm_pre 4 w_al wA wB wD wD /\
  (forall q, In q w_l -> window_pre 4 w_al wA wB wD wD q /\ q_r q + q_m q <= 6 /\ q_c q + q_n q <= 3) /\
  ForallOrdPairs (fun q q' => forall i j, inside q i j -> ~ inside q' i j) w_l /\
  (forall i j, i < 6 -> j < 3 -> exists q, In q w_l /\ inside q i j) /\
  match gemm 4 Z zops w_al 2%Z wA wB 3%Z wD wD Z.of_nat, windows_in_order 4 Z zops w_al 2%Z wA wB 3%Z wD wD w_l Z.of_nat with
  | Ok m1, Ok m2 => map m1 (seq 0 64) = map m2 (seq 0 64) /\ m1 (g_addr 4 wD 5 2) = 1049%Z
  | _, _ => False end.
Proof.
  split; [exact w_pre0|]. split; [|split; [|split]].
  - intros q [<-|[<-|[<-|[]]]]; cbn [q_r q_c q_m q_n]; split; try lia; apply w_pre; lia.
  - repeat constructor; unfold inside; cbn; intros; lia.
  - intros i j Hi Hj. unfold w_l, inside. destruct (Nat.lt_ge_cases i 4); [destruct (Nat.lt_ge_cases j 2)|].
    + exists (Rect true 0 0 4 2). cbn. split; [auto|lia].
    + exists (Rect true 0 2 4 1). cbn. split; [auto|lia].
    + exists (Rect true 4 0 2 3). cbn. split; [auto|lia].
  - vm_compute. auto.
Qed.
(** The padding rows of potrf: with a second call that writes only rows below the window the order of the calls matters. *)
Definition below : marg := MArg (submatrix false par_L 5 0 3 4) false.
Theorem C61_potrf_padding_refuted :
  let potrf := potrf_dense 4 1 4 Z zops (fun x => x <? 64) (submatrix true par_A 0 0 5 4) (submatrix true par_L 0 0 5 4) in
  let copy := m_assign 4 Z (fun x => x <? 64) below (MArg (submatrix false par_A 2 0 3 4) false) in
  (forall i j i' j', i < 5 -> j < 4 -> i' < 3 -> j' < 4 -> v_addr 4 (submatrix true par_L 0 0 5 4) i j <> g_addr 4 below i' j') /\
  match (m <- potrf par_m ;; copy m), (m <- copy par_m ;; potrf m) with
  | Ok m1, Ok m2 => m1 (g_addr 4 below 0 2) = 1%Z /\ m2 (g_addr 4 below 0 2) = 0%Z
  | _, _ => False end.
Proof.
  cbv zeta. split.
  - intros i j i' j' Hi Hj Hi' Hj'. unfold below, g_addr, v_addr. cbn. lia.
  - vm_compute. auto.
Qed.
(** Two independent calls. *)
Example C61_example_pair : exists c d : @action Z, confined c /\ confined d /\ independent c d /\ (exists x, a_result c x) /\ (exists x, a_result d x).
Proof.
  exists (w_action 4 Z zops w_al 2%Z 3%Z wA wB wD wD (Rect true 4 0 2 3)), (w_action 4 Z zops w_al 2%Z 3%Z wA wB wD wD (Rect true 0 2 4 1)).
  split; [apply w_confined; [lia|apply w_pre; lia]|]. split; [apply w_confined; [lia|apply w_pre; lia]|]. split.
  - apply w_independent; try (cbn; lia). exact w_pre0. unfold inside. cbn. lia.
  - split; [exists (g_addr 4 wD 4 0), 4, 0|exists (g_addr 4 wD 0 2), 0, 2]; unfold inside; cbn; lia.
Qed.
