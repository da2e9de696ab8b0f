(** Properties_Footprint2.v -- C61 for the row-major ger and the reference routines. *)
From Coq Require Import Arith Lia List Bool PeanoNat ZArith.
From Verif Require Import Base Base_Proofs Spec Footprint_Spec Algebra_Proofs Instances Layout_Model Layout_Proofs Simd_Model Simd_Proofs Vec_Proofs Ger_Proofs Tile_Model Arg_Proofs Gemm_Model Properties_Gemm Ger_Model Properties_Ger
  Tri_Model LU_Model LU_Theory LU_Proofs LU_Row_Proofs Ref_Model Ref_Proofs Container_Model Properties_Ref Properties_Footprint.
Import ListNotations.

(** The row-major ger reads x, y, A and writes B. *)
Theorem C61_ger_row_major : forall SS T (O : Ops T) al alpha x y A B, 0 < SS ->
  arg_ok SS B -> g_rows A = x_size x -> g_cols A = x_size y -> g_rows B = x_size x -> g_cols B = x_size y ->
  (forall i, i < x_size x -> al (vaddr SS (x_ptr x) i) = true) ->
  (forall j, j < x_size y -> al (vaddr SS (x_ptr y) j) = true) ->
  allocated al (x_size x) (x_size y) (g_addr SS A) -> allocated al (x_size x) (x_size y) (g_addr SS B) ->
  (forall i j k, i < x_size x -> j < x_size y -> k < x_size x -> g_addr SS B i j <> vaddr SS (x_ptr x) k) ->
  (forall i j k, i < x_size x -> j < x_size y -> k < x_size y -> g_addr SS B i j <> vaddr SS (x_ptr y) k) ->
  (forall i j i' j', block (x_size x) (x_size y) i j -> block (x_size x) (x_size y) i' j' ->
              g_addr SS B i j = g_addr SS A i' j' -> i = i' /\ j = j') ->
  confined (Action (ger_rm SS T O al alpha x y A B)
    (fun a => (exists i, i < x_size x /\ a = vaddr SS (x_ptr x) i) \/ (exists j, j < x_size y /\ a = vaddr SS (x_ptr y) j) \/
              cells (block (x_size x) (x_size y)) (g_addr SS A) a)
    (cells (block (x_size x) (x_size y)) (g_addr SS B)) (cells (block (x_size x) (x_size y)) (g_addr SS B))).
Proof.
  intros SS T O al alpha x y A B HSS hB zA1 zA2 zB1 zB2 ax ay aA aB xx xy xA.
  eapply confined_updated; [intros m; apply (C23_ger_row_major SS T O al alpha x y A B m); auto|]. cbn beta.
  intros m1 m2 H i j [Hi Hj]. f_equal; [apply H; right; right; apply cells_block; auto|].
  f_equal; [f_equal; apply H; left; eauto|apply H; right; left; eauto].
Qed.
(** The reference axpy reads A and B and writes C, which may be A or B. *)
Theorem C61_ref_axpy : forall SS T (O : Ops T) al alpha A B C, 0 < SS -> arg_ok SS A -> arg_ok SS B -> arg_ok SS C ->
  g_rows A = g_rows C -> g_cols A = g_cols C -> g_rows B = g_rows C -> g_cols B = g_cols C ->
  let M := g_rows C in let N := g_cols C in
  allocated al M N (g_addr SS A) -> allocated al M N (g_addr SS B) -> allocated al M N (g_addr SS C) ->
  (forall i j i' j', block M N i j -> block M N i' j' -> g_addr SS C i j = g_addr SS A i' j' -> i = i' /\ j = j') ->
  (forall i j i' j', block M N i j -> block M N i' j' -> g_addr SS C i j = g_addr SS B i' j' -> i = i' /\ j = j') ->
  confined (Action (ref_axpy SS T O al alpha A B C)
    (fun x => cells (block M N) (g_addr SS A) x \/ cells (block M N) (g_addr SS B) x)
    (cells (block M N) (g_addr SS C)) (cells (block M N) (g_addr SS C))).
Proof.
  intros SS T O al alpha A B C HSS hA hB hC z1 z2 z3 z4 M N aA aB aC xA xB.
  eapply confined_updated; [intros m; apply (C38_axpy_ops SS T O al alpha A B C m); auto|]. cbn beta.
  intros m1 m2 H i j [Hi Hj]. f_equal; [f_equal|]; apply H; [left|right]; apply cells_block; auto.
Qed.
(** The reference ger reads x, y, A and writes B. *)
Theorem C61_ref_ger : forall SS T (O : Ops T) al M N alpha x y A B, 0 < SS ->
  vec_ok SS x -> vec_ok SS y -> mptr_wf SS A -> mptr_wf SS B ->
  (forall i, i < M -> al (vaddr SS x i) = true) -> (forall j, j < N -> al (vaddr SS y j) = true) ->
  allocated al M N (addr SS A) -> allocated al M N (addr SS B) -> distinct M N (addr SS B) ->
  (forall i j k, i < M -> j < N -> k < M -> addr SS B i j <> vaddr SS x k) ->
  (forall i j k, i < M -> j < N -> k < N -> addr SS B i j <> vaddr SS y k) ->
  (forall i j i' j', block M N i j -> block M N i' j' -> addr SS B i j = addr SS A i' j' -> i = i' /\ j = j') ->
  confined (Action (ref_ger_ptr SS T O al M N alpha x y A B)
    (fun a => (exists i, i < M /\ a = vaddr SS x i) \/ (exists j, j < N /\ a = vaddr SS y j) \/ cells (block M N) (addr SS A) a)
    (cells (block M N) (addr SS B)) (cells (block M N) (addr SS B))).
Proof.
  intros SS T O al M N alpha x y A B HSS hx hy hA hB ax ay aA aB dB xx xy xA.
  eapply confined_updated; [intros m; apply (C38_ger_ops SS T O al M N alpha x y A B m); auto|]. cbn beta.
  intros m1 m2 H i j [Hi Hj]. f_equal; [apply H; right; right; apply cells_block; auto|].
  f_equal; [f_equal; apply H; left; eauto|apply H; right; left; eauto].
Qed.
(** The stored part of a triangular matrix: the strict triangle, and the diagonal unless it is a unit diagonal. *)
Definition stored (n : nat) (ul : uplo) (unit : bool) (i k : nat) : Prop :=
  i < n /\ k < n /\ ((match ul with Lower => k < i | Upper => i < k end) \/ (unit = false /\ i = k)).

(** The reference trmm reads the stored triangle of A and all of B, and writes C, which may be B. *)
Theorem C61_ref_trmm_left : forall SS T (O : Ops T) al alpha A ul unit B C, 0 < SS -> rtri_pre SS al (g_rows B) ul unit A B C ->
  let M := g_rows B in let N := g_cols B in
  confined (Action (ref_trmmL SS T O al alpha A ul unit B C)
    (fun x => cells (stored M ul unit) (g_addr SS A) x \/ cells (block M N) (g_addr SS B) x)
    (cells (block M N) (g_addr SS C)) (cells (block M N) (g_addr SS C))).
Proof.
  intros SS T O al alpha A ul unit B C HSS P M N.
  eapply confined_updated; [intros m; apply (C38_trmm_left_ops SS T O al alpha A ul unit B C m HSS P)|]. cbv beta zeta.
  intros m1 m2 H i j [Hi Hj]. f_equal.
  assert (Q : forall k, k < M -> match ul with Lower => k <= i | Upper => i <= k end ->
    (if unit && (k =? i) then m1 (g_addr SS B k j) else omul O (m1 (g_addr SS A i k)) (m1 (g_addr SS B k j)))
    = (if unit && (k =? i) then m2 (g_addr SS B k j) else omul O (m2 (g_addr SS A i k)) (m2 (g_addr SS B k j)))).
  { intros k Hk Hu. rewrite (H (g_addr SS B k j)) by (right; apply cells_block; auto).
    destruct unit; cbn [andb].
    - destruct (Nat.eqb_spec k i); auto. f_equal. apply H. left. exists i, k. split; auto. repeat split; auto. left. destruct ul; lia.
    - f_equal. apply H. left. exists i, k. split; auto. repeat split; auto. destruct (Nat.eq_dec i k); [right; auto|left; destruct ul; lia]. }
  destruct ul; apply sum_ext; intros k Hk; apply Q; lia.
Qed.
Theorem C61_ref_trmm_right : forall SS T (O : Ops T) al alpha A ul unit B C, 0 < SS -> rtri_pre SS al (g_cols B) ul unit A B C ->
  let M := g_rows B in let N := g_cols B in
  confined (Action (ref_trmmR SS T O al alpha B A ul unit C)
    (fun x => cells (stored N ul unit) (g_addr SS A) x \/ cells (block M N) (g_addr SS B) x)
    (cells (block M N) (g_addr SS C)) (cells (block M N) (g_addr SS C))).
Proof.
  intros SS T O al alpha A ul unit B C HSS P M N.
  eapply confined_updated; [intros m; apply (C38_trmm_right_ops SS T O al alpha A ul unit B C m HSS P)|]. cbv beta zeta.
  intros m1 m2 H i j [Hi Hj]. f_equal.
  assert (Q : forall k, k < N -> match ul with Lower => j <= k | Upper => k <= j end ->
    (if unit && (k =? j) then m1 (g_addr SS B i k) else omul O (m1 (g_addr SS B i k)) (m1 (g_addr SS A k j)))
    = (if unit && (k =? j) then m2 (g_addr SS B i k) else omul O (m2 (g_addr SS B i k)) (m2 (g_addr SS A k j)))).
  { intros k Hk Hu. rewrite (H (g_addr SS B i k)) by (right; apply cells_block; auto).
    destruct unit; cbn [andb].
    - destruct (Nat.eqb_spec k j); auto. f_equal. apply H. left. exists k, j. split; auto. repeat split; auto. left. destruct ul; lia.
    - f_equal. apply H. left. exists k, j. split; auto. repeat split; auto. destruct (Nat.eq_dec k j); [right; auto|left; destruct ul; lia]. }
  destruct ul; apply sum_ext; intros k Hk; apply Q; lia.
Qed.

(** What each element determines by the elements before it (after it) is determined altogether. *)
Lemma tri_det : forall (T : Type) (up : bool) n (a b : nat -> T),
  (forall i, i < n -> (forall k, k < n -> (if up then i < k else k < i) -> a k = b k) -> a i = b i) -> forall i, i < n -> a i = b i.
Proof.
  intros T [|] n a b H i Hi.
  - remember (n - i) as d eqn:Ed. revert i Ed Hi. induction d as [d IH] using lt_wf_ind. intros i Ed Hi. apply H; auto.
    intros k Hk Hik. apply (IH (n - k)); lia.
  - revert Hi. induction i as [i IH] using lt_wf_ind. intros Hi. apply H; auto.
Qed.

(** The reference trsm reads the stored triangle of A and all of B, and writes X, which may be B. *)
Theorem C61_ref_trsm_left : forall SS T (O : Ops T) al A ul unit X alpha B, 0 < SS -> rtri_pre SS al (g_rows B) ul unit A B X ->
  let M := g_rows B in let N := g_cols B in
  confined (Action (ref_trsmL SS T O al A ul unit X alpha B)
    (fun x => cells (stored M ul unit) (g_addr SS A) x \/ cells (block M N) (g_addr SS B) x)
    (cells (block M N) (g_addr SS X)) (cells (block M N) (g_addr SS X))).
Proof.
  intros SS T O al A ul unit X alpha B HSS P M N. split; [auto|]. cbn [a_op a_reads a_writes a_result]. intros m1 m2 HR.
  destruct (C38_trsm_left_ops SS T O al A ul unit X alpha B m1 HSS P) as (m1' & E1 & V1 & F1).
  destruct (C38_trsm_left_ops SS T O al A ul unit X alpha B m2 HSS P) as (m2' & E2 & V2 & F2). exists m1', m2'. fold M N in V1, V2, F1, F2.
  cbv zeta in V1, V2.
  assert (HA : forall i k, stored M ul unit i k -> m1 (g_addr SS A i k) = m2 (g_addr SS A i k)).
  { intros i k Hs. apply HR. left. exists i, k. auto. }
  assert (HB : forall i j, i < M -> j < N -> m1 (g_addr SS B i j) = m2 (g_addr SS B i j)).
  { intros i j Hi Hj. apply HR. right. apply cells_block; auto. }
  assert (EQ : forall j, j < N -> forall i, i < M -> m1' (g_addr SS X i j) = m2' (g_addr SS X i j)).
  { intros j Hj. apply (tri_det T (match ul with Upper => true | Lower => false end)). intros i Hi IH.
    rewrite V1, V2 by auto. rewrite HB by auto. clear V1 V2 F1 F2 E1 E2.
    assert (IH' : forall k, k < M -> match ul with Lower => k < i | Upper => i < k end -> m1' (g_addr SS X k j) = m2' (g_addr SS X k j)).
    { intros k Hk Hu. apply IH; auto. destruct ul; auto. }
    assert (DG : unit = false -> m1 (g_addr SS A i i) = m2 (g_addr SS A i i)) by (intros; apply HA; repeat split; auto).
    assert (ST : forall k, k < M -> match ul with Lower => k < i | Upper => i < k end -> m1 (g_addr SS A i k) = m2 (g_addr SS A i k))
      by (intros; apply HA; repeat split; auto).
    destruct ul.
    - rewrite (sub_chain_ext O i _ _ (fun k => m2 (g_addr SS A i k)) (fun k => m2' (g_addr SS X k j))) by (intros k Hk; first [apply ST | apply IH']; lia).
      destruct unit; auto. rewrite DG; auto.
    - rewrite (sub_chain_ext O (M - (i + 1)) _ _ (fun c => m2 (g_addr SS A i (i + 1 + c))) (fun c => m2' (g_addr SS X (i + 1 + c) j)))
        by (intros k Hk; first [apply ST | apply IH']; lia).
      destruct unit; auto. rewrite DG; auto. }
  repeat split; auto.
  - intros x (i & j & [Hi Hj] & ->). auto.
  - intros x Hx. apply F1. intros i j Hi Hj E. apply Hx. exists i, j. unfold block. auto.
  - intros x Hx. apply F2. intros i j Hi Hj E. apply Hx. exists i, j. unfold block. auto.
Qed.
Theorem C61_ref_trsm_right : forall SS T (O : Ops T) al A ul unit X alpha B, 0 < SS -> rtri_pre SS al (g_cols B) ul unit A B X ->
  let M := g_rows B in let N := g_cols B in
  confined (Action (ref_trsmR SS T O al X A ul unit alpha B)
    (fun x => cells (stored N ul unit) (g_addr SS A) x \/ cells (block M N) (g_addr SS B) x)
    (cells (block M N) (g_addr SS X)) (cells (block M N) (g_addr SS X))).
Proof.
  intros SS T O al A ul unit X alpha B HSS P M N. split; [auto|]. cbn [a_op a_reads a_writes a_result]. intros m1 m2 HR.
  destruct (C38_trsm_right_ops SS T O al A ul unit X alpha B m1 HSS P) as (m1' & E1 & V1 & F1).
  destruct (C38_trsm_right_ops SS T O al A ul unit X alpha B m2 HSS P) as (m2' & E2 & V2 & F2). exists m1', m2'. fold M N in V1, V2, F1, F2.
  cbv zeta in V1, V2.
  assert (HA : forall i k, stored N ul unit i k -> m1 (g_addr SS A i k) = m2 (g_addr SS A i k)).
  { intros i k Hs. apply HR. left. exists i, k. auto. }
  assert (HB : forall i j, i < M -> j < N -> m1 (g_addr SS B i j) = m2 (g_addr SS B i j)).
  { intros i j Hi Hj. apply HR. right. apply cells_block; auto. }
  assert (EQ : forall i, i < M -> forall j, j < N -> m1' (g_addr SS X i j) = m2' (g_addr SS X i j)).
  { intros i Hi. apply (tri_det T (match ul with Upper => false | Lower => true end)). intros j Hj IH.
    rewrite V1, V2 by auto. rewrite HB by auto. clear V1 V2 F1 F2 E1 E2.
    assert (IH' : forall k, k < N -> match ul with Upper => k < j | Lower => j < k end -> m1' (g_addr SS X i k) = m2' (g_addr SS X i k)).
    { intros k Hk Hu. apply IH; auto. destruct ul; auto. }
    assert (DG : unit = false -> m1 (g_addr SS A j j) = m2 (g_addr SS A j j)) by (intros; apply HA; repeat split; auto).
    assert (ST : forall k, k < N -> match ul with Upper => k < j | Lower => j < k end -> m1 (g_addr SS A k j) = m2 (g_addr SS A k j))
      by (intros; apply HA; repeat split; auto).
    destruct ul.
    - rewrite (sub_chain_ext O (N - (j + 1)) _ _ (fun c => m2' (g_addr SS X i (j + 1 + c))) (fun c => m2 (g_addr SS A (j + 1 + c) j)))
        by (intros k Hk; first [apply ST | apply IH']; lia).
      destruct unit; auto. rewrite DG; auto.
    - rewrite (sub_chain_ext O j _ _ (fun k => m2' (g_addr SS X i k)) (fun k => m2 (g_addr SS A k j))) by (intros k Hk; first [apply ST | apply IH']; lia).
      destruct unit; auto. rewrite DG; auto. }
  repeat split; auto.
  - intros x (i & j & [Hi Hj] & ->). auto.
  - intros x Hx. apply F1. intros i j Hi Hj E. apply Hx. exists i, j. unfold block. auto.
  - intros x Hx. apply F2. intros i j Hi Hj E. apply Hx. exists i, j. unfold block. auto.
Qed.

(** The row-major getrf reads and writes A (and does not look at it when choosing the pivots: they are 0, 1, 2, ...). *)
Theorem C61_getrf_row_major : forall T (O : Ops T) al A p, distinct (d_m A) (d_n A) (d_at A) -> allocated al (d_m A) (d_n A) (d_at A) ->
  let F := cells (block (d_m A) (d_n A)) (d_at A) in
  confined (Action (fun m => s <- getrf_rm T O al A (m, p) ;; Ok (fst s)) F F F) /\
  forall m m' q, getrf_rm T O al A (m, p) = Ok (m', q) -> forall i, q i = if i <? min (d_m A) (d_n A) then i else p i.
Proof.
  intros T O al A p D AL F. split.
  - eapply confined_updated.
    + intros m. destruct (getrf_rm_ok T O al A D AL m p) as (m' & q & E & U & _). exists m'. rewrite E. split; [reflexivity|exact U].
    + intros m1 m2 H i j [Hi Hj]. apply (lu_ext O (el_sub O) (fun l => l) (fun l => l) _ _ _ (d_m A) (d_n A)); auto; try lia.
      intros i' j' Hi' Hj'. apply H. apply cells_block; auto.
  - intros m m' q E. destruct (getrf_rm_ok T O al A D AL m p) as (r & s & E1 & _ & Q). pose proof (eq_trans (eq_sym E1) E) as X. injection X as _ <-. auto.
Qed.

(* ------------------------------------------------------------------ example *)
(** The operands of C38_example: a 3-by-3 triangle and a 3-by-2 matrix multiplied and solved for in place, as a call with a footprint; the diagonal
    (addresses 0, 5, 10) of a unit triangle is not part of it. *)
Example C61_example_ref :
  (forall ul unit, confined (Action (ref_trmmL 4 Z zops r_al 2%Z (MArg (whole rA) false) ul unit (MArg (whole rB) false) (MArg (whole rB) false))
     (fun x => cells (stored 3 ul unit) (g_addr 4 (MArg (whole rA) false)) x \/ cells (block 3 2) (g_addr 4 (MArg (whole rB) false)) x)
     (cells (block 3 2) (g_addr 4 (MArg (whole rB) false))) (cells (block 3 2) (g_addr 4 (MArg (whole rB) false))))) /\
  cells (stored 3 Lower false) (g_addr 4 (MArg (whole rA) false)) (g_addr 4 (MArg (whole rA) false) 1 1) /\
  ~ cells (stored 3 Lower true) (g_addr 4 (MArg (whole rA) false)) (g_addr 4 (MArg (whole rA) false) 1 1).
Proof.
  split; [|split].
  - intros ul unit. exact (C61_ref_trmm_left 4 Z zops r_al 2%Z (MArg (whole rA) false) ul unit (MArg (whole rB) false) (MArg (whole rB) false) ltac:(lia) (C38_example ul unit)).
  - exists 1, 1. unfold stored. repeat split; auto.
  - intros (i & k & (Hi & Hk & [H|[H _]]) & E); [|discriminate].
    assert (HA : arg_ok 4 (MArg (whole rA) false)) by (cbv; repeat split; auto; lia).
    apply (g_distinct 4 ltac:(lia) _ HA 1 1 i k) in E; cbn; lia.
Qed.
