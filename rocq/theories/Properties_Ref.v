(** Properties_Ref.v -- C38: the reference kernels; C39: the optimised kernels agree with them. *)
From Coq Require Import Arith Lia List Bool PeanoNat ZArith.
From Verif Require Import Base Base_Proofs Spec Algebra_Proofs Instances Layout_Model Layout_Proofs Simd_Model Simd_Proofs Reg_Model Vec_Proofs
  Tile_Model Gemm_Model Gemm_Proofs Arg_Proofs Ger_Model Ger_Proofs Scan_Proofs Tri_Model Tri_Proofs Ref_Model Ref_Proofs
  Trmm_Model Properties_Gemm Properties_Ger Properties_Trmm Properties_Tri Properties_DynReg.
Import ListNotations.

(* ------------------------------------------------------------------ gemm *)
(** Operands: any storage orders, alignments and windows; D is C or does not overlap it; D does not overlap A or B. *)
Record rgemm_pre (SS : nat) (al : alloc) (A B C D : marg) : Prop := {
  rg_A : arg_ok SS A; rg_B : arg_ok SS B; rg_C : arg_ok SS C; rg_D : arg_ok SS D;
  rg_szB : g_rows B = g_cols A; rg_szC : g_rows C = g_rows A /\ g_cols C = g_cols B; rg_szD : g_rows D = g_rows A /\ g_cols D = g_cols B;
  rg_alA : allocated al (g_rows A) (g_cols A) (g_addr SS A); rg_alB : allocated al (g_rows B) (g_cols B) (g_addr SS B);
  rg_alC : allocated al (g_rows A) (g_cols B) (g_addr SS C); rg_alD : allocated al (g_rows A) (g_cols B) (g_addr SS D);
  rg_sepA : separate (g_rows A) (g_cols B) (g_addr SS D) (g_rows A) (g_cols A) (g_addr SS A);
  rg_sepB : separate (g_rows A) (g_cols B) (g_addr SS D) (g_rows B) (g_cols B) (g_addr SS B);
  rg_sepC : forall i j i' j', block (g_rows A) (g_cols B) i j -> block (g_rows A) (g_cols B) i' j' ->
              g_addr SS D i j = g_addr SS C i' j' -> i = i' /\ j = j'
}.

Theorem C38_gemm_ops : forall SS T (O : Ops T) al alpha A B beta C D m, 0 < SS -> rgemm_pre SS al A B C D ->
  exists m', ref_gemm SS T O al alpha A B beta C D m = Ok m' /\
    updated (block (g_rows A) (g_cols B)) (g_addr SS D)
      (fun i j => oadd O (omul O alpha (add_chain O (g_cols A) (fun k => m (g_addr SS A i k)) (fun k => m (g_addr SS B k j)) (o0 O)))
                         (omul O beta (m (g_addr SS C i j)))) m m'.
Proof.
  intros SS T O al alpha A B beta C D m HSS [hA hB hC hD zB [zC1 zC2] [zD1 zD2] aA aB aC aD xA xB xC].
  unfold ref_gemm. rewrite zB, zC1, zC2, zD1, zD2, !Nat.eqb_refl. cbn [negb orb]. unfold ref_gemm_ptr.
  eapply (scan2_ok T al _ _ (g_addr SS D)).
  - intros i j i' j' Hi Hj Hi' Hj'. apply (g_distinct SS HSS D hD); lia.
  - intros i j m1 Hi Hj [_ U].
    match goal with |- (v <- for_ 0 ?K ?f ?s ;; _) = _ =>
      destruct (for_inv T (fun k r => r = add_chain O k (fun k => m (g_addr SS A i k)) (fun k => m (g_addr SS B k j)) (o0 O)) 0 K f s) as (r & -> & ->) end; auto.
    + lia.
    + intros k s Hk ->. rewrite !deref_g by auto. rewrite !rd_ok by (apply aA || apply aB; lia). cbn [bind].
      eexists. split; [reflexivity|]. cbn [add_chain]. do 2 f_equal.
      * apply U. intros i' j' Hb. apply not_eq_sym. apply xA; unfold before in Hb; lia.
      * apply U. intros i' j' Hb. apply not_eq_sym. apply xB; unfold before in Hb; lia.
    + cbn [bind]. rewrite !deref_g, rd_ok by auto. cbn [bind]. rewrite wr_ok by auto. do 3 f_equal. f_equal.
      apply U. intros i' j' Hb Q. symmetry in Q. apply xC in Q; unfold block, before in *; lia.
Qed.
Theorem C38_gemm_ring : forall SS T (O : Ops T) al alpha A B beta C D m, 0 < SS -> ring_laws O -> rgemm_pre SS al A B C D ->
  exists m', ref_gemm SS T O al alpha A B beta C D m = Ok m' /\
    updated (block (g_rows A) (g_cols B)) (g_addr SS D)
      (fun i j => oadd O (omul O alpha (sum O (g_cols A) (fun k => omul O (m (g_addr SS A i k)) (m (g_addr SS B k j)))))
                         (omul O beta (m (g_addr SS C i j)))) m m'.
Proof.
  intros SS T O al alpha A B beta C D m HSS RL P.
  destruct (C38_gemm_ops SS T O al alpha A B beta C D m HSS P) as (m' & E & U1 & U2).
  exists m'. split; auto. split; auto. intros i j Hij. rewrite U1 by auto. rewrite (add_chain_sum O RL), (rl_add_0 O RL). reflexivity.
Qed.
Theorem C38_gemm_throws : forall SS T (O : Ops T) al alpha A B beta C D m,
  g_rows B <> g_cols A \/ g_rows C <> g_rows A \/ g_cols C <> g_cols B \/ g_rows D <> g_rows A \/ g_cols D <> g_cols B ->
  ref_gemm SS T O al alpha A B beta C D m = Throw InvalidArgument.
Proof.
  intros SS T O al alpha A B beta C D m H. unfold ref_gemm.
  destruct (Nat.eqb_spec (g_rows B) (g_cols A)); cbn [negb orb]; auto.
  destruct (Nat.eqb_spec (g_rows C) (g_rows A)), (Nat.eqb_spec (g_cols C) (g_cols B)); cbn [negb orb]; auto.
  destruct (Nat.eqb_spec (g_rows D) (g_rows A)), (Nat.eqb_spec (g_cols D) (g_cols B)); cbn [negb orb]; auto. tauto.
Qed.

(* ------------------------------------------------------------------ axpy *)
(** C = alpha*A + B; C may be A, B, or both. *)
Theorem C38_axpy_ops : forall SS T (O : Ops T) al alpha A B C m, 0 < SS -> arg_ok SS A -> arg_ok SS B -> arg_ok SS C ->
  g_rows A = g_rows C -> g_cols A = g_cols C -> g_rows B = g_rows C -> g_cols B = g_cols C ->
  allocated al (g_rows C) (g_cols C) (g_addr SS A) -> allocated al (g_rows C) (g_cols C) (g_addr SS B) -> allocated al (g_rows C) (g_cols C) (g_addr SS C) ->
  (forall i j i' j', block (g_rows C) (g_cols C) i j -> block (g_rows C) (g_cols C) i' j' -> g_addr SS C i j = g_addr SS A i' j' -> i = i' /\ j = j') ->
  (forall i j i' j', block (g_rows C) (g_cols C) i j -> block (g_rows C) (g_cols C) i' j' -> g_addr SS C i j = g_addr SS B i' j' -> i = i' /\ j = j') ->
  exists m', ref_axpy SS T O al alpha A B C m = Ok m' /\
    updated (block (g_rows C) (g_cols C)) (g_addr SS C)
      (fun i j => oadd O (omul O alpha (m (g_addr SS A i j))) (m (g_addr SS B i j))) m m'.
Proof.
  intros SS T O al alpha A B C m HSS hA hB hC z1 z2 z3 z4 aA aB aC xA xB. unfold ref_axpy.
  rewrite z1, z2, z3, z4, !Nat.eqb_refl. cbn [negb orb]. unfold ref_axpy_ptr.
  eapply (scan2_ok T al _ _ (g_addr SS C)).
  - apply (g_distinct SS HSS C hC).
  - intros i j m1 Hi Hj [_ U]. rewrite !deref_g, !rd_ok by auto. cbn [bind]. rewrite wr_ok by auto. do 3 f_equal.
    + f_equal. apply U. intros i' j' Hb Q. symmetry in Q. apply xA in Q; unfold block, before in *; lia.
    + apply U. intros i' j' Hb Q. symmetry in Q. apply xB in Q; unfold block, before in *; lia.
Qed.
Theorem C38_axpy_throws : forall SS T (O : Ops T) al alpha A B C m,
  g_rows A <> g_rows C \/ g_cols A <> g_cols C \/ g_rows B <> g_rows C \/ g_cols B <> g_cols C ->
  ref_axpy SS T O al alpha A B C m = Throw InvalidArgument.
Proof.
  intros SS T O al alpha A B C m H. unfold ref_axpy.
  destruct (Nat.eqb_spec (g_rows A) (g_rows C)), (Nat.eqb_spec (g_cols A) (g_cols C)), (Nat.eqb_spec (g_rows B) (g_rows C)),
    (Nat.eqb_spec (g_cols B) (g_cols C)); cbn [negb orb]; auto. tauto.
Qed.

(* ------------------------------------------------------------------ ger (pointer form; there is no matrix form) *)
Theorem C38_ger_ops : forall SS T (O : Ops T) al M N alpha x y A B m, 0 < SS ->
  vec_ok SS x -> vec_ok SS y -> mptr_wf SS A -> mptr_wf SS B ->
  (forall i, i < M -> al (vaddr SS x i) = true) -> (forall j, j < N -> al (vaddr SS y j) = true) ->
  allocated al M N (addr SS A) -> allocated al M N (addr SS B) -> distinct M N (addr SS B) ->
  (forall i j k, i < M -> j < N -> k < M -> addr SS B i j <> vaddr SS x k) ->
  (forall i j k, i < M -> j < N -> k < N -> addr SS B i j <> vaddr SS y k) ->
  (forall i j i' j', block M N i j -> block M N i' j' -> addr SS B i j = addr SS A i' j' -> i = i' /\ j = j') ->
  exists m', ref_ger_ptr SS T O al M N alpha x y A B m = Ok m' /\
    updated (block M N) (addr SS B)
      (fun i j => oadd O (m (addr SS A i j)) (omul O (omul O alpha (m (vaddr SS x i))) (m (vaddr SS y j)))) m m'.
Proof.
  intros SS T O al M N alpha x y A B m HSS hx hy hA hB ax ay aA aB dB xx xy xA. unfold ref_ger_ptr.
  eapply (scan2_ok T al _ _ (addr SS B)); auto.
  intros i j m1 Hi Hj [_ U]. rewrite !deref_addr, !vderef_vaddr, !rd_ok by auto. cbn [bind]. rewrite wr_ok by auto.
  rewrite (U (addr SS A i j)), (U (vaddr SS x i)), (U (vaddr SS y j)); auto.
  - intros i' j' Hb. apply not_eq_sym. apply xy; unfold before in Hb; lia.
  - intros i' j' Hb. apply not_eq_sym. apply xx; unfold before in Hb; lia.
  - intros i' j' Hb Q. symmetry in Q. apply xA in Q; unfold block, before in *; lia.
Qed.

(* ------------------------------------------------------------------ trmm, trsm *)
(** Operands of the triangular kernels: A is n-by-n, B and C are M-by-N (n = M on the left, N on the right).  Of A only the
    strict triangle has to exist, and the diagonal unless the matrix is unit triangular.  C is B or does not overlap it. *)
Record rtri_pre (SS : nat) (al : alloc) (n : nat) (ul : uplo) (unit : bool) (A B C : marg) : Prop := {
  rt_A : arg_ok SS A; rt_B : arg_ok SS B; rt_C : arg_ok SS C;
  rt_szA : g_rows A = n /\ g_cols A = n; rt_szC : g_rows C = g_rows B /\ g_cols C = g_cols B;
  rt_alA : forall i k, i < n -> k < n -> referenced ul unit i k -> al (g_addr SS A i k) = true;
  rt_alB : allocated al (g_rows B) (g_cols B) (g_addr SS B); rt_alC : allocated al (g_rows B) (g_cols B) (g_addr SS C);
  rt_sepA : forall i j i' k, i < g_rows B -> j < g_cols B -> i' < n -> k < n -> referenced ul unit i' k -> g_addr SS C i j <> g_addr SS A i' k;
  rt_sepB : forall i j i' j', block (g_rows B) (g_cols B) i j -> block (g_rows B) (g_cols B) i' j' ->
              g_addr SS C i j = g_addr SS B i' j' -> i = i' /\ j = j'
}.

Definition flip_uplo (ul : uplo) : uplo := match ul with Upper => Lower | Lower => Upper end.
Lemma referenced_flip : forall ul unit i k, referenced (flip_uplo ul) unit i k -> referenced ul unit k i.
Proof. intros [] unit i k [H|[H1 H2]]; cbn in H || idtac; (left; exact H) || (right; auto). Qed.

(** Both sides in one statement: the factor of A is written first on the left and second on the right. *)
Lemma trmm_left_run : forall SS T (O : Ops T) al alpha A ul unit B C m, 0 < SS -> rtri_pre SS al (g_rows B) ul unit A B C ->
  exists m', ref_trmmL SS T O al alpha A ul unit B C m = Ok m' /\
    updated (block (g_rows B) (g_cols B)) (g_addr SS C)
      (fun i j => omul O alpha (tri_prod T O ul unit true (g_rows B) i (fun k => m (g_addr SS A i k)) (fun k => m (g_addr SS B k j)))) m m'.
Proof.
  intros SS T O al alpha A ul unit B C m HSS [hA hB hC [zA1 zA2] [zC1 zC2] aA aB aC xA xB].
  unfold ref_trmmL. rewrite zA1, zA2, zC1, zC2, !Nat.eqb_refl. cbn [negb orb].
  destruct (gtrmm_ok T O al true ul unit (fun i j => deref SS (g_ptr SS A) i j) (fun i j => deref SS (g_ptr SS B) i j) (fun i j => deref SS (g_ptr SS C) i j)
     (g_rows B) (g_cols B) alpha m) as (m' & E & U1 & U2).
  - intros i k Hi Hk R. rewrite deref_g by auto. auto.
  - intros i j Hi Hj. rewrite deref_g by auto. auto.
  - intros i j Hi Hj. rewrite deref_g by auto. auto.
  - intros i j i' j' Hi Hj Hi' Hj' Q. rewrite !deref_g in Q by auto. apply (g_distinct SS HSS C hC); lia.
  - intros i j i' k Hi Hj Hi' Hk R. rewrite !deref_g by auto. auto.
  - intros i j i' j' Hi Hj Hi' Hj' Q. rewrite !deref_g in Q by auto. apply xB; auto; split; auto.
  - exists m'. split; [exact E|]. split.
    + intros i j Hij. specialize (U1 i j Hij). cbv beta in U1. rewrite deref_g in U1 by auto. rewrite U1. f_equal.
      unfold tri_prod. destruct ul; apply sum_ext; intros k Hk; unfold trmm_term; rewrite !deref_g by auto; reflexivity.
    + intros a Ha. apply U2. intros i j Hij. rewrite deref_g by auto. auto.
Qed.
Lemma trmm_right_run : forall SS T (O : Ops T) al alpha A ul unit B C m, 0 < SS -> rtri_pre SS al (g_cols B) ul unit A B C ->
  exists m', ref_trmmR SS T O al alpha B A ul unit C m = Ok m' /\
    updated (block (g_rows B) (g_cols B)) (g_addr SS C)
      (fun i j => omul O alpha (tri_prod T O (flip_uplo ul) unit false (g_cols B) j (fun k => m (g_addr SS A k j)) (fun k => m (g_addr SS B i k)))) m m'.
Proof.
  intros SS T O al alpha A ul unit B C m HSS [hA hB hC [zA1 zA2] [zC1 zC2] aA aB aC xA xB].
  unfold ref_trmmR. rewrite zA1, zA2, zC1, zC2, !Nat.eqb_refl. cbn [negb orb].
  destruct (gtrmm_ok T O al false (flip_uplo ul) unit (fun j k => deref SS (g_ptr SS A) k j) (fun k i => deref SS (g_ptr SS B) i k) (fun j i => deref SS (g_ptr SS C) i j)
     (g_cols B) (g_rows B) alpha m) as (m' & E & U1 & U2).
  - intros i k Hi Hk R. rewrite deref_g by auto. apply aA; auto. apply referenced_flip; auto.
  - intros i j Hi Hj. rewrite deref_g by auto. auto.
  - intros i j Hi Hj. rewrite deref_g by auto. auto.
  - intros i j i' j' Hi Hj Hi' Hj' Q. rewrite !deref_g in Q by auto. apply (g_distinct SS HSS C hC) in Q; lia.
  - intros i j i' k Hi Hj Hi' Hk R. rewrite !deref_g by auto. apply xA; auto. apply referenced_flip; auto.
  - intros i j i' j' Hi Hj Hi' Hj' Q. rewrite !deref_g in Q by auto. apply xB in Q; unfold block; auto; lia.
  - exists m'. split; [rewrite <- E; destruct ul; reflexivity|]. split.
    + intros i j [Hi Hj]. specialize (U1 j i (conj Hj Hi)). cbv beta in U1. rewrite deref_g in U1 by auto. rewrite U1. f_equal.
      unfold tri_prod. destruct ul; cbn [flip_uplo]; apply sum_ext; intros k Hk; unfold trmm_term; rewrite !deref_g by auto; reflexivity.
    + intros a Ha. apply U2. intros j i [Hj Hi]. rewrite deref_g by auto. apply Ha. split; auto.
Qed.

(** Operation by operation. *)
Theorem C38_trmm_left_ops : forall SS T (O : Ops T) al alpha A ul unit B C m, 0 < SS -> rtri_pre SS al (g_rows B) ul unit A B C ->
  exists m', ref_trmmL SS T O al alpha A ul unit B C m = Ok m' /\
    updated (block (g_rows B) (g_cols B)) (g_addr SS C)
      (fun i j => let p k := if unit && (k =? i) then m (g_addr SS B k j) else omul O (m (g_addr SS A i k)) (m (g_addr SS B k j)) in
         omul O alpha (match ul with Upper => sum O (g_rows B - i) (fun c => p (i + c)) | Lower => sum O (i + 1) p end)) m m'.
Proof. exact trmm_left_run. Qed.
Theorem C38_trmm_right_ops : forall SS T (O : Ops T) al alpha A ul unit B C m, 0 < SS -> rtri_pre SS al (g_cols B) ul unit A B C ->
  exists m', ref_trmmR SS T O al alpha B A ul unit C m = Ok m' /\
    updated (block (g_rows B) (g_cols B)) (g_addr SS C)
      (fun i j => let p k := if unit && (k =? j) then m (g_addr SS B i k) else omul O (m (g_addr SS B i k)) (m (g_addr SS A k j)) in
         omul O alpha (match ul with Lower => sum O (g_cols B - j) (fun c => p (j + c)) | Upper => sum O (j + 1) p end)) m m'.
Proof.
  intros SS T O al alpha A ul unit B C m HSS P. destruct (trmm_right_run SS T O al alpha A ul unit B C m HSS P) as (m' & E & U1 & U2).
  exists m'. split; auto. split; auto. intros i j Hij. rewrite U1 by auto. destruct ul; reflexivity.
Qed.

Section TriSum.
Context {T : Type} (O : Ops T) (RL : ring_laws O).
(** The products over the stored triangle are products with the triangular matrix. *)
Lemma tri_prod_sum : forall ul unit afirst M i (a : nat -> nat -> T) b, i < M ->
  tri_prod T O ul unit afirst M i (a i) b = sum O M (fun k => omul O (triangle O ul unit a i k) (b k)).
Proof.
  intros ul unit afirst M i a b Hi.
  assert (TM : forall k, match ul with Upper => i <= k | Lower => k <= i end ->
            trmm_term T O unit afirst i (a i) b k = omul O (triangle O ul unit a i k) (b k)).
  { intros k Hk. unfold trmm_term, triangle. rewrite (Nat.eqb_sym i k). destruct (Nat.eqb_spec k i) as [->|N].
    - rewrite andb_true_r. destruct unit; [symmetry; apply (rl_mul_1 O RL)|]. destruct afirst; auto. apply (rl_mul_comm O RL).
    - rewrite andb_false_r. destruct ul; [rewrite (proj2 (Nat.ltb_lt k i)) by lia|rewrite (proj2 (Nat.ltb_lt i k)) by lia];
        (destruct afirst; [reflexivity|apply (rl_mul_comm O RL)]). }
  unfold tri_prod. destruct ul.
  - rewrite (sum_trunc O RL M (i + 1)).
    + apply sum_ext. intros k Hk. apply TM. lia.
    + lia.
    + intros k Hk. unfold triangle. destruct (Nat.eqb_spec i k); [lia|]. destruct (Nat.ltb_spec k i); [lia|]. apply (mul_0_l O RL).
  - replace M with (i + (M - i)) at 2 by lia. rewrite (sum_split O RL), (sum_0 O RL i), (rl_add_0 O RL).
    + apply sum_ext. intros k Hk. apply TM. lia.
    + intros k Hk. unfold triangle. destruct (Nat.eqb_spec i k); [lia|]. destruct (Nat.ltb_spec i k); [lia|]. apply (mul_0_l O RL).
Qed.
Lemma triangle_flip : forall ul unit (a : nat -> nat -> T) i k, triangle O (flip_uplo ul) unit (fun i k => a k i) i k = triangle O ul unit a k i.
Proof. intros ul unit a i k. unfold triangle. rewrite (Nat.eqb_sym k i). destruct (Nat.eqb_spec i k) as [->|]; auto. destruct ul; reflexivity. Qed.
End TriSum.

(** Over a commutative ring: C = alpha * A * B and C = alpha * B * A. *)
Theorem C38_trmm_left_ring : forall SS T (O : Ops T) al alpha A ul unit B C m, 0 < SS -> ring_laws O -> rtri_pre SS al (g_rows B) ul unit A B C ->
  exists m', ref_trmmL SS T O al alpha A ul unit B C m = Ok m' /\
    updated (block (g_rows B) (g_cols B)) (g_addr SS C)
      (fun i j => omul O alpha (sum O (g_rows B) (fun k => omul O (triangle O ul unit (fun i k => m (g_addr SS A i k)) i k) (m (g_addr SS B k j))))) m m'.
Proof.
  intros SS T O al alpha A ul unit B C m HSS RL P. destruct (trmm_left_run SS T O al alpha A ul unit B C m HSS P) as (m' & E & U1 & U2).
  exists m'. split; auto. split; auto. intros i j Hij. rewrite U1 by auto. f_equal.
  apply (tri_prod_sum O RL ul unit true (g_rows B) i (fun i k => m (g_addr SS A i k)) (fun k => m (g_addr SS B k j))). apply Hij.
Qed.
Theorem C38_trmm_right_ring : forall SS T (O : Ops T) al alpha A ul unit B C m, 0 < SS -> ring_laws O -> rtri_pre SS al (g_cols B) ul unit A B C ->
  exists m', ref_trmmR SS T O al alpha B A ul unit C m = Ok m' /\
    updated (block (g_rows B) (g_cols B)) (g_addr SS C)
      (fun i j => omul O alpha (sum O (g_cols B) (fun k => omul O (m (g_addr SS B i k)) (triangle O ul unit (fun i k => m (g_addr SS A i k)) k j)))) m m'.
Proof.
  intros SS T O al alpha A ul unit B C m HSS RL P. destruct (trmm_right_run SS T O al alpha A ul unit B C m HSS P) as (m' & E & U1 & U2).
  exists m'. split; auto. split; auto. intros i j Hij. rewrite U1 by auto. f_equal.
  rewrite (tri_prod_sum O RL (flip_uplo ul) unit false (g_cols B) j (fun j k => m (g_addr SS A k j)) (fun k => m (g_addr SS B i k))) by apply Hij.
  apply sum_ext. intros k Hk. rewrite (triangle_flip O ul unit (fun i k => m (g_addr SS A i k))). apply (rl_mul_comm O RL).
Qed.
Theorem C38_trmm_throws : forall SS T (O : Ops T) al alpha A ul unit B C m,
  (g_rows A <> g_rows B \/ g_cols A <> g_rows B \/ g_rows C <> g_rows B \/ g_cols C <> g_cols B ->
   ref_trmmL SS T O al alpha A ul unit B C m = Throw InvalidArgument) /\
  (g_rows A <> g_cols B \/ g_cols A <> g_cols B \/ g_rows C <> g_rows B \/ g_cols C <> g_cols B ->
   ref_trmmR SS T O al alpha B A ul unit C m = Throw InvalidArgument).
Proof.
  intros SS T O al alpha A ul unit B C m. unfold ref_trmmL, ref_trmmR. split; intros H.
  - destruct (Nat.eqb_spec (g_rows A) (g_rows B)), (Nat.eqb_spec (g_cols A) (g_rows B)), (Nat.eqb_spec (g_rows C) (g_rows B)),
      (Nat.eqb_spec (g_cols C) (g_cols B)); cbn [negb orb]; auto; tauto.
  - destruct (Nat.eqb_spec (g_rows A) (g_cols B)), (Nat.eqb_spec (g_cols A) (g_cols B)), (Nat.eqb_spec (g_rows C) (g_rows B)),
      (Nat.eqb_spec (g_cols C) (g_cols B)); cbn [negb orb]; auto; tauto.
Qed.

Lemma trsm_left_run : forall SS T (O : Ops T) al A ul unit X alpha B m, 0 < SS -> rtri_pre SS al (g_rows B) ul unit A B X ->
  exists m', ref_trsmL SS T O al A ul unit X alpha B m = Ok m' /\
    (forall i j, i < g_rows B -> j < g_cols B -> rsolved T O true ul unit (g_rows B) (fun i k => m (g_addr SS A i k))
       (fun i => omul O alpha (m (g_addr SS B i j))) (fun i => m' (g_addr SS X i j)) i) /\
    (forall a, (forall i j, i < g_rows B -> j < g_cols B -> a <> g_addr SS X i j) -> m' a = m a).
Proof.
  intros SS T O al A ul unit X alpha B m HSS [hA hB hC [zA1 zA2] [zC1 zC2] aA aB aC xA xB].
  unfold ref_trsmL. rewrite zA1, zA2, zC1, zC2, !Nat.eqb_refl. cbn [negb orb].
  destruct (gtrsm_ok T O al true ul unit (fun i j => addr SS (g_ptr SS A) i j) (fun i j => addr SS (g_ptr SS B) i j) (fun i j => addr SS (g_ptr SS X) i j)
     (g_rows B) (g_cols B) alpha m) as (m' & E & U1 & U2).
  - intros i k Hi Hk R. rewrite g_ptr_addr by auto. auto.
  - intros i j Hi Hj. rewrite g_ptr_addr by auto. auto.
  - intros i j Hi Hj. rewrite g_ptr_addr by auto. auto.
  - intros i j i' j' Hi Hj Hi' Hj' Q. rewrite !g_ptr_addr in Q by auto. apply (g_distinct SS HSS X hC); lia.
  - intros i j i' k Hi Hj Hi' Hk R. rewrite !g_ptr_addr by auto. auto.
  - intros i j i' j' Hi Hj Hi' Hj' Q. rewrite !g_ptr_addr in Q by auto. apply xB; auto; split; auto.
  - exists m'. split; [exact E|]. split.
    + intros i j Hi Hj. specialize (U1 i j Hi Hj). unfold rsolved in *. cbv beta in U1. rewrite !g_ptr_addr in U1 by auto. rewrite U1.
      f_equal. destruct ul; apply rsub_ext; intros k Hk; rewrite g_ptr_addr; auto.
    + intros a Ha. apply U2. intros i j Hi Hj. rewrite g_ptr_addr by auto. auto.
Qed.
Lemma trsm_right_run : forall SS T (O : Ops T) al A ul unit X alpha B m, 0 < SS -> rtri_pre SS al (g_cols B) ul unit A B X ->
  exists m', ref_trsmR SS T O al X A ul unit alpha B m = Ok m' /\
    (forall i j, i < g_rows B -> j < g_cols B -> rsolved T O false (flip_uplo ul) unit (g_cols B) (fun j k => m (g_addr SS A k j))
       (fun j => omul O alpha (m (g_addr SS B i j))) (fun j => m' (g_addr SS X i j)) j) /\
    (forall a, (forall i j, i < g_rows B -> j < g_cols B -> a <> g_addr SS X i j) -> m' a = m a).
Proof.
  intros SS T O al A ul unit X alpha B m HSS [hA hB hC [zA1 zA2] [zC1 zC2] aA aB aC xA xB].
  unfold ref_trsmR. rewrite zA1, zA2, zC1, zC2, !Nat.eqb_refl. cbn [negb orb].
  destruct (gtrsm_ok T O al false (flip_uplo ul) unit (fun j k => addr SS (g_ptr SS A) k j) (fun j i => addr SS (g_ptr SS B) i j) (fun j i => addr SS (g_ptr SS X) i j)
     (g_cols B) (g_rows B) alpha m) as (m' & E & U1 & U2).
  - intros i k Hi Hk R. rewrite g_ptr_addr by auto. apply aA; auto. apply referenced_flip; auto.
  - intros i j Hi Hj. rewrite g_ptr_addr by auto. auto.
  - intros i j Hi Hj. rewrite g_ptr_addr by auto. auto.
  - intros i j i' j' Hi Hj Hi' Hj' Q. rewrite !g_ptr_addr in Q by auto. apply (g_distinct SS HSS X hC) in Q; lia.
  - intros i j i' k Hi Hj Hi' Hk R. rewrite !g_ptr_addr by auto. apply xA; auto. apply referenced_flip; auto.
  - intros i j i' j' Hi Hj Hi' Hj' Q. rewrite !g_ptr_addr in Q by auto. apply xB in Q; unfold block; auto; lia.
  - exists m'. split; [rewrite <- E; destruct ul; reflexivity|]. split.
    + intros i j Hi Hj. specialize (U1 j i Hj Hi). unfold rsolved in *. cbv beta in U1. rewrite !g_ptr_addr in U1 by auto. rewrite U1.
      f_equal. destruct ul; cbn [flip_uplo]; apply rsub_ext; intros k Hk; rewrite g_ptr_addr; auto.
    + intros a Ha. apply U2. intros j i Hj Hi. rewrite g_ptr_addr by auto. apply Ha; auto.
Qed.

Section Solve.
Context {T : Type} (O : Ops T) (FL : field_laws O).
Let RL := fl_ring O FL.
Lemma rsub_sum : forall af K a x z, rsub T O af K a x z = osub O z (sum O K (fun k => omul O (a k) (x k))).
Proof.
  intros [] K a x z; unfold rsub; rewrite (sub_chain_sum O RL); auto. f_equal. apply sum_ext. intros k Hk. apply (rl_mul_comm O RL).
Qed.
Lemma rsolved_sum : forall af ul unit M (a : nat -> nat -> T) b x i, i < M -> (unit = false -> a i i <> o0 O) ->
  rsolved T O af ul unit M a b x i -> sum O M (fun k => omul O (triangle O ul unit a i k) (x k)) = b i.
Proof.
  intros af ul unit M a b x i Hi ND V. unfold rsolved, quot in V.
  match type of V with _ = if unit then ?acc else _ => set (u := acc) in V end.
  assert (D : omul O (triangle O ul unit a i i) (x i) = u).
  { unfold triangle. rewrite Nat.eqb_refl, V. destruct unit.
    - apply (rl_mul_1 O RL).
    - rewrite (rl_mul_comm O RL). apply (fl_div O FL). auto. }
  replace M with (i + (1 + (M - (i + 1)))) by lia. rewrite (sum_split O RL), (sum_split O RL).
  cbn [sum]. rewrite (rl_add_0 O RL), Nat.add_0_r, D.
  destruct ul; unfold u; rewrite rsub_sum.
  - rewrite (sum_0 O RL (M - (i + 1))), (add_0_r O RL).
    + rewrite (rl_add_comm O RL).
      rewrite (sum_ext O i (fun k => omul O (triangle O Lower unit a i k) (x k)) (fun k => omul O (a i k) (x k))).
      * apply (rl_sub O RL).
      * intros k Hk. unfold triangle. destruct (Nat.eqb_spec i k); [lia|]. rewrite (proj2 (Nat.ltb_lt k i)) by lia. reflexivity.
    + intros k Hk. unfold triangle. destruct (Nat.eqb_spec i (i + (1 + k))); [lia|]. destruct (Nat.ltb_spec (i + (1 + k)) i); [lia|]. apply (mul_0_l O RL).
  - rewrite (sum_0 O RL i), (rl_add_0 O RL).
    + rewrite (sum_ext O (M - (i + 1)) (fun k => omul O (triangle O Upper unit a i (i + (1 + k))) (x (i + (1 + k))))
          (fun c => omul O (a i (i + 1 + c)) (x (i + 1 + c)))).
      * apply (rl_sub O RL).
      * intros k Hk. unfold triangle. destruct (Nat.eqb_spec i (i + (1 + k))); [lia|]. rewrite (proj2 (Nat.ltb_lt i (i + (1 + k)))) by lia.
        replace (i + 1 + k) with (i + (1 + k)) by lia. reflexivity.
    + intros k Hk. unfold triangle. destruct (Nat.eqb_spec i k); [lia|]. destruct (Nat.ltb_spec i k); [lia|]. apply (mul_0_l O RL).
Qed.
End Solve.

(** Operation by operation: substitution. *)
Theorem C38_trsm_left_ops : forall SS T (O : Ops T) al A ul unit X alpha B m, 0 < SS -> rtri_pre SS al (g_rows B) ul unit A B X ->
  exists m', ref_trsmL SS T O al A ul unit X alpha B m = Ok m' /\
    (forall i j, i < g_rows B -> j < g_cols B ->
       let x k := m' (g_addr SS X k j) in let a k := m (g_addr SS A i k) in let b := omul O alpha (m (g_addr SS B i j)) in
       let acc := match ul with
                  | Lower => sub_chain O i a x b
                  | Upper => sub_chain O (g_rows B - (i + 1)) (fun c => a (i + 1 + c)) (fun c => x (i + 1 + c)) b
                  end in
       x i = if unit then acc else odiv O acc (a i)) /\
    (forall a, (forall i j, i < g_rows B -> j < g_cols B -> a <> g_addr SS X i j) -> m' a = m a).
Proof. exact trsm_left_run. Qed.
Theorem C38_trsm_right_ops : forall SS T (O : Ops T) al A ul unit X alpha B m, 0 < SS -> rtri_pre SS al (g_cols B) ul unit A B X ->
  exists m', ref_trsmR SS T O al X A ul unit alpha B m = Ok m' /\
    (forall i j, i < g_rows B -> j < g_cols B ->
       let x k := m' (g_addr SS X i k) in let a k := m (g_addr SS A k j) in let b := omul O alpha (m (g_addr SS B i j)) in
       let acc := match ul with
                  | Upper => sub_chain O j x a b
                  | Lower => sub_chain O (g_cols B - (j + 1)) (fun c => x (j + 1 + c)) (fun c => a (j + 1 + c)) b
                  end in
       x j = if unit then acc else odiv O acc (a j)) /\
    (forall a, (forall i j, i < g_rows B -> j < g_cols B -> a <> g_addr SS X i j) -> m' a = m a).
Proof.
  intros SS T O al A ul unit X alpha B m HSS P. destruct (trsm_right_run SS T O al A ul unit X alpha B m HSS P) as (m' & E & V & F).
  exists m'. split; auto. split; auto. intros i j Hi Hj. specialize (V i j Hi Hj). destruct ul; exact V.
Qed.

(** Over a field: A * X = alpha * B and X * A = alpha * B. *)
Theorem C38_trsm_left_field : forall SS T (O : Ops T) al A ul unit X alpha B m, 0 < SS -> field_laws O -> rtri_pre SS al (g_rows B) ul unit A B X ->
  (unit = false -> forall i, i < g_rows B -> m (g_addr SS A i i) <> o0 O) ->
  exists m', ref_trsmL SS T O al A ul unit X alpha B m = Ok m' /\
    (forall i j, i < g_rows B -> j < g_cols B ->
       sum O (g_rows B) (fun k => omul O (triangle O ul unit (fun i k => m (g_addr SS A i k)) i k) (m' (g_addr SS X k j))) =
       omul O alpha (m (g_addr SS B i j))) /\
    (forall a, (forall i j, i < g_rows B -> j < g_cols B -> a <> g_addr SS X i j) -> m' a = m a).
Proof.
  intros SS T O al A ul unit X alpha B m HSS FL P ND. destruct (trsm_left_run SS T O al A ul unit X alpha B m HSS P) as (m' & E & V & F).
  exists m'. split; auto. split; auto. intros i j Hi Hj. specialize (V i j Hi Hj).
  apply (rsolved_sum O FL) in V; auto.
Qed.
Theorem C38_trsm_right_field : forall SS T (O : Ops T) al A ul unit X alpha B m, 0 < SS -> field_laws O -> rtri_pre SS al (g_cols B) ul unit A B X ->
  (unit = false -> forall j, j < g_cols B -> m (g_addr SS A j j) <> o0 O) ->
  exists m', ref_trsmR SS T O al X A ul unit alpha B m = Ok m' /\
    (forall i j, i < g_rows B -> j < g_cols B ->
       sum O (g_cols B) (fun k => omul O (m' (g_addr SS X i k)) (triangle O ul unit (fun i k => m (g_addr SS A i k)) k j)) =
       omul O alpha (m (g_addr SS B i j))) /\
    (forall a, (forall i j, i < g_rows B -> j < g_cols B -> a <> g_addr SS X i j) -> m' a = m a).
Proof.
  intros SS T O al A ul unit X alpha B m HSS FL P ND. destruct (trsm_right_run SS T O al A ul unit X alpha B m HSS P) as (m' & E & V & F).
  exists m'. split; auto. split; auto. intros i j Hi Hj. specialize (V i j Hi Hj).
  apply (rsolved_sum O FL) in V; auto. rewrite <- V. apply sum_ext. intros k Hk.
  rewrite (triangle_flip O ul unit (fun i k => m (g_addr SS A i k))). apply (rl_mul_comm O (fl_ring O FL)).
Qed.
Theorem C38_trsm_throws : forall SS T (O : Ops T) al alpha A ul unit B X m,
  (g_rows A <> g_rows B \/ g_cols A <> g_rows B \/ g_rows X <> g_rows B \/ g_cols X <> g_cols B ->
   ref_trsmL SS T O al A ul unit X alpha B m = Throw InvalidArgument) /\
  (g_rows A <> g_cols B \/ g_cols A <> g_cols B \/ g_rows X <> g_rows B \/ g_cols X <> g_cols B ->
   ref_trsmR SS T O al X A ul unit alpha B m = Throw InvalidArgument).
Proof.
  intros SS T O al alpha A ul unit B C m. unfold ref_trsmL, ref_trsmR. split; intros H.
  - destruct (Nat.eqb_spec (g_rows A) (g_rows B)), (Nat.eqb_spec (g_cols A) (g_rows B)), (Nat.eqb_spec (g_rows C) (g_rows B)),
      (Nat.eqb_spec (g_cols C) (g_cols B)); cbn [negb orb]; auto; tauto.
  - destruct (Nat.eqb_spec (g_rows A) (g_cols B)), (Nat.eqb_spec (g_cols A) (g_cols B)), (Nat.eqb_spec (g_rows C) (g_rows B)),
      (Nat.eqb_spec (g_cols C) (g_cols B)); cbn [negb orb]; auto; tauto.
Qed.

(* ------------------------------------------------------------------ C39 *)
(** The optimised and the reference kernel leave the same memory. *)
Lemma gemm_rgemm_pre : forall SS al A B C D, 0 < SS -> gemm_pre SS al A B C D -> rgemm_pre SS al A B C D.
Proof.
  intros SS al A B C D HSS [hA hB hC hD sA sC sD pA pD zB zC zD aA aB aC aD xA xB xC].
  destruct (nextMultiple_spec (g_rows A) SS HSS) as (NM & _ & _).
  constructor; auto; intros i j Hi Hj; [apply aA|apply aC]; auto; lia.
Qed.
Theorem C39_gemm_agree : forall SS T (O : Ops T) al alpha A B beta C D m, 0 < SS -> ring_laws O -> gemm_pre SS al A B C D ->
  exists m1 m2, gemm SS T O al alpha A B beta C D m = Ok m1 /\ ref_gemm SS T O al alpha A B beta C D m = Ok m2 /\
    forall i j, i < g_rows D -> j < g_cols D -> m1 (g_addr SS D i j) = m2 (g_addr SS D i j).
Proof.
  intros SS T O al alpha A B beta C D m HSS RL P.
  destruct (C18_gemm_ring SS T O al alpha A B beta C D m HSS RL P) as (m1 & E1 & U1 & F1).
  destruct (C38_gemm_ring SS T O al alpha A B beta C D m HSS RL (gemm_rgemm_pre _ _ _ _ _ _ HSS P)) as (m2 & E2 & U2 & F2).
  exists m1, m2. split; auto. split; auto. intros i j Hi Hj. destruct (gp_szD _ _ _ _ _ _ P) as [Z1 Z2].
  rewrite U1, U2; auto; split; lia.
Qed.
(** ... and everything else is unchanged by both. *)
Theorem C39_gemm_agree_frame : forall SS T (O : Ops T) al alpha A B beta C D m m1 m2, 0 < SS -> gemm_pre SS al A B C D ->
  gemm SS T O al alpha A B beta C D m = Ok m1 -> ref_gemm SS T O al alpha A B beta C D m = Ok m2 ->
  forall a, (forall i j, i < g_rows D -> j < g_cols D -> a <> g_addr SS D i j) -> m1 a = m2 a.
Proof.
  intros SS T O al alpha A B beta C D m m1 m2 HSS P E1 E2 a Ha.
  destruct (gp_szD _ _ _ _ _ _ P) as [Z1 Z2].
  destruct (C17_gemm_ops SS T O al alpha A B beta C D m HSS P) as (m1' & E1' & _ & F1).
  destruct (C38_gemm_ops SS T O al alpha A B beta C D m HSS (gemm_rgemm_pre _ _ _ _ _ _ HSS P)) as (m2' & E2' & _ & F2).
  rewrite E1 in E1'. rewrite E2 in E2'. injection E1' as <-. injection E2' as <-.
  rewrite F1, F2; auto; intros i j [Hi Hj]; apply Ha; lia.
Qed.

Theorem C39_ger_agree : forall SS cc T (O : Ops T) al alpha x y A B m, 0 < SS -> 0 < cc -> ring_laws O -> ger_pre SS cc al x y A B ->
  exists m1 m2, ger_cm SS cc T O al alpha x y A B m = Ok m1 /\
    ref_ger_ptr SS T O al (x_size x) (x_size y) alpha (x_ptr x) (x_ptr y) (g_ptr SS A) (g_ptr SS B) m = Ok m2 /\
    (forall i j, i < x_size x -> j < x_size y -> m1 (g_addr SS B i j) = m2 (g_addr SS B i j)) /\
    (forall a, (forall i j, i < x_size x -> j < x_size y -> a <> g_addr SS B i j) -> m1 a = m2 a).
Proof.
  intros SS cc T O al alpha x y A B m HSS Hcc RL P.
  destruct (C23_ger_ring SS cc T O al alpha x y A B m HSS Hcc RL P) as (m1 & E1 & U1 & F1).
  destruct P as [hx hy hA hB sA sB pA pB [zA1 zA2] [zB1 zB2] ax ay aA aB xx xy xA].
  destruct (nextMultiple_spec (x_size x) SS HSS) as (NM & _ & _).
  destruct (nextMultiple_spec (x_size x) (cc * SS)) as (NM' & _ & _); [nia|].
  destruct (C38_ger_ops SS T O al (x_size x) (x_size y) alpha (x_ptr x) (x_ptr y) (g_ptr SS A) (g_ptr SS B) m) as (m2 & E2 & U2 & F2);
    auto using g_ptr_wf, vptr_vec_ok.
  - intros i Hi. apply ax. lia.
  - intros i j Hi Hj. rewrite g_ptr_addr by auto. apply aA; auto. lia.
  - intros i j Hi Hj. rewrite g_ptr_addr by auto. auto.
  - intros i j i' j' Hi Hj Hi' Hj' Q. rewrite !g_ptr_addr in Q by auto. apply (g_distinct SS HSS B hB); lia.
  - intros i j k Hi Hj Hk. rewrite g_ptr_addr by auto. auto.
  - intros i j k Hi Hj Hk. rewrite g_ptr_addr by auto. auto.
  - intros i j i' j' Hi Hi' Q. rewrite !g_ptr_addr in Q by auto. auto.
  - exists m1, m2. split; auto. split; auto. split.
    + intros i j Hi Hj. rewrite U1 by (split; auto). rewrite <- (g_ptr_addr SS HSS B), U2 by (auto; split; auto). rewrite g_ptr_addr; auto.
    + intros a Ha. rewrite F1, F2; auto; intros i j [Hi Hj]; [rewrite g_ptr_addr by auto|]; apply Ha; auto.
Qed.

(** trmm, under the conditions of C25. *)
Theorem C39_trmm_left_agree : forall SS cc T (O : Ops T) al alpha A B C m, 0 < SS -> 0 < cc -> ring_laws O -> trmmL_pre SS cc al A B C ->
  (g_rows B mod (cc * SS) = 0 /\ g_cols B mod (cc * SS) = 0) \/ (forall i k, k < i < g_rows B -> m (g_addr SS A i k) = o0 O) ->
  exists m1 m2, trmmL SS cc T O al alpha A Upper false B C m = Ok m1 /\ ref_trmmL SS T O al alpha A Upper false B C m = Ok m2 /\
    (forall i j, i < g_rows B -> j < g_cols B -> m1 (g_addr SS C i j) = m2 (g_addr SS C i j)) /\
    (forall a, (forall i j, i < g_rows B -> j < g_cols B -> a <> g_addr SS C i j) -> m1 a = m2 a).
Proof.
  intros SS cc T O al alpha A B C m HSS Hcc RL P H.
  destruct (C25_trmm_left_ring SS cc T O al alpha A B C m HSS Hcc RL P H) as (m1 & E1 & U1 & F1).
  assert (P' : rtri_pre SS al (g_rows B) Upper false A B C).
  { destruct P as [hA hB hC sA sC wB pA pC zA zC aA aB aC xA xB].
    destruct (nextMultiple_spec (g_rows B) (cc * SS)) as (NM' & _ & _); [nia|].
    constructor; auto.
    - intros i k Hi Hk [R|[R _]]; apply aA; lia.
    - intros i j i' j' [Hi Hj] [Hi' Hj'] Q. destruct xB as [xB|xB]; [exfalso; apply (xB i j i' j'); auto|].
      rewrite xB in Q by auto. apply (g_distinct SS HSS C hC); try (rewrite (proj1 zC) || rewrite (proj2 zC)); auto. }
  destruct (C38_trmm_left_ring SS T O al alpha A Upper false B C m HSS RL P') as (m2 & E2 & U2 & F2).
  exists m1, m2. split; auto. split; auto. split.
  - intros i j Hi Hj. rewrite U1, U2 by (split; auto). f_equal. apply sum_ext. intros k Hk. f_equal. unfold upper_of, triangle.
    destruct (Nat.leb_spec i k), (Nat.eqb_spec i k) as [e|], (Nat.ltb_spec i k); try (subst; reflexivity); try lia.
  - intros a Ha. rewrite F1, F2; auto; intros i j [Hi Hj]; apply Ha; auto.
Qed.

Theorem C39_trmm_right_agree : forall SS cc T (O : Ops T) al alpha B A C m, 0 < SS -> 0 < cc -> ring_laws O -> trmmR_pre SS cc al B A C ->
  exists m1 m2, trmmR SS cc T O al alpha B A Lower false C m = Ok m1 /\ ref_trmmR SS T O al alpha B A Lower false C m = Ok m2 /\
    (forall i j, i < g_rows B -> j < g_cols B -> m1 (g_addr SS C i j) = m2 (g_addr SS C i j)) /\
    (forall a, (forall i j, i < g_rows B -> j < g_cols B -> a <> g_addr SS C i j) -> m1 a = m2 a).
Proof.
  intros SS cc T O al alpha B A C m HSS Hcc RL P.
  destruct (C26_trmm_right_ring SS cc T O al alpha B A C m HSS Hcc RL P) as (m1 & E1 & U1 & F1).
  assert (P' : rtri_pre SS al (g_cols B) Lower false A B C).
  { destruct P as [hA hB hC sB sC wA pB pC zA zC aB aA aC xB xA].
    destruct (nextMultiple_spec (g_rows B) (cc * SS)) as (NM' & _ & _); [nia|].
    constructor; auto.
    - intros i k Hi Hk [R|[R _]]; cbn in R; apply aA; lia.
    - intros i j Hi Hj. apply aB; lia.
    - intros i j i' j' [Hi Hj] [Hi' Hj'] Q. destruct xB as [xB|xB]; [exfalso; apply (xB i j i' j'); auto|].
      rewrite xB in Q by auto. apply (g_distinct SS HSS C hC); try (rewrite (proj1 zC) || rewrite (proj2 zC)); auto. }
  destruct (C38_trmm_right_ring SS T O al alpha A Lower false B C m HSS RL P') as (m2 & E2 & U2 & F2).
  exists m1, m2. split; auto. split; auto. split.
  - intros i j Hi Hj. rewrite U1, U2 by (split; auto). f_equal. apply sum_ext. intros k Hk. f_equal. unfold lower_of, triangle.
    destruct (Nat.leb_spec j k), (Nat.eqb_spec k j) as [e|], (Nat.ltb_spec j k); try (subst; reflexivity); try lia.
  - intros a Ha. rewrite F1, F2; auto; intros i j [Hi Hj]; apply Ha; auto.
Qed.

(** trsm(A, B, X) and the reference trsm with alpha = 1 (A on the left) perform the same operations: they agree to the last bit in every
    arithmetic that leaves the elements of B unchanged when multiplying by one; no algebraic law is used. *)
Theorem C39_trsm_agree : forall SS T (O : Ops T) al A ul unit X B m, 0 < SS -> rtri_pre SS al (g_rows B) ul unit A B X ->
  (forall i j, i < g_rows B -> j < g_cols B -> omul O (o1 O) (m (g_addr SS B i j)) = m (g_addr SS B i j)) ->
  let d M := DMat (g_rows M) (g_cols M) (g_addr SS M) in
  exists m1 m2, trsm T O al ul unit (d A) (d B) (d X) m = Ok m1 /\ ref_trsmL SS T O al A ul unit X (o1 O) B m = Ok m2 /\ forall a, m1 a = m2 a.
Proof.
  intros SS T O al A ul unit X B m HSS P H1 d.
  destruct (C38_trsm_left_ops SS T O al A ul unit X (o1 O) B m HSS P) as (m2 & E2 & V2 & F2).
  destruct P as [hA hB hX zA zX aA aB aX sA sB].
  destruct (C31_trsm_ops T O al ul unit (d A) (d B) (d X) m) as (m1 & E1 & V1 & F1).
  { constructor; cbn [d d_m d_n d_at]; auto.
    - intros i j i' j' Hi Hj Hi' Hj'. apply (g_distinct SS HSS X hX); try (rewrite (proj1 zX) || rewrite (proj2 zX)); auto.
    - intros i j i' j' Hi Hj Hi' Hj'. apply sB; split; auto. }
  exists m1, m2. split; auto. split; auto.
  cbn [d d_m d_n d_at] in V1, F1.
  assert (G : forall n i j, (match ul with Lower => i | Upper => g_rows B - 1 - i end) < n -> i < g_rows B -> j < g_cols B -> m1 (g_addr SS X i j) = m2 (g_addr SS X i j)).
  { induction n as [|n IH]; intros i j Hn Hi Hj; [lia|].
    rewrite (V1 i j Hi Hj). pose proof (V2 i j Hi Hj) as W. cbv zeta in W. rewrite W. clear W. rewrite H1 by auto. cbv zeta.
    destruct ul.
    - replace (sub_chain O i (fun k => m (g_addr SS A i k)) (fun k => m1 (g_addr SS X k j)) (m (g_addr SS B i j)))
        with (sub_chain O i (fun k => m (g_addr SS A i k)) (fun k => m2 (g_addr SS X k j)) (m (g_addr SS B i j))); [reflexivity|].
      apply sub_chain_ext; auto. intros k Hk. symmetry. apply IH; lia.
    - replace (sub_chain O (g_rows B - (i + 1)) (fun c => m (g_addr SS A i (i + 1 + c))) (fun c => m1 (g_addr SS X (i + 1 + c) j)) (m (g_addr SS B i j)))
        with (sub_chain O (g_rows B - (i + 1)) (fun c => m (g_addr SS A i (i + 1 + c))) (fun c => m2 (g_addr SS X (i + 1 + c) j)) (m (g_addr SS B i j))); [reflexivity|].
      apply sub_chain_ext; auto. intros k Hk. symmetry. apply IH; lia. }
  intros a. destruct (block_dec (g_rows B) (g_cols B) (g_addr SS X) a) as [(i & j & Hi & Hj & ->)|N].
  - apply (G (S (match ul with Lower => i | Upper => g_rows B - 1 - i end))); auto.
  - rewrite F1, F2; auto.
Qed.

(* ------------------------------------------------------------------ examples *)
(** A a 3-by-3 panel matrix, B = C a 3-by-2 row-major dense matrix: in-place product and solve. *)
Definition rA : container := Cont Panel false columnMajor 3 3 0.
Definition rB : container := Cont Dense false rowMajor 3 2 16.
Definition r_al (x : nat) : bool := c_alloc 4 rA x || c_alloc 4 rB x.
Example C38_example : forall ul unit, rtri_pre 4 r_al 3 ul unit (MArg (whole rA) false) (MArg (whole rB) false) (MArg (whole rB) false).
Proof.
  intros ul unit.
  assert (HA : arg_ok 4 (MArg (whole rA) false)) by (cbv; repeat split; auto; lia).
  assert (HB : arg_ok 4 (MArg (whole rB) false)) by (cbv; repeat split; auto; lia).
  assert (LA : live 4 r_al (MArg (whole rA) false)) by (intros a Ha; unfold r_al; cbn [g_view whole v_cont] in Ha; rewrite Ha; reflexivity).
  assert (LB : live 4 r_al (MArg (whole rB) false)) by (intros a Ha; unfold r_al; cbn [g_view whole v_cont] in Ha; rewrite Ha; apply orb_true_r).
  assert (F3 : forall x, x < 3 -> x = 0 \/ x = 1 \/ x = 2) by lia. assert (F2 : forall x, x < 2 -> x = 0 \/ x = 1) by lia.
  constructor; auto; try (cbn; split; reflexivity).
  - intros i k Hi Hk _. exact (g_allocated 4 ltac:(lia) r_al _ HA LA i k Hi Hk).
  - apply (g_allocated 4 ltac:(lia) r_al _ HB LB).
  - apply (g_allocated 4 ltac:(lia) r_al _ HB LB).
  - intros i j i' k Hi Hj Hi' Hk _. cbn in Hi, Hj.
    destruct (F3 i Hi) as [->|[->| ->]], (F2 j Hj) as [->| ->], (F3 i' Hi') as [->|[->| ->]], (F3 k Hk) as [->|[->| ->]]; vm_compute; lia.
  - intros i j i' j' [Hi Hj] [Hi' Hj'] Q. apply (g_distinct 4 ltac:(lia) _ HB) in Q; auto.
Qed.
(** A = [1 . .; 2 1 .; 3 4 -1] * [1 0; 2 1; 3 0], then the solve gives the right-hand factor back. *)
Definition r_m (x : nat) : Z :=
  nth x [1; 2; 3; 0; 99; 1; 4; 0; 99; 99; -1; 0; 0; 0; 0; 0; 1; 0; 0; 0; 2; 1; 0; 0; 3; 0; 0; 0]%Z 0%Z.
Example C38_example_run :
  let a := MArg (whole rA) false in let b := MArg (whole rB) false in
  match (m1 <- ref_trmmL 4 Z zops r_al 2%Z a Lower false b b r_m ;; m2 <- ref_trsmL 4 Z zops r_al a Lower false b 1%Z b m1 ;; Ok (m1, m2)) with
  | Ok (m1, m2) => (map (fun i => map (fun j => m1 (g_addr 4 b i j)) (seq 0 2)) (seq 0 3),
                    map (fun i => map (fun j => m2 (g_addr 4 b i j)) (seq 0 2)) (seq 0 3))
  | _ => ([], []) end = ([[2; 0]; [8; 2]; [16; 8]], [[2; 0]; [4; 2]; [6; 0]])%Z.
Proof. vm_compute. reflexivity. Qed.
(** C39_trsm_agree with these operands: the solution in integer arithmetic (unit triangle), both kernels. *)
Example C39_trsm_example :
  let a := MArg (whole rA) false in let b := MArg (whole rB) false in let d M := DMat (g_rows M) (g_cols M) (g_addr 4 M) in
  rtri_pre 4 r_al 3 Lower true a b b /\ (forall x : Z, omul zops (o1 zops) x = x) /\
  match trsm Z zops r_al Lower true (d a) (d b) (d b) r_m, ref_trsmL 4 Z zops r_al a Lower true b 1%Z b r_m with
  | Ok m1, Ok m2 => map (fun i => map (fun j => (m1 (g_addr 4 b i j), m2 (g_addr 4 b i j))) (seq 0 2)) (seq 0 3) = [[(1, 1); (0, 0)]; [(0, 0); (1, 1)]; [(0, 0); (-4, -4)]]%Z
  | _, _ => False end.
Proof. split; [exact (C38_example Lower true)|]. split; [intros []; reflexivity|]. vm_compute. reflexivity. Qed.
