(** Properties_Compose.v -- C72: sequences of calls satisfy the laws of matrix algebra. *)
From Coq Require Import Arith Lia List Bool PeanoNat ZArith Setoid Morphisms Ring.
From Verif Require Import Base Base_Proofs Spec Algebra_Proofs Instances Layout_Model Layout_Proofs Arg_Proofs Gemm_Model Properties_Gemm
  Syrk_Model Properties_Syrk Properties_Footprint.
Import ListNotations.

(** The transpose of an argument. *)
Definition flip (X : marg) : marg := MArg (g_view X) (negb (g_trans X)).
Lemma flip_addr : forall SS X i j, g_addr SS (flip X) i j = g_addr SS X j i.
Proof. intros SS [v []] i j; reflexivity. Qed.
Lemma flip_rows : forall X, g_rows (flip X) = g_cols X.
Proof. intros [v []]; reflexivity. Qed.
Lemma flip_cols : forall X, g_cols (flip X) = g_rows X.
Proof. intros [v []]; reflexivity. Qed.

(* ------------------------------------------------------------------ row-major results *)
(** gemm writes column-major results only; the product of row-major matrices is obtained from the transposed equation. *)
Theorem C72_gemm_row_major : forall SS T (O : Ops T) al alpha A B beta C D m, 0 < SS -> ring_laws O ->
  gemm_pre SS al (flip B) (flip A) (flip C) (flip D) ->
  exists m', gemm SS T O al alpha (flip B) (flip A) beta (flip C) (flip D) m = Ok m' /\
    updated (block (g_rows A) (g_cols B)) (g_addr SS D)
      (fun i j => oadd O (omul O alpha (sum O (g_cols A) (fun k => omul O (m (g_addr SS A i k)) (m (g_addr SS B k j))))) (omul O beta (m (g_addr SS C i j)))) m m'.
Proof.
  intros SS T O al alpha A B beta C D m HSS RL P.
  pose proof (gp_szB _ _ _ _ _ _ P) as ZB. rewrite flip_rows, flip_cols in ZB.
  destruct (C18_gemm_ring SS T O al alpha (flip B) (flip A) beta (flip C) (flip D) m HSS RL P) as (m' & E & V & F).
  exists m'. split; auto. rewrite flip_rows, flip_cols in V, F. rewrite flip_cols in V. split.
  - intros i j [Hi Hj]. specialize (V j i (conj Hj Hi)). rewrite !flip_addr in V. rewrite V. f_equal. f_equal. rewrite ZB. apply sum_ext.
    intros k Hk. rewrite !flip_addr. apply (rl_mul_comm O RL).
  - intros a Ha. apply F. intros i j [Hi Hj]. rewrite flip_addr. apply Ha. split; auto.
Qed.
(** It is the same to the last bit as the column-major product whenever the factors of a fused multiply-add commute. *)
Theorem C72_gemm_row_major_ops : forall SS T (O : Ops T) al alpha A B beta C D m, 0 < SS ->
  (forall x y z, ofma O x y z = ofma O y x z) -> gemm_pre SS al (flip B) (flip A) (flip C) (flip D) ->
  exists m', gemm SS T O al alpha (flip B) (flip A) beta (flip C) (flip D) m = Ok m' /\
    updated (block (g_rows A) (g_cols B)) (g_addr SS D)
      (fun i j => ofma O beta (m (g_addr SS C i j))
         (omul O (fma_chain O (g_cols A) (fun k => m (g_addr SS A i k)) (fun k => m (g_addr SS B k j)) (o0 O)) alpha)) m m'.
Proof.
  intros SS T O al alpha A B beta C D m HSS FC P.
  pose proof (gp_szB _ _ _ _ _ _ P) as ZB. rewrite flip_rows, flip_cols in ZB.
  destruct (C17_gemm_ops SS T O al alpha (flip B) (flip A) beta (flip C) (flip D) m HSS P) as (m' & E & V & F).
  exists m'. split; auto. rewrite flip_rows, flip_cols in V, F. rewrite flip_cols in V. split.
  - intros i j [Hi Hj]. specialize (V j i (conj Hj Hi)). rewrite !flip_addr in V. rewrite V. f_equal. f_equal. rewrite ZB.
    assert (S : forall K x y z, fma_chain O K x y z = fma_chain O K y x z).
    { clear - FC. induction K as [|K IH]; intros x y z; cbn [fma_chain]; auto. rewrite IH. apply FC. }
    rewrite S. apply fma_chain_ext; intros k Hk; rewrite flip_addr; reflexivity.
  - intros a Ha. apply F. intros i j [Hi Hj]. rewrite flip_addr. apply Ha. split; auto.
Qed.

(* ------------------------------------------------------------------ splitting the inner dimension *)
(** D += alpha * A(:, k0 : k0+k) * B(k0 : k0+k, :) for consecutive blocks of the given widths, starting at column k0 of A *)
Definition k_block (af : bool) (A B : marg) (k0 k : nat) : marg * marg := (arg_window af A 0 k0 (g_rows A) k, arg_window af B k0 0 k (g_cols B)).
Fixpoint k_blocks (SS : nat) T (O : Ops T) al (af : bool) alpha A B D (k0 : nat) (ks : list nat) (m : mem T) : res (mem T) :=
  match ks with
  | [] => Ok m
  | k :: ks => m <- gemm SS T O al alpha (fst (k_block af A B k0 k)) (snd (k_block af A B k0 k)) (o1 O) D D m ;; k_blocks SS T O al af alpha A B D (k0 + k) ks m
  end.
Fixpoint k_blocks_pre (SS : nat) al (af : bool) A B D (k0 : nat) (ks : list nat) : Prop :=
  match ks with [] => True | k :: ks => gemm_pre SS al (fst (k_block af A B k0 k)) (snd (k_block af A B k0 k)) D D /\ k_blocks_pre SS al af A B D (k0 + k) ks end.

Section KSplit.
Context {T : Type} (O : Ops T) (RL : ring_laws O).
Add Ring TRing : (alg_ring O RL).
Lemma sum_app : forall n k f, sum O (n + k) f = oadd O (sum O n f) (sum O k (fun c => f (n + c))).
Proof. intros n k f. apply (sum_split O RL). Qed.
Lemma k_blocks_ok : forall SS al af alpha A B C D, 0 < SS -> gemm_pre SS al A B C D ->
  forall ks k0 m, k0 + list_sum ks <= g_cols A -> k_blocks_pre SS al af A B D k0 ks ->
  exists m', k_blocks SS T O al af alpha A B D k0 ks m = Ok m' /\
    updated (block (g_rows A) (g_cols B)) (g_addr SS D)
      (fun i j => oadd O (m (g_addr SS D i j)) (omul O alpha (sum O (list_sum ks) (fun k => omul O (m (g_addr SS A i (k0 + k))) (m (g_addr SS B (k0 + k) j)))))) m m'.
Proof.
  intros SS al af alpha A B C D HSS P. induction ks as [|k ks IH]; intros k0 m HK HP; cbn [k_blocks list_sum fold_right] in *.
  - exists m. split; auto. split; auto. intros i j _. cbn [sum]. rewrite (mul_0_r O RL), (rl_add_comm O RL), (rl_add_0 O RL). reflexivity.
  - destruct HP as [HP1 HP2]. cbn [k_block fst snd] in *. change (fold_right Init.Nat.add 0 ks) with (list_sum ks) in *.
    destruct (C18_gemm_ring SS T O al alpha _ _ (o1 O) D D m HSS RL HP1) as (m1 & E1 & V1 & F1). rewrite E1. cbn [bind].
    rewrite !arg_window_rows, !arg_window_cols in V1, F1.
    destruct (IH (k0 + k) m1) as (m2 & E2 & V2 & F2); [lia|exact HP2|]. exists m2. split; [exact E2|]. split.
    + intros i j [Hi Hj]. rewrite V2 by (split; auto). rewrite V1 by (split; auto). rewrite !arg_window_cols.
      rewrite sum_app.
      replace (sum O (list_sum ks) (fun c => omul O (m1 (g_addr SS A i (k0 + k + c))) (m1 (g_addr SS B (k0 + k + c) j))))
        with (sum O (list_sum ks) (fun c => omul O (m (g_addr SS A i (k0 + (k + c)))) (m (g_addr SS B (k0 + (k + c)) j)))).
      * replace (sum O k (fun c => omul O (m (g_addr SS (arg_window af A 0 k0 (g_rows A) k) i c)) (m (g_addr SS (arg_window af B k0 0 k (g_cols B)) c j))))
          with (sum O k (fun c => omul O (m (g_addr SS A i (k0 + c))) (m (g_addr SS B (k0 + c) j)))).
        -- rewrite (rl_mul_1 O RL). ring.
        -- apply sum_ext. intros c Hc. rewrite !arg_window_addr. reflexivity.
      * apply sum_ext. intros c Hc. rewrite <- !Nat.add_assoc. f_equal; symmetry; apply F1; intros i' j' [Hi' Hj'] Q; symmetry in Q.
        -- apply (gp_sepA _ _ _ _ _ _ P i' j' i (k0 + (k + c))) in Q; auto. lia.
        -- apply (gp_sepB _ _ _ _ _ _ P i' j' (k0 + (k + c)) j) in Q; auto. rewrite (gp_szB _ _ _ _ _ _ P). lia.
    + intros a Ha. rewrite F2, F1; auto.
Qed.
End KSplit.

(** One call, or one call per block of columns of A and rows of B, of any number and widths: the same matrix D, nothing else changed. *)
Theorem C72_gemm_by_inner_blocks : forall SS T (O : Ops T) al af alpha A B beta C D k1 ks m, 0 < SS -> ring_laws O -> gemm_pre SS al A B C D ->
  k1 + list_sum ks = g_cols A -> gemm_pre SS al (fst (k_block af A B 0 k1)) (snd (k_block af A B 0 k1)) C D -> k_blocks_pre SS al af A B D k1 ks ->
  exists m1 m2, gemm SS T O al alpha A B beta C D m = Ok m1 /\
    (m <- gemm SS T O al alpha (fst (k_block af A B 0 k1)) (snd (k_block af A B 0 k1)) beta C D m ;; k_blocks SS T O al af alpha A B D k1 ks m) = Ok m2 /\
    (forall i j, i < g_rows A -> j < g_cols B -> m1 (g_addr SS D i j) = m2 (g_addr SS D i j)) /\
    (forall a, (forall i j, i < g_rows A -> j < g_cols B -> a <> g_addr SS D i j) -> m1 a = m a /\ m2 a = m a).
Proof.
  intros SS T O al af alpha A B beta C D k1 ks m HSS RL P HK P1 PK.
  destruct (C18_gemm_ring SS T O al alpha A B beta C D m HSS RL P) as (m1 & E1 & V1 & F1).
  destruct (C18_gemm_ring SS T O al alpha _ _ beta C D m HSS RL P1) as (m0 & E0 & V0 & F0).
  cbn [k_block fst snd] in *. rewrite !arg_window_rows, !arg_window_cols in V0, F0.
  destruct (k_blocks_ok O RL SS al af alpha A B C D HSS P ks k1 m0) as (m2 & E2 & V2 & F2); [lia|exact PK|].
  exists m1, m2. split; auto. rewrite E0. cbn [bind]. split; [exact E2|]. split.
  - intros i j Hi Hj. rewrite V1, V2, V0 by (split; auto). rewrite !arg_window_cols, <- HK.
    rewrite (sum_split O RL).
    replace (sum O (list_sum ks) (fun c => omul O (m0 (g_addr SS A i (k1 + c))) (m0 (g_addr SS B (k1 + c) j))))
        with (sum O (list_sum ks) (fun c => omul O (m (g_addr SS A i (k1 + c))) (m (g_addr SS B (k1 + c) j)))).
    + replace (sum O k1 (fun c => omul O (m (g_addr SS (arg_window af A 0 0 (g_rows A) k1) i c)) (m (g_addr SS (arg_window af B 0 0 k1 (g_cols B)) c j))))
          with (sum O k1 (fun c => omul O (m (g_addr SS A i c)) (m (g_addr SS B c j)))).
      * rewrite (rl_mul_comm O RL alpha (oadd O _ _)), (rl_distr O RL).
        rewrite !(rl_mul_comm O RL _ alpha). rewrite <- !(rl_add_assoc O RL). f_equal. apply (rl_add_comm O RL).
      * apply sum_ext. intros c Hc. rewrite !arg_window_addr. reflexivity.
    + apply sum_ext. intros c Hc. f_equal; symmetry; apply F0; intros i' j' [Hi' Hj'] Q; symmetry in Q.
      * apply (gp_sepA _ _ _ _ _ _ P i' j' i (k1 + c)) in Q; auto. lia.
      * apply (gp_sepB _ _ _ _ _ _ P i' j' (k1 + c) j) in Q; auto. rewrite (gp_szB _ _ _ _ _ _ P). lia.
  - intros a Ha. split; [apply F1|rewrite F2, F0; auto]; intros i j [Hi Hj]; auto.
Qed.

(* ------------------------------------------------------------------ associativity *)
Section Assoc.
Context {T : Type} (O : Ops T) (RL : ring_laws O).
Add Ring TRing2 : (alg_ring O RL).
Lemma triple_sum : forall K L (a c : nat -> T) (b : nat -> nat -> T),
  sum O L (fun l => omul O (sum O K (fun k => omul O (a k) (b k l))) (c l)) = sum O K (fun k => omul O (a k) (sum O L (fun l => omul O (b k l) (c l)))).
Proof.
  intros K L a c b.
  transitivity (sum O L (fun l => sum O K (fun k => omul O (a k) (omul O (b k l) (c l))))).
  - apply sum_ext. intros l _. rewrite (rl_mul_comm O RL), <- (sum_scale O RL). apply sum_ext. intros k _. ring.
  - rewrite (sum_swap O RL). apply sum_ext. intros k _. apply (sum_scale O RL).
Qed.
End Assoc.
(** (A * B) * C = A * (B * C), computed with two calls each through the temporaries D and E. *)
Theorem C72_gemm_associative : forall SS T (O : Ops T) al alpha alpha' A B C D E F G m, 0 < SS -> ring_laws O ->
  gemm_pre SS al A B D D -> gemm_pre SS al D C F F -> gemm_pre SS al B C E E -> gemm_pre SS al A E G G ->
  separate (g_rows A) (g_cols B) (g_addr SS D) (g_rows C) (g_cols C) (g_addr SS C) -> separate (g_rows B) (g_cols C) (g_addr SS E) (g_rows A) (g_cols A) (g_addr SS A) ->
  exists m1 m2, (m <- gemm SS T O al alpha A B (o0 O) D D m ;; gemm SS T O al alpha' D C (o0 O) F F m) = Ok m1 /\
    (m <- gemm SS T O al alpha' B C (o0 O) E E m ;; gemm SS T O al alpha A E (o0 O) G G m) = Ok m2 /\
    forall i j, i < g_rows A -> j < g_cols C -> m1 (g_addr SS F i j) = m2 (g_addr SS G i j).
Proof.
  intros SS T O al alpha alpha' A B C D E F G m HSS RL P1 P2 P3 P4 SC SA.
  destruct (C18_gemm_ring SS T O al alpha A B (o0 O) D D m HSS RL P1) as (d & E1 & V1 & F1). rewrite E1. cbn [bind].
  destruct (C18_gemm_ring SS T O al alpha' D C (o0 O) F F d HSS RL P2) as (f & E2 & V2 & F2).
  destruct (C18_gemm_ring SS T O al alpha' B C (o0 O) E E m HSS RL P3) as (e & E3 & V3 & F3). rewrite E3. cbn [bind].
  destruct (C18_gemm_ring SS T O al alpha A E (o0 O) G G e HSS RL P4) as (g & E4 & V4 & F4).
  exists f, g. split; auto. split; auto. intros i j Hi Hj.
  destruct (gp_szC _ _ _ _ _ _ P1) as [D1 D2]. destruct (gp_szC _ _ _ _ _ _ P3) as [X1 X2].
  pose proof (gp_szB _ _ _ _ _ _ P2) as C1. pose proof (gp_szB _ _ _ _ _ _ P1) as B1. pose proof (gp_szB _ _ _ _ _ _ P3) as C2.
  rewrite V2, V4 by (split; congruence). rewrite !(mul_0_l O RL), !(rl_add_comm O RL _ (o0 O)), !(rl_add_0 O RL). rewrite D2.
  transitivity (omul O alpha' (omul O alpha (sum O (g_cols B) (fun l => omul O (sum O (g_cols A) (fun k => omul O (m (g_addr SS A i k)) (m (g_addr SS B k l)))) (m (g_addr SS C l j)))))).
  - f_equal. rewrite <- (sum_scale O RL). apply sum_ext. intros l Hl. rewrite V1 by (split; auto).
    rewrite (mul_0_l O RL), (rl_add_comm O RL _ (o0 O)), (rl_add_0 O RL). rewrite <- (rl_mul_assoc O RL). do 2 f_equal. apply F1.
    intros i' j' [Hi' Hj'] Q. symmetry in Q. apply (SC i' j' l j) in Q; auto. rewrite C2. exact Hl.
  - rewrite (triple_sum O RL).
    rewrite (rl_mul_assoc O RL), (rl_mul_comm O RL alpha' alpha), <- (rl_mul_assoc O RL). f_equal. rewrite <- (sum_scale O RL). apply sum_ext. intros k Hk.
    rewrite V3 by (split; congruence). rewrite (mul_0_l O RL), (rl_add_comm O RL _ (o0 O)), (rl_add_0 O RL).
    rewrite (rl_mul_assoc O RL), (rl_mul_comm O RL alpha'), <- (rl_mul_assoc O RL). f_equal.
    + symmetry. apply F3. intros i' j' [Hi' Hj'] Q. symmetry in Q. apply (SA i' j' i k) in Q; auto.
Qed.

(* ------------------------------------------------------------------ syrk is gemm with the transpose *)
Theorem C72_syrk_is_gemm : forall SS cc T (O : Ops T) al alpha A beta C D m, 0 < SS -> 0 < cc -> ring_laws O -> syrk_pre SS cc al A C D ->
  gemm_pre SS al (MArg A false) (MArg A true) (MArg C false) (MArg D false) ->
  exists m1 m2, syrkLower SS cc T O al alpha A beta C D m = Ok m1 /\ gemm SS T O al alpha (MArg A false) (MArg A true) beta (MArg C false) (MArg D false) m = Ok m2 /\
    (forall i j, lower (v_m A) (v_m A) i j -> m1 (v_addr SS D i j) = m2 (v_addr SS D i j)) /\
    (forall i j, i < j -> j < v_m A -> m1 (v_addr SS D i j) = m (v_addr SS D i j)).
Proof.
  intros SS cc T O al alpha A beta C D m HSS Hcc RL P PG.
  destruct (C24_syrk_ring SS cc T O al alpha A beta C D m HSS Hcc RL P) as (m1 & E1 & V1 & F1).
  destruct (C18_gemm_ring SS T O al alpha _ _ beta _ _ m HSS RL PG) as (m2 & E2 & V2 & F2).
  exists m1, m2. split; auto. split; auto. split.
  - intros i j Hij. rewrite V1 by auto. specialize (V2 i j). cbn in V2. rewrite V2 by (unfold lower, block in *; lia). reflexivity.
  - intros i j H1 H2. apply (C24_syrk_upper_untouched SS cc T O al alpha A beta C D m m1); auto.
Qed.

(* ------------------------------------------------------------------ examples *)
(** The conditions on concrete operands can be checked by evaluation. *)
Definition all2 (m n : nat) (f : nat -> nat -> bool) : bool := forallb (fun i => forallb (f i) (seq 0 n)) (seq 0 m).
Lemma all2_ok : forall m n f, all2 m n f = true -> forall i j, i < m -> j < n -> f i j = true.
Proof.
  intros m n f H i j Hi Hj. unfold all2 in H. rewrite forallb_forall in H. specialize (H i). rewrite in_seq in H. specialize (H ltac:(lia)).
  rewrite forallb_forall in H. apply H. apply in_seq. lia.
Qed.
Lemma allocated_check : forall al m n ad, all2 m n (fun i j => al (ad i j)) = true -> allocated al m n ad.
Proof. intros al m n ad H i j Hi Hj. apply (all2_ok m n _ H); auto. Qed.
Lemma separate_check : forall m n ad m' n' ad', all2 m n (fun i j => all2 m' n' (fun i' j' => negb (ad i j =? ad' i' j'))) = true -> separate m n ad m' n' ad'.
Proof.
  intros m n ad m' n' ad' H i j i' j' Hi Hj Hi' Hj'. pose proof (all2_ok _ _ _ (all2_ok _ _ _ H i j Hi Hj) i' j' Hi' Hj') as Q. cbn beta in Q.
  destruct (Nat.eqb_spec (ad i j) (ad' i' j')); auto; discriminate.
Qed.
Lemma same_check : forall m n ad m' n' ad', all2 m n (fun i j => all2 m' n' (fun i' j' => implb (ad i j =? ad' i' j') ((i =? i') && (j =? j')))) = true ->
  forall i j i' j', block m n i j -> block m' n' i' j' -> ad i j = ad' i' j' -> i = i' /\ j = j'.
Proof.
  intros m n ad m' n' ad' H i j i' j' [Hi Hj] [Hi' Hj'] E. pose proof (all2_ok _ _ _ (all2_ok _ _ _ H i j Hi Hj) i' j' Hi' Hj') as Q. cbn beta in Q.
  rewrite E, Nat.eqb_refl in Q. cbn in Q. apply andb_prop in Q. rewrite !Nat.eqb_eq in Q. exact Q.
Qed.
Ltac check_pre := constructor; try (apply allocated_check; vm_compute; reflexivity); try (apply separate_check; vm_compute; reflexivity);
  try (apply same_check; vm_compute; reflexivity); try reflexivity; try (cbv; repeat split; auto; lia); try (cbv; intros; auto; discriminate).

(** Row-major 5-by-3 and 3-by-6 matrices, their product and C = D row-major, with the transposed call. *)
Definition rmA : marg := MArg (whole (Cont Dense false rowMajor 5 3 0)) false.
Definition rmB : marg := MArg (whole (Cont Dense false rowMajor 3 6 20)) false.
Definition rmD : marg := MArg (whole (Cont Dense false rowMajor 5 6 44)) false.
Example C72_example_row_major : gemm_pre 4 (fun x => x <? 84) (flip rmB) (flip rmA) (flip rmD) (flip rmD) /\
  match gemm 4 Z zops (fun x => x <? 84) 2%Z (flip rmB) (flip rmA) 3%Z (flip rmD) (flip rmD) (fun a => Z.of_nat a) with
  | Ok m' => m' (g_addr 4 rmD 4 5) = (2 * (16 * 25 + 17 * 33 + 18 * 41) + 3 * 81)%Z | _ => False end.
Proof. split; [check_pre|vm_compute; reflexivity]. Qed.
(** 6-by-5 times 5-by-3 in three blocks of 2, 0 and 3 inner columns. *)
Definition kA : marg := MArg (whole (Cont Dense false columnMajor 6 5 0)) false.
Definition kB : marg := MArg (whole (Cont Dense false columnMajor 5 3 40)) false.
Definition kD : marg := MArg (whole (Cont Panel false columnMajor 6 3 64)) false.
Definition k_al (x : nat) : bool := x <? 88.
Example C72_example_inner : gemm_pre 4 k_al kA kB kD kD /\ gemm_pre 4 k_al (fst (k_block false kA kB 0 2)) (snd (k_block false kA kB 0 2)) kD kD /\
  k_blocks_pre 4 k_al false kA kB kD 2 [0; 3] /\ 2 + list_sum [0; 3] = g_cols kA.
Proof. split; [check_pre|]. split; [check_pre|]. split; [split; [check_pre|split; [check_pre|exact I]]|reflexivity]. Qed.
(** Associativity: 5-by-2 times 2-by-3 times 3-by-4. *)
Definition sM (r c b : nat) : marg := MArg (whole (Cont Dense false columnMajor r c b)) false.
Example C72_example_associative : let al := fun x => x <? 400 in
  let A := sM 5 2 0 in let B := sM 2 3 16 in let C := sM 3 4 28 in let D := sM 5 3 44 in let E := sM 2 4 68 in let F := sM 5 4 84 in let G := sM 5 4 120 in
  (gemm_pre 4 al A B D D /\ gemm_pre 4 al D C F F /\ gemm_pre 4 al B C E E /\ gemm_pre 4 al A E G G) /\
  separate (g_rows A) (g_cols B) (g_addr 4 D) (g_rows C) (g_cols C) (g_addr 4 C) /\ separate (g_rows B) (g_cols C) (g_addr 4 E) (g_rows A) (g_cols A) (g_addr 4 A).
Proof. cbv zeta. split; [split; [check_pre|split; [check_pre|split; check_pre]]|split; apply separate_check; vm_compute; reflexivity]. Qed.
Example C72_example_syrk : syrk_pre 4 1 sal (whole sA) (whole sD) (whole sD) /\ gemm_pre 4 sal (MArg (whole sA) false) (MArg (whole sA) true) (MArg (whole sD) false) (MArg (whole sD) false).
Proof. split; [exact C24_example|check_pre]. Qed.

(** In IEEE 754 arithmetic the factors of a fused multiply-add commute, so a row-major product in double or float is the column-major one to the last bit. *)
From Flocq Require Import Core BinarySingleNaN Operations.
From Verif Require Import Float_Proofs.
Lemma Bfma_comm : forall prec emax Hp Hm (x y z : binary_float prec emax), ofma (fops prec emax Hp Hm) x y z = ofma (fops prec emax Hp Hm) y x z.
Proof.
  intros prec emax Hp Hm x y z. cbn [ofma fops].
  assert (S : Bfma_szero prec emax mode_NE x y z = Bfma_szero prec emax mode_NE y x z) by (unfold Bfma_szero; rewrite (xorb_comm (Bsign x)); reflexivity).
  unfold Bfma. rewrite S. destruct x as [sx|sx| |sx mx ex hx], y as [sy|sy| |sy my ey hy]; try reflexivity; rewrite ?(xorb_comm sx sy); try reflexivity.
  unfold Fmult. rewrite (Z.mul_comm (cond_Zopp sx _)), (Z.add_comm ex ey). reflexivity.
Qed.
Theorem C72_row_major_double : forall SS al alpha A B beta C D m, 0 < SS -> gemm_pre SS al (flip B) (flip A) (flip C) (flip D) ->
  exists m', gemm SS b64 b64ops al alpha (flip B) (flip A) beta (flip C) (flip D) m = Ok m' /\
    updated (block (g_rows A) (g_cols B)) (g_addr SS D)
      (fun i j => ofma b64ops beta (m (g_addr SS C i j))
         (omul b64ops (fma_chain b64ops (g_cols A) (fun k => m (g_addr SS A i k)) (fun k => m (g_addr SS B k j)) (o0 b64ops)) alpha)) m m'.
Proof. intros. apply C72_gemm_row_major_ops; auto. intros. apply Bfma_comm. Qed.
