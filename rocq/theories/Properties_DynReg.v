(** Properties_DynReg.v -- C43: DynamicRegisterMatrix restricted to its run-time size. *)
From Coq Require Import Arith Lia List Bool PeanoNat ZArith.
From Verif Require Import Base Base_Proofs Spec Instances Layout_Model Layout_Proofs Simd_Model Simd_Proofs
  Reg_Model Reg_Proofs DynReg_Model Properties_Layout Properties_Reg.
Import ListNotations.

(** Every address is one of the addresses of a block or none of them. *)
Lemma block_dec : forall M N (ad : nat -> nat -> nat) x,
  (exists i j, i < M /\ j < N /\ x = ad i j) \/ (forall i j, i < M -> j < N -> x <> ad i j).
Proof.
  intros M N ad x.
  assert (R : forall i n, (exists j, j < n /\ x = ad i j) \/ (forall j, j < n -> x <> ad i j)).
  { intros i n. induction n as [|n [(j & Hj & E)|IH]].
    - right. intros; lia.
    - left. exists j. split; auto.
    - destruct (Nat.eq_dec x (ad i n)) as [E|E]; [left; exists n; auto|].
      right. intros j Hj. destruct (Nat.eq_dec j n); subst; auto. apply IH. lia. }
  induction M as [|M [(i & j & Hi & Hj & E)|IH]].
  - right. intros; lia.
  - left. exists i, j. auto.
  - destruct (R M N) as [(j & Hj & E)|H]; [left; exists M, j; auto|].
    right. intros i j Hi Hj. destruct (Nat.eq_dec i M); subst; auto. apply IH; auto. lia.
Qed.
(** A loop whose iterations either succeed or are UB is UB if one of them is. *)
Lemma for_ub : forall (St : Type) lo hi (f : nat -> St -> res St) k s,
  (forall i s, (exists s', f i s = Ok s') \/ f i s = UB) -> lo <= k < hi -> (forall s, f k s = UB) -> for_ lo hi f s = UB.
Proof.
  intros St lo hi f k s H Hk Hub. unfold for_.
  assert (G : forall n lo s, lo <= k < lo + n -> loop n lo f s = UB).
  { induction n as [|n IH]; intros l s0 Hl; [lia|]. cbn [loop]. destruct (Nat.eq_dec l k) as [->|].
    - rewrite Hub. reflexivity.
    - destruct (H l s0) as [(s' & E)|E]; rewrite E; cbn [bind]; auto. apply IH. lia. }
  apply G. lia.
Qed.
Lemma for_ok_or_ub : forall (St : Type) lo hi (f : nat -> St -> res St) s,
  (forall i s, (exists s', f i s = Ok s') \/ f i s = UB) -> (exists s', for_ lo hi f s = Ok s') \/ for_ lo hi f s = UB.
Proof.
  intros St lo hi f s H. unfold for_. generalize (hi - lo). intros n. revert lo s.
  induction n as [|n IH]; intros l s; cbn [loop]; eauto.
  destruct (H l s) as [(s' & E)|E]; rewrite E; cbn [bind]; auto.
Qed.

Section Props.
Variable SS : nat.
Hypothesis HSS : 0 < SS.
Variable T : Type.
Variable O : Ops T.
Notation dreg := (dreg T).
Notation dr_at := (dr_at SS T).
Arguments dr_m {T}. Arguments dr_n {T}. Arguments dr_v {T}.

(** The run-time size does not exceed the capacity (BLAST_USER_ASSERT in the constructor). *)
Definition size_ok (N RM : nat) (d : dreg) : Prop := dr_m d <= RM * SS /\ dr_n d <= N.

Theorem C43_construct : forall N RM mm nn u, mm <= RM * SS -> nn <= N ->
  exists d, dr_construct T O N RM mm nn u = Ok d /\ dr_m d = mm /\ dr_n d = nn /\
    forall i j, i < mm -> j < nn -> dr_at d i j = o0 O.
Proof.
  intros N RM mm nn u Hm Hn. unfold dr_construct, dr_reset, dr_with. cbn [DynReg_Model.dr_v DynReg_Model.dr_m DynReg_Model.dr_n].
  destruct (reg_reset_ok SS HSS T O N RM u) as (r & E & H). rewrite E. cbn [bind].
  eexists. split; [reflexivity|]. split; auto. split; auto. intros i j Hi Hj. apply H; lia.
Qed.

Theorem C43_scale : forall N RM alpha d, size_ok N RM d ->
  exists d', dr_scale T O N RM alpha d = Ok d' /\ dr_m d' = dr_m d /\ dr_n d' = dr_n d /\
    forall i j, i < dr_m d -> j < dr_n d -> dr_at d' i j = omul O (dr_at d i j) alpha.
Proof.
  intros N RM alpha [mm nn v] [Hm Hn]. cbn in Hm, Hn. unfold dr_scale, dr_with. cbn [DynReg_Model.dr_v DynReg_Model.dr_m DynReg_Model.dr_n].
  destruct (reg_scale_ok SS HSS T O N RM alpha v) as (r & E & H). rewrite E. cbn [bind].
  eexists. split; [reflexivity|]. split; auto. split; auto. intros i j Hi Hj. apply H; lia.
Qed.

(** load(p): the m_-by-n_ block is read from memory; all RM * SS rows of p must be readable, not just m_. *)
Theorem C43_load : forall al N RM p m d, size_ok N RM d -> col_ptr SS p -> allocated al (RM * SS) (dr_n d) (addr SS p) ->
  exists d', dr_load SS T O al N RM p m d = Ok d' /\ dr_m d' = dr_m d /\ dr_n d' = dr_n d /\
    forall i j, i < dr_m d -> j < dr_n d -> dr_at d' i j = m (addr SS p i j).
Proof.
  intros al N RM p m [mm nn v] [Hm Hn] [Hw Hs] Hal. cbn in Hm, Hn, Hal. unfold dr_load, dr_with. rewrite (cm_only_ok) by auto. cbn [DynReg_Model.dr_v DynReg_Model.dr_m DynReg_Model.dr_n].
  destruct (nest_loop SS HSS T N RM (fun j => j <? nn) always
    (fun j r => if j <? nn then for_ 0 RM (fun i r => x <- mp_load SS T O al (poff SS p (SS * i) j) m ;; Ok (rupd T r i j x)) r else Ok r)
    (fun i j _ => mp_load SS T O al (poff SS p (SS * i) j) m)
    (fun i j w => forall l, l < SS -> w l = m (addr SS p (SS * i + l) j)) v) as (r & E & H & _).
  - intros j r Hj C. cbn beta in C. rewrite C. reflexivity.
  - intros j r Hj C. cbn beta in C. rewrite C. reflexivity.
  - intros i j Hi Hj C _. apply Nat.ltb_lt in C. apply (load_block SS HSS); auto using (mult_mod0 SS HSS).
    intros l Hl. apply Hal; auto. nia.
  - rewrite E. cbn [bind]. eexists. split; [reflexivity|]. split; auto. split; auto. intros i j Hi Hj.
    unfold DynReg_Model.dr_at. cbn [DynReg_Model.dr_v]. destruct (elem_split SS HSS i RM ltac:(lia)) as (A & B & C).
    rewrite H; auto; try lia. apply Nat.ltb_lt; auto.
Qed.

(** store(p) writes exactly the m_-by-n_ block. *)
Theorem C43_store : forall al N RM p d, size_ok N RM d -> col_ptr SS p -> storable p ->
  allocated al (dr_m d) (dr_n d) (addr SS p) -> distinct (dr_m d) (dr_n d) (addr SS p) ->
  writes (dr_store SS T al N RM p d) (block (dr_m d) (dr_n d)) (addr SS p) (dr_at d).
Proof.
  intros al N RM p [mm nn v] [Hm Hn] Hp Hst Hal Hd. cbn in *.
  pose proof (C12_partial_store SS HSS T al N RM p v mm nn Hp Hst Hm Hn Hal Hd) as H.
  unfold reg_store_mn in H. rewrite Nat.min_l in H by auto. exact H.
Qed.

Theorem C43_storeLower : forall al N RM p d, size_ok N RM d -> col_ptr SS p -> storable p ->
  (forall i j, lower (dr_m d) (dr_n d) i j -> al (addr SS p i j) = true) -> distinct (dr_m d) (dr_n d) (addr SS p) ->
  writes (dr_storeLower SS T al N RM p d) (lower (dr_m d) (dr_n d)) (addr SS p) (dr_at d).
Proof.
  intros al N RM p [mm nn v] [Hm Hn] Hp Hst Hal Hd. cbn in *.
  exact (C13_storeLower_sized SS HSS T al N RM p v mm nn Hp Hst Hm Hn Hal Hd).
Qed.

(** ger: R(i, j) = fma(alpha * a(i), b(j), R(i, j)) on the m_-by-n_ block; RM * SS elements of a's column must be readable. *)
Lemma dr_ger_gen_ok : forall al N RM f (ff : T -> T) a b m d, size_ok N RM d -> col_ptr SS a ->
  (forall i, i < RM * SS -> al (addr SS a i 0) = true) -> (forall j, j < dr_n d -> al (addr SS b 0 j) = true) ->
  (forall v l, f v l = ff (v l)) ->
  exists d', dr_ger_gen SS T O al N RM f a b m d = Ok d' /\ dr_m d' = dr_m d /\ dr_n d' = dr_n d /\
    forall i j, i < dr_m d -> j < dr_n d ->
      dr_at d' i j = ofma O (ff (m (addr SS a i 0))) (m (addr SS b 0 j)) (dr_at d i j).
Proof.
  intros al N RM f ff a b m [mm nn v] [Hm Hn] [Hw Hs] Ha Hb Hf. cbn in *. unfold dr_ger_gen, dr_with. rewrite cm_only_ok by auto. cbn [DynReg_Model.dr_v DynReg_Model.dr_m DynReg_Model.dr_n].
  match goal with |- context [@bind _ _ (@for_ ?St 0 RM ?g ?s0) _] =>
    destruct (for_inv St (fun k ax => forall i, i < k -> forall l, l < SS -> ax i l = ff (m (addr SS a (SS * i + l) 0))) 0 RM g s0) as (ax & E & H) end.
  - lia.
  - intros; lia.
  - intros i ax Hi IH. destruct (load_block SS HSS T O al a (i * SS) 0 m Hw Hs) as (x & Ex & Hx).
    + apply (mult_mod0' SS HSS).
    + intros l Hl. apply Ha. nia.
    + rewrite Ex. cbn [bind]. eexists. split; [reflexivity|]. intros i' Hi' l Hl. cbn beta. destruct (Nat.eqb_spec i' i) as [->|].
      * rewrite Hf, Hx by auto. rewrite (Nat.mul_comm i). reflexivity.
      * apply IH; auto; lia.
  - rewrite E. cbn [bind].
    destruct (ger_update_ok SS HSS T O al N RM (fun j => j <? nn) ax (VMat rowVector b) m v
       (fun i => ff (m (addr SS a i 0))) (fun j => m (addr SS b 0 j))) as (r & Er & H1 & _).
    + intros i Hi l Hl. apply H; auto.
    + intros j Hj C. apply Nat.ltb_lt in C. cbn [vaddr]. unfold rd. rewrite Hb; auto.
    + unfold ger_update in Er. cbn [vaddr] in Er. rewrite Er. cbn [bind].
      eexists. split; [reflexivity|]. split; auto. split; auto. intros i j Hi Hj. apply H1; try lia. apply Nat.ltb_lt. auto.
Qed.
Theorem C43_ger : forall al N RM alpha a b m d, size_ok N RM d -> col_ptr SS a ->
  (forall i, i < RM * SS -> al (addr SS a i 0) = true) -> (forall j, j < dr_n d -> al (addr SS b 0 j) = true) ->
  exists d', dr_ger_alpha SS T O al N RM alpha a b m d = Ok d' /\ dr_m d' = dr_m d /\ dr_n d' = dr_n d /\
    forall i j, i < dr_m d -> j < dr_n d ->
      dr_at d' i j = ofma O (omul O alpha (m (addr SS a i 0))) (m (addr SS b 0 j)) (dr_at d i j).
Proof. intros. apply (dr_ger_gen_ok al N RM _ (fun x => omul O alpha x)); auto. Qed.
Theorem C43_ger_unscaled : forall al N RM a b m d, size_ok N RM d -> col_ptr SS a ->
  (forall i, i < RM * SS -> al (addr SS a i 0) = true) -> (forall j, j < dr_n d -> al (addr SS b 0 j) = true) ->
  exists d', dr_ger SS T O al N RM a b m d = Ok d' /\ dr_m d' = dr_m d /\ dr_n d' = dr_n d /\
    forall i j, i < dr_m d -> j < dr_n d ->
      dr_at d' i j = ofma O (m (addr SS a i 0)) (m (addr SS b 0 j)) (dr_at d i j).
Proof. intros. apply (dr_ger_gen_ok al N RM _ (fun x => x)); auto. Qed.

(** The same calls on a RegisterMatrix of the same shape give the same leading m_-by-n_ block. *)
Theorem C43_same_as_register_matrix : forall al N RM alpha p a b q m d r, size_ok N RM d ->
  col_ptr SS p -> col_ptr SS a -> panel_start SS a -> col_ptr SS q -> storable q ->
  allocated al (RM * SS) N (addr SS p) -> (forall i, i < RM * SS -> al (addr SS a i 0) = true) ->
  (forall j, j < N -> al (addr SS b 0 j) = true) ->
  allocated al (dr_m d) (dr_n d) (addr SS q) -> distinct (dr_m d) (dr_n d) (addr SS q) ->
  exists m1 m2,
    (d <- dr_load SS T O al N RM p m d ;; d <- dr_ger_alpha SS T O al N RM alpha a b m d ;; dr_store SS T al N RM q d m) = Ok m1 /\
    (r <- reg_load SS T O al N RM p m r ;;
     r <- reg_ger_alpha SS T O al N RM alpha (VMat columnVector a) (VMat rowVector b) m r ;;
     reg_store_mn SS T al N RM q (dr_m d) (dr_n d) r m) = Ok m2 /\
    forall x, m1 x = m2 x.
Proof.
  intros al N RM alpha p a b q m d r Hd Hp Ha La Hq Sq Ap Aa Ab Aq Dq. pose proof Hd as [Hm Hn].
  destruct (C43_load al N RM p m d Hd Hp) as (d1 & E1 & S1 & S1' & V1).
  { intros i j Hi Hj. apply Ap; lia. }
  assert (Hd1 : size_ok N RM d1) by (split; congruence).
  destruct (C43_ger al N RM alpha a b m d1 Hd1 Ha Aa) as (d2 & E2 & S2 & S2' & V2).
  { intros j Hj. apply Ab. lia. }
  assert (Hd2 : size_ok N RM d2) by (split; congruence).
  assert (Q1 : dr_m d2 = dr_m d) by congruence. assert (Q2 : dr_n d2 = dr_n d) by congruence.
  destruct (C43_store al N RM q d2 Hd2 Hq Sq ltac:(rewrite Q1, Q2; auto) ltac:(rewrite Q1, Q2; auto) m) as (m1 & E3 & U1 & U2).
  exists m1. rewrite E1. cbn [bind]. rewrite E2. cbn [bind]. rewrite E3.
  destruct Hp as [Pw Ps]. destruct Ha as [Aw As].
  destruct (reg_load_ok SS HSS T O al N RM p m r Pw Ps Ap) as (r1 & F1 & W1).
  destruct (C14_ger SS HSS T O al N RM alpha (VMat columnVector a) (VMat rowVector b) m r1) as (r2 & F2 & W2); auto.
  { split; auto. }
  rewrite F1. cbn [bind]. rewrite F2. cbn [bind].
  destruct (C12_partial_store SS HSS T al N RM q r2 (dr_m d) (dr_n d) Hq Sq Hm Hn Aq Dq m) as (m2 & F3 & U3 & U4).
  exists m2. split; auto. split; auto. intros x.
  destruct (block_dec (dr_m d) (dr_n d) (addr SS q) x) as [(i & j & Hi & Hj & ->)|N0].
  - rewrite U1 by (split; congruence). rewrite U3 by (split; auto). rewrite V2, V1 by congruence.
    rewrite W2 by lia. rewrite W1 by lia. reflexivity.
  - rewrite U2, U4; auto; intros i j [Hi Hj]; apply N0; congruence.
Qed.

(** The whole of RM registers is loaded whatever the run-time size is: for a dense column-major matrix with one or more
    columns whose (padded) columns are shorter than the register matrix, load() reads past the end of the buffer. *)
Theorem C43_load_overread_refuted : forall N RM c m d,
  c_kind c = Dense -> c_so c = columnMajor -> 0 < c_cols c -> dr_m d = c_rows c -> dr_n d = c_cols c -> c_cols c <= N ->
  nextMultiple (c_rows c) SS < RM * SS ->
  dr_load SS T O (c_alloc SS c) N RM (v_ptr SS true (whole c) 0 0) m d = UB.
Proof.
  intros N RM c m [mm nn v] Hk Hs Hn Em En HN Hov. cbn in Em, En. subst mm nn. unfold dr_load, dr_with. rewrite cm_only_ok by (cbn; exact Hs).
  cbn [DynReg_Model.dr_v DynReg_Model.dr_m DynReg_Model.dr_n].
  assert (L : forall i j, exists af b, poff SS (v_ptr SS true (whole c) 0 0) (SS * i) j = MPtr Dense columnMajor af true b (c_spacing SS c) /\
                 b = c_base c + SS * i + c_spacing SS c * j).
  { intros i j. unfold v_ptr, poff, whole, ptr_offset, c_addr, c_index. cbn. rewrite Hk, Hs. cbn. eexists. eexists. split; [reflexivity|].
    unfold v_data, v_addr, c_addr, c_index. cbn [v_cont v_i v_j]. rewrite Hk, Hs. lia. }
  assert (OU : forall i j (r : regs T), (exists s', (x <- mp_load SS T O (c_alloc SS c) (poff SS (v_ptr SS true (whole c) 0 0) (SS * i) j) m ;; Ok (rupd T r i j x)) = Ok s') \/
     (x <- mp_load SS T O (c_alloc SS c) (poff SS (v_ptr SS true (whole c) 0 0) (SS * i) j) m ;; Ok (rupd T r i j x)) = UB).
  { intros i j r. destruct (L i j) as (af & b & E & _). rewrite E. unfold mp_load, simd_load. cbn [mp_kind mp_af mp_base].
    destruct (af && negb (b mod SS =? 0)); [right; reflexivity|]. destruct (forallb _ _); [left; eexists; reflexivity|right; reflexivity]. }
  rewrite (for_ub _ 0 N _ (c_cols c - 1)); auto.
  - intros j r. destruct (j <? c_cols c); [|eauto]. apply for_ok_or_ub. intros i r1. apply OU.
  - lia.
  - intros r. destruct (Nat.ltb_spec (c_cols c - 1) (c_cols c)); [|lia].
    apply (for_ub _ 0 RM _ (nextMultiple (c_rows c) SS / SS)).
    + intros i r1. apply OU.
    + destruct (nextMultiple_spec (c_rows c) SS HSS) as (_ & M & _). apply mod0_ex in M; auto. destruct M as [q Eq].
      rewrite Eq in *. rewrite (Nat.mul_comm SS q), Nat.div_mul by lia. nia.
    + intros r1. destruct (L (nextMultiple (c_rows c) SS / SS) (c_cols c - 1)) as (af & b & E & Eb). rewrite E.
      unfold mp_load, simd_load. cbn [mp_kind mp_af mp_base]. destruct (af && negb (b mod SS =? 0)); [reflexivity|].
      replace (forallb (fun l => c_alloc SS c (b + l)) (seq 0 SS)) with false; [reflexivity|]. symmetry.
      apply not_true_is_false. intros X. rewrite forallb_forall in X. specialize (X 0 ltac:(apply in_seq; lia)). rewrite Nat.add_0_r in X.
      revert X. apply not_true_iff_false.
      unfold c_alloc. apply andb_false_iff. right. apply Nat.ltb_ge. rewrite Eb.
      destruct (nextMultiple_spec (c_rows c) SS HSS) as (_ & M & _). apply mod0_ex in M; auto. destruct M as [q Eq].
      assert (D : nextMultiple (c_rows c) SS / SS = q) by (rewrite Eq, (Nat.mul_comm SS q); apply Nat.div_mul; lia).
      unfold c_capacity, c_spacing. rewrite Hk, Hs, D, Eq. nia.
Qed.

(** Comparison with a matrix. *)
Theorem C43_equality : forall d M' N' e,
  dr_eq SS T O d M' N' e = true <->
  M' = dr_m d /\ N' = dr_n d /\ forall i j, i < M' -> j < N' -> oeqb O (dr_at d i j) (e i j) = true.
Proof.
  intros. unfold dr_eq. destruct (Nat.eqb_spec M' (dr_m d)) as [->|E1]; destruct (Nat.eqb_spec N' (dr_n d)) as [->|E2]; cbn [andb negb];
    try (split; [discriminate|intros (X & Y & _); subst; contradiction]).
  rewrite forallb_forall. split.
  - intros H. split; auto. split; auto. intros i j Hi Hj. specialize (H i ltac:(apply in_seq; lia)). rewrite forallb_forall in H.
    apply H. apply in_seq. lia.
  - intros (_ & _ & H) i Hi. apply in_seq in Hi. apply forallb_forall. intros j Hj. apply in_seq in Hj. apply H; lia.
Qed.
End Props.

(** Example: an 8-by-4 register matrix (SS = 4, RM = 2) of run-time size 5-by-3, loaded from an 8-by-3 panel matrix and
    stored to a dense one, with a rank-1 update in between; and a 3-by-1 matrix in a 12-row register matrix (overread). *)
Example C43_example_hypotheses : size_ok 4 Z 4 2 (DReg Z 5 3 (fun _ _ _ => 0%Z)) /\ col_ptr 4 panel_ptr /\ panel_start 4 panel_ptr /\ allocated (fun a => a <? 24) (2 * 4) 3 (addr 4 panel_ptr).
Proof.
  split; [split; cbn; lia|]. destruct panel_ptr_ok as (A & B & C & D). split; auto. split; [intros _; reflexivity|]. exact D.
Qed.
Example C43_example_run :
  let al := fun a => a <? 80 in
  let d0 := DReg Z 5 3 (fun _ _ _ => 99%Z) in
  match (d <- dr_load 4 Z zops al 4 2 panel_ptr (fun a => Z.of_nat a) d0 ;;
         d <- dr_ger_alpha 4 Z zops al 4 2 2%Z panel_ptr (MPtr Dense rowMajor true true 40 8) (fun a => Z.of_nat a) d ;;
         dr_store 4 Z al 4 2 (MPtr Dense columnMajor true true 48 8) d (fun _ => 0%Z)) with
  | Ok m' => map m' (seq 48 24) | _ => [] end =
  [0; 81; 162; 243; 972; 0; 0; 0; 4; 87; 170; 253; 1000; 0; 0; 0; 8; 93; 178; 263; 1028; 0; 0; 0]%Z.
Proof. vm_compute. reflexivity. Qed.
Example C43_example_overread : nextMultiple 3 4 < 3 * 4. Proof. cbn. lia. Qed.
