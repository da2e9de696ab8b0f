(** LU_Proofs.v -- iamax, swap, laswp, getf2. *)
From Coq Require Import Arith Lia List Bool PeanoNat.
From Verif Require Import Base Base_Proofs Spec Algebra_Proofs Layout_Model Layout_Proofs Simd_Model Simd_Proofs Vec_Proofs
  Gemm_Model Arg_Proofs Ger_Model Ger_Proofs Scan_Proofs Tri_Model Ref_Model Ref_Proofs LU_Model LU_Theory.

Section Generic.
Variable T : Type.
Variable O : Ops T.

(** Loops that may throw. *)
Lemma loop_inv_throw : forall St (P : nat -> St -> Prop) (E : Prop) e (f : nat -> St -> res St) n lo s,
  P lo s -> (forall i s, lo <= i < lo + n -> P i s -> (exists s', f i s = Ok s' /\ P (Datatypes.S i) s') \/ (f i s = Throw e /\ E)) ->
  (exists s', for_ lo (lo + n) f s = Ok s' /\ P (lo + n) s') \/ (for_ lo (lo + n) f s = Throw e /\ E).
Proof.
  intros St P E e f n. induction n as [|n IH]; intros lo s H0 Hf.
  - rewrite Nat.add_0_r. left. exists s. split; auto. apply for_empty. lia.
  - destruct (Hf lo s ltac:(lia) H0) as [(s' & E1 & P1)|[E1 X]].
    + destruct (IH (Datatypes.S lo) s' P1) as [(s2 & E2 & P2)|[E2 X]].
      * intros i s2 Hi. apply Hf. lia.
      * left. exists s2. replace (lo + Datatypes.S n) with (Datatypes.S lo + n) by lia. split; auto.
        rewrite <- E2. unfold for_. replace (Datatypes.S lo + n - lo) with (Datatypes.S n) by lia.
        replace (Datatypes.S lo + n - Datatypes.S lo) with n by lia. cbn [loop]. rewrite E1. reflexivity.
      * right. split; auto. rewrite <- E2. unfold for_. replace (lo + Datatypes.S n - lo) with (Datatypes.S n) by lia.
        replace (Datatypes.S lo + n - Datatypes.S lo) with n by lia. cbn [loop]. rewrite E1. reflexivity.
    + right. split; auto. unfold for_. replace (lo + Datatypes.S n - lo) with (Datatypes.S n) by lia. cbn [loop]. rewrite E1. reflexivity.
Qed.
Lemma for_inv_throw : forall St (P : nat -> St -> Prop) (E : Prop) e lo hi (f : nat -> St -> res St) s, lo <= hi ->
  P lo s -> (forall i s, lo <= i < hi -> P i s -> (exists s', f i s = Ok s' /\ P (Datatypes.S i) s') \/ (f i s = Throw e /\ E)) ->
  (exists s', for_ lo hi f s = Ok s' /\ P hi s') \/ (for_ lo hi f s = Throw e /\ E).
Proof.
  intros St P E e lo hi f s H H0 Hf. replace hi with (lo + (hi - lo)) by lia. apply loop_inv_throw; auto.
  intros i s' Hi. apply Hf. lia.
Qed.

Lemma iamax_loop_ok : forall al n x0 x (m : mem T), 0 < n -> x0 = x 0 -> (forall i, i < n -> al (x i) = true) ->
  exists r, iamax_loop T O al n x0 x m = Ok r /\ r < n /\ pivot_max O n (fun i => m (x i)) r.
Proof.
  intros al n x0 x m Hn -> Hx. unfold iamax_loop. rewrite rd_ok by auto. cbn [bind].
  set (v := fun i => oabs O (m (x i))).
  match goal with |- context [for_ 1 n ?ff ?st] =>
    destruct (for_inv (T * nat) (fun i s => fst s = v (snd s) /\ snd s < i /\ snd s = running_max O i (fun i => m (x i)) /\
      (comparable O n (fun i => m (x i)) -> first_max O i (fun i => m (x i)) (snd s))) 1 n ff st) as (s' & E & H1 & H2 & H0 & H3) end; try lia.
  - cbn. split; auto. split; auto. split; [destruct (oltb O _ _); auto|]. intros (C1 & _). split; [lia|]. split; [|lia]. intros j Hj. replace j with 0 by lia. apply C1. auto.
  - intros i [w r] Hi (E1 & E2 & E0 & E3). cbn [fst snd] in *. subst w. rewrite rd_ok by (apply Hx; lia). cbn [bind].
    eexists. split; [reflexivity|]. change (oabs O (m (x i))) with (v i).
    destruct (oltb O (v r) (v i)) eqn:C; cbn [fst snd].
    + split; auto. split; auto. split; [cbn [running_max]; rewrite <- E0; unfold v in C; rewrite C; auto|].
      intros CO. destruct (E3 CO) as (F1 & F2 & F3). destruct CO as (C1 & C2 & C3). split; [lia|].
      split.
      * intros j Hj. destruct (Nat.eq_dec j i) as [->|]; [apply C1; lia|].
        destruct (oltb O (oabs O (m (x i))) (oabs O (m (x j)))) eqn:D; auto.
        rewrite <- (F2 j) by lia. symmetry. apply (C2 r i j); auto; lia.
      * intros j Hj. destruct (oltb O (oabs O (m (x j))) (oabs O (m (x i)))) eqn:D; auto.
        exfalso. enough (false = true) by discriminate. rewrite <- C. symmetry. apply (C3 r j i); try lia; auto.
    + split; auto. split; auto. split; [cbn [running_max]; rewrite <- E0; unfold v in C; rewrite C; auto|].
      intros CO. destruct (E3 CO) as (F1 & F2 & F3). split; [lia|]. split.
      * intros j Hj. destruct (Nat.eq_dec j i) as [->|]; auto. apply F2. lia.
      * auto.
  - rewrite E. cbn [bind]. exists (snd s'). split; auto. split; auto. split; auto.
Qed.

Lemma swap_loop_ok : forall al n (x y : nat -> nat) (m : mem T),
  (forall i, i < n -> al (x i) = true) -> (forall i, i < n -> al (y i) = true) ->
  (forall i j, i < n -> j < n -> x i = x j -> i = j) -> (forall i j, i < n -> j < n -> y i = y j -> i = j) ->
  (forall i j, i < n -> j < n -> x i <> y j) ->
  exists m', swap_loop T al n x y m = Ok m' /\
    (forall i, i < n -> m' (x i) = m (y i) /\ m' (y i) = m (x i)) /\
    (forall a, (forall i, i < n -> a <> x i /\ a <> y i) -> m' a = m a).
Proof.
  intros al n x y m Hx Hy Dx Dy Dxy. unfold swap_loop.
  match goal with |- exists m', for_ 0 n ?f m = _ /\ _ =>
    destruct (for_inv (mem T) (fun k m' => (forall i, i < k -> m' (x i) = m (y i) /\ m' (y i) = m (x i)) /\
       (forall a, (forall i, i < k -> a <> x i /\ a <> y i) -> m' a = m a)) 0 n f m) as (m' & E & H1 & H2) end; try lia.
  - split; auto. intros i Hi. lia.
  - intros i m1 Hi [H1 H2]. rewrite !rd_ok by (apply Hx || apply Hy; lia). cbn [bind].
    rewrite wr_ok by (apply Hx; lia). cbn [bind]. rewrite wr_ok by (apply Hy; lia). eexists. split; [reflexivity|].
    assert (Ex : m1 (x i) = m (x i)).
    { apply H2. intros j Hj. split; [intros Q; apply Dx in Q; lia|apply Dxy; lia]. }
    assert (Ey : m1 (y i) = m (y i)).
    { apply H2. intros j Hj. split; [apply not_eq_sym, Dxy; lia|intros Q; apply Dy in Q; lia]. }
    split.
    + intros j Hj. destruct (Nat.eq_dec j i) as [->|N].
      * split; [|rewrite mupd_eq; auto]. rewrite mupd_neq by (apply Dxy; lia). rewrite mupd_eq. auto.
      * destruct (H1 j ltac:(lia)) as [K1 K2]. split.
        -- rewrite mupd_neq by (apply Dxy; lia). rewrite mupd_neq; auto. intros Q. apply Dx in Q; lia.
        -- rewrite mupd_neq by (intros Q; apply Dy in Q; lia). rewrite mupd_neq; auto. apply not_eq_sym, Dxy; lia.
    + intros a Ha. destruct (Ha i ltac:(lia)). rewrite !mupd_neq by auto. apply H2. intros j Hj. apply Ha. lia.
  - exists m'. auto.
Qed.

(** Exchanging rows k and q of an M-by-N matrix. *)
Lemma swap_rows_ok : forall al M N (ad : locations) k q (m : mem T), distinct M N ad -> allocated al M N ad -> k < M -> q < M -> k <> q ->
  forall x y, (forall j, j < N -> x j = ad k j) -> (forall j, j < N -> y j = ad q j) ->
  exists m', swap_loop T al N x y m = Ok m' /\
    updated (block M N) ad (swap_rows k q (fun i j => m (ad i j))) m m'.
Proof.
  intros al M N ad k q m D A Hk Hq Hkq x y Hx Hy.
  destruct (swap_loop_ok al N x y m) as (m' & E & H1 & H2).
  - intros i Hi. rewrite Hx by auto. auto.
  - intros i Hi. rewrite Hy by auto. auto.
  - intros i j Hi Hj Q. rewrite !Hx in Q by auto. apply D in Q; auto. lia.
  - intros i j Hi Hj Q. rewrite !Hy in Q by auto. apply D in Q; auto. lia.
  - intros i j Hi Hj Q. rewrite Hx, Hy in Q by auto. apply D in Q; auto. lia.
  - exists m'. split; auto. split.
    + intros i j [Hi Hj]. destruct (H1 j Hj) as [K1 K2]. rewrite Hx, Hy in K1, K2 by auto. unfold swap_rows.
      destruct (Nat.eq_dec i k) as [->|]; [rewrite interchange_l; auto|].
      destruct (Nat.eq_dec i q) as [->|]; [rewrite interchange_r; auto|]. rewrite interchange_o by auto.
      apply H2. intros j' Hj'. rewrite Hx, Hy by auto. split; intros Q; apply D in Q; auto; lia.
    + intros a Ha. apply H2. intros j Hj. rewrite Hx, Hy by auto. split; apply Ha; split; auto.
Qed.

(** laswp on an M-by-N matrix. *)
Lemma laswp_ok : forall al (A : dmat) k0 k1 p (m : mem T), distinct (d_m A) (d_n A) (d_at A) -> allocated al (d_m A) (d_n A) (d_at A) ->
  k0 <= k1 -> k1 <= d_m A -> (forall k, k0 <= k < k1 -> p k < d_m A) ->
  exists m', laswp T al A k0 k1 p m = Ok m' /\
    updated (block (d_m A) (d_n A)) (d_at A) (interchanged p k0 (k1 - k0) (fun i j => m (d_at A i j))) m m'.
Proof.
  intros al A k0 k1 p m D AL H01 H1 Hp. unfold laswp.
  match goal with |- exists m', for_ k0 k1 ?f m = _ /\ _ =>
    destruct (for_inv (mem T) (fun k m' => updated (block (d_m A) (d_n A)) (d_at A) (interchanged p k0 (k - k0) (fun i j => m (d_at A i j))) m m') k0 k1 f m)
      as (m' & E & U) end; auto.
  - rewrite Nat.sub_diag. split; auto.
  - intros k m1 Hk [U1 U2]. replace (Datatypes.S k - k0) with (Datatypes.S (k - k0)) by lia. cbn [interchanged].
    replace (k0 + (k - k0)) with k by lia. destruct (Nat.eqb_spec k (p k)) as [Eq|Ne].
    + exists m1. split; auto. split; auto. intros i j Hij. rewrite <- Eq, interchange_same. auto.
    + unfold swap_d. cbn [drow v_size v_at]. rewrite Nat.eqb_refl. cbn [negb].
      destruct (Nat.ltb_spec 0 (d_n A)) as [C|C].
      * destruct (swap_rows_ok al (d_m A) (d_n A) (d_at A) k (p k) m1 D AL ltac:(lia) (Hp k Hk) Ne (fun j => d_at A k j) (fun j => d_at A (p k) j))
          as (m2 & E2 & V1 & V2); auto.
        exists m2. split; auto. split.
        -- intros i j [Hi Hj]. rewrite V1 by (split; auto). unfold swap_rows. apply U1. split; auto. apply interchange_lt; auto; lia.
        -- intros a Ha. rewrite V2 by auto. apply U2. auto.
      * exists m1. split; auto. split; auto. intros i j [Hi Hj]. lia.
  - exists m'. auto.
Qed.
End Generic.

(* ------------------------------------------------------------------ getf2, column-major *)
Definition el_cm {T} (O : Ops T) (l u a : T) : T := ofma O (omul O (om1 O) l) u (omul O (o1 O) a).

Section Getf2.
Variable SS : nat.
Hypothesis HSS : 0 < SS.
Variable cc : nat.
Hypothesis Hcc : 0 < cc.
Variable T : Type.
Variable O : Ops T.
Notation lu_after := (lu_after O (el_cm O)).
Notation eliminate := (eliminate O (el_cm O)).

Variables (al : alloc) (M N : nat) (A : mptr).
Notation ad := (addr SS A).
Hypothesis WF : mptr_wf SS A.
Hypothesis KD : mp_kind A = Dense.
Hypothesis SO : mp_so A = columnMajor.
Hypothesis DI : distinct M N ad.
Hypothesis AL : allocated al M N ad.
Hypothesis OV : forall k i, k + 1 < M -> k + 1 < N -> i < nextMultiple (M - k - 1) (cc * SS) -> al (ad (k + 1 + i) k) = true.

Notation at_ := (poff SS (punalign SS A)).
Lemma at_wf : forall i j, mptr_wf SS (at_ i j).
Proof. intros. apply poff_wf; auto; [apply punalign_wf; auto|]. discriminate. Qed.
Lemma at_addr : forall i j i' j', addr SS (at_ i j) i' j' = ad (i + i') (j + j').
Proof. intros. rewrite addr_poff; auto; [apply addr_punalign; auto|apply punalign_wf; auto|intros _ X; discriminate X]. Qed.
Lemma at_so : forall i j, mp_so (at_ i j) = columnMajor. Proof. intros. exact SO. Qed.
Lemma at_kind : forall i j, mp_kind (at_ i j) = Dense. Proof. intros. exact KD. Qed.

Lemma div_column_ok : forall k (m : mem T), k < M -> k < N ->
  exists m', for_ (k + 1) M (fun i m => u <- rd al m (deref SS A i k) ;; d <- rd al m (deref SS A k k) ;;
                             wr al m (deref SS A i k) (odiv O u d)) m = Ok m' /\
    updated (block M N) ad (fun i j => if (k <? i) && (j =? k) then odiv O (m (ad i k)) (m (ad k k)) else m (ad i j)) m m'.
Proof.
  intros k m Hk HkN.
  match goal with |- exists m', for_ _ _ ?f m = _ /\ _ =>
   destruct (for_inv (mem T) (fun t m' => (forall i j, i < M -> j < N -> m' (ad i j) = if (k <? i) && (i <? t) && (j =? k) then odiv O (m (ad i k)) (m (ad k k)) else m (ad i j)) /\
     (forall a, (forall i j, i < M -> j < N -> a <> ad i j) -> m' a = m a)) (k + 1) M f m) as (m' & E & H1 & H2) end; try lia.
  - split; auto. intros i j Hi Hj. destruct (Nat.ltb_spec k i), (Nat.ltb_spec i (k + 1)); cbn [andb]; auto; lia.
  - intros t m1 Ht [H1 H2]. rewrite !deref_addr by auto. rewrite !rd_ok by (apply AL; lia). cbn [bind]. rewrite wr_ok by (apply AL; lia).
    eexists. split; [reflexivity|]. split.
    + intros i j Hi Hj. destruct (Nat.eq_dec i t) as [->|Ni]; [destruct (Nat.eq_dec j k) as [->|Nj]|].
      * rewrite mupd_eq, !H1 by lia. rewrite Nat.ltb_irrefl, andb_false_r, !Nat.ltb_irrefl. cbn [andb].
        rewrite (proj2 (Nat.ltb_lt k t)), (proj2 (Nat.ltb_lt t (Datatypes.S t))), Nat.eqb_refl by lia. reflexivity.
      * rewrite mupd_neq by (intros Q; apply DI in Q; lia). rewrite H1 by auto. destruct (Nat.eqb_spec j k); [lia|]. rewrite !andb_false_r. reflexivity.
      * rewrite mupd_neq by (intros Q; apply DI in Q; lia). rewrite H1 by auto.
        destruct (Nat.ltb_spec i t), (Nat.ltb_spec i (Datatypes.S t)); try lia; reflexivity.
    + intros a Ha. rewrite mupd_neq by (apply Ha; lia). auto.
  - exists m'. split; auto. split.
    + intros i j [Hi Hj]. rewrite H1 by auto. rewrite (proj2 (Nat.ltb_lt i M)) by auto. rewrite andb_true_r. reflexivity.
    + intros a Ha. apply H2. intros i j Hi Hj. apply Ha. split; auto.
Qed.

Lemma ger_step_ok : forall k (m : mem T), k + 1 < M -> k + 1 < N ->
  exists m', ger_ptr SS cc T O al (M - k - 1) (N - k - 1) (om1 O) (VMat columnVector (at_ (k + 1) k)) (VMat rowVector (at_ k (k + 1)))
               (at_ (k + 1) (k + 1)) (at_ (k + 1) (k + 1)) m = Ok m' /\
    updated (block M N) ad (fun i j => if (k <? i) && (k <? j) then el_cm O (m (ad i k)) (m (ad k j)) (m (ad i j)) else m (ad i j)) m m'.
Proof.
  intros k m H1 H2.
  destruct (ger_ptr_ok SS HSS cc Hcc T O al (M - k - 1) (N - k - 1) (om1 O) (VMat columnVector (at_ (k + 1) k)) (VMat rowVector (at_ k (k + 1)))
               (at_ (k + 1) (k + 1)) (at_ (k + 1) (k + 1)) m) as (m' & E & U1 & U2); auto using at_wf, at_so.
  - split; [apply at_wf|]. split; [apply at_so|]. intros X. rewrite at_kind in X. discriminate.
  - apply at_wf.
  - intros X. rewrite at_kind in X. discriminate.
  - intros X. rewrite at_kind in X. discriminate.
  - intros i Hi. cbn [vaddr]. rewrite at_addr. rewrite Nat.add_0_r. apply OV; auto.
  - intros j Hj. cbn [vaddr]. rewrite at_addr. rewrite Nat.add_0_r. apply AL; lia.
  - cbn [mp_af punalign poff]. intros i j Hi Hj. rewrite at_addr. apply AL; cbn [andb] in Hi; lia.
  - intros i j Hi Hj. rewrite at_addr. apply AL; lia.
  - intros i j i' j' Hi Hj Hi' Hj' Q. rewrite !at_addr in Q. apply DI in Q; lia.
  - intros i j t Hi Hj Ht. cbn [vaddr]. rewrite !at_addr. intros Q. apply DI in Q; lia.
  - intros i j t Hi Hj Ht. cbn [vaddr]. rewrite !at_addr. intros Q. apply DI in Q; lia.
  - intros i j i' j' [Hi Hj] [Hi' Hj'] Q. rewrite !at_addr in Q. apply DI in Q; lia.
  - exists m'. split; auto. split.
    + intros i j [Hi Hj]. destruct (Nat.ltb_spec k i); [destruct (Nat.ltb_spec k j)|]; cbn [andb].
      * specialize (U1 (i - (k + 1)) (j - (k + 1))). cbv beta in U1. cbn [vaddr] in U1. rewrite !at_addr in U1. rewrite !Nat.add_0_r in U1.
        replace (k + 1 + (i - (k + 1))) with i in U1 by lia. replace (k + 1 + (j - (k + 1))) with j in U1 by lia.
        rewrite U1 by (split; lia). reflexivity.
      * apply U2. intros i' j' [Hi' Hj'] Q. rewrite at_addr in Q. apply DI in Q; lia.
      * apply U2. intros i' j' [Hi' Hj'] Q. rewrite at_addr in Q. apply DI in Q; lia.
    + intros a Ha. apply U2. intros i' j' [Hi' Hj']. rewrite at_addr. apply Ha. split; lia.
Qed.

(** One step. *)
Lemma getf2_step_ok : forall p0 k (m : mem T) p, k < M -> k < N ->
  let a := fun i j => m (ad i j) in
  exists ip, k <= ip < M /\ pivot_max O (M - k) (fun i => a (k + i) k) (ip - k) /\
   ((oeqb O (a ip k) (o0 O) = true /\ getf2_step SS cc T O al M N A p0 k (m, p) = Throw InvalidArgument) \/
    (oeqb O (a ip k) (o0 O) = false /\ exists m', getf2_step SS cc T O al M N A p0 k (m, p) = Ok (m', pupd p (p0 + k) ip) /\
       updated (block M N) ad (eliminate k (swap_rows k ip a)) m m')).
Proof.
  intros p0 k m p Hk HkN a. unfold getf2_step, iamax_ptr.
  destruct (iamax_loop_ok T O al (M - k) (vaddr SS (VMat columnVector (at_ k k)) 0) (vderef SS (VMat columnVector (at_ k k))) m) as (r & Er & Hr & Fr); try lia.
  { rewrite vderef_vaddr; auto. apply at_wf. }
  { intros i Hi. rewrite vderef_vaddr by (auto; apply at_wf). cbn [vaddr]. rewrite at_addr, Nat.add_0_r. apply AL; lia. }
  assert (EV : forall i, vderef SS (VMat columnVector (at_ k k)) i = ad (k + i) k).
  { intros i. rewrite vderef_vaddr by (auto; apply at_wf). cbn [vaddr]. rewrite at_addr, Nat.add_0_r. reflexivity. }
  rewrite Er. cbn [bind]. exists (r + k). split; [lia|]. split.
  { replace (r + k - k) with r by lia. apply (pivot_max_ext O _ (fun i => m (vderef SS (VMat columnVector (at_ k k)) i))); auto.
    intros i Hi. rewrite EV. reflexivity. }
  set (ip := r + k) in *.
  assert (SW : exists m1, (if negb (ip =? k) then swap_ptr SS T al N (VMat rowVector (at_ k 0)) (VMat rowVector (at_ ip 0)) m else Ok m) = Ok m1 /\
                updated (block M N) ad (swap_rows k ip a) m m1).
  { destruct (Nat.eqb_spec ip k) as [Eq|Ne]; cbn [negb].
    - exists m. split; auto. split; auto. intros i j Hij. rewrite Eq. unfold swap_rows. rewrite interchange_same. reflexivity.
    - unfold swap_ptr. apply swap_rows_ok; auto; try (unfold ip; lia).
      + intros j Hj. rewrite vderef_vaddr by (auto; apply at_wf). cbn [vaddr]. rewrite at_addr, Nat.add_0_r. reflexivity.
      + intros j Hj. rewrite vderef_vaddr by (auto; apply at_wf). cbn [vaddr]. rewrite at_addr, Nat.add_0_r. reflexivity. }
  destruct SW as (m1 & E1 & V1 & F1). rewrite E1. cbn [bind]. rewrite deref_addr by auto. rewrite rd_ok by (apply AL; auto). cbn [bind].
  rewrite (V1 k k) by (split; auto). unfold swap_rows at 1 2. rewrite interchange_l.
  destruct (oeqb O (a ip k) (o0 O)) eqn:Z; [left; auto|right]. split; auto.
  rewrite <- (deref_addr SS HSS A k k WF).
  destruct (div_column_ok k m1 Hk HkN) as (m2 & E2 & V2 & F2). rewrite E2. cbn [bind].
  assert (G : exists m3, (if (k + 1 <? M) && (k + 1 <? N) then
     ger_ptr SS cc T O al (M - k - 1) (N - k - 1) (om1 O) (VMat columnVector (at_ (k + 1) k)) (VMat rowVector (at_ k (k + 1))) (at_ (k + 1) (k + 1)) (at_ (k + 1) (k + 1)) m2
     else Ok m2) = Ok m3 /\
    updated (block M N) ad (fun i j => if (k <? i) && (k <? j) then el_cm O (m2 (ad i k)) (m2 (ad k j)) (m2 (ad i j)) else m2 (ad i j)) m2 m3).
  { destruct (Nat.ltb_spec (k + 1) M), (Nat.ltb_spec (k + 1) N); cbn [andb]; [apply ger_step_ok; auto| | |];
      (exists m2; split; auto; split; auto; intros i j [Hi Hj]; destruct (Nat.ltb_spec k i), (Nat.ltb_spec k j); cbn [andb]; auto; lia). }
  destruct G as (m3 & E3 & V3 & F3). rewrite E3. cbn [bind]. exists m3. split; auto. split.
  - intros i j [Hi Hj]. rewrite V3 by (split; auto). unfold eliminate. cbv zeta.
    assert (W : forall i j, i < M -> j < N -> m2 (ad i j) = if (k <? i) && (j =? k) then odiv O (swap_rows k ip a i k) (swap_rows k ip a k k) else swap_rows k ip a i j).
    { intros i' j' Hi' Hj'. rewrite V2 by (split; auto). rewrite (V1 i' k), (V1 k k), (V1 i' j') by (split; auto). reflexivity. }
    rewrite !W by auto. rewrite Nat.ltb_irrefl, Nat.eqb_refl. cbn [andb]. rewrite andb_true_r.
    destruct (Nat.ltb_spec k i); cbn [andb]; auto. destruct (Nat.eqb_spec j k) as [->|]; [rewrite Nat.ltb_irrefl; reflexivity|].
    destruct (k <? j); reflexivity.
  - intros x Hx. rewrite F3, F2, F1; auto.
Qed.

(** The whole loop. *)
Lemma getf2_ptr_ok : forall p0 (m0 : mem T) q0,
  let A0 := fun i j => m0 (ad i j) in
  (exists m' q', getf2_ptr SS cc T O al M N A p0 (m0, q0) = Ok (m', q') /\
     lu_run O (el_cm O) M (fun l => q' (p0 + l)) (min M N) A0 /\
     updated (block M N) ad (lu_after (fun l => q' (p0 + l)) (min M N) A0) m0 m' /\
     (forall i, i < p0 \/ p0 + min M N <= i -> q' i = q0 i)) \/
  (getf2_ptr SS cc T O al M N A p0 (m0, q0) = Throw InvalidArgument /\ lu_stuck O (el_cm O) M (min M N) A0).
Proof.
  intros p0 m0 q0 A0. unfold getf2_ptr.
  destruct (for_inv_throw (mem T * piv) (fun k s => lu_run O (el_cm O) M (fun l => snd s (p0 + l)) k A0 /\
     updated (block M N) ad (lu_after (fun l => snd s (p0 + l)) k A0) m0 (fst s) /\
     (forall i, i < p0 \/ p0 + k <= i -> snd s i = q0 i)) (lu_stuck O (el_cm O) M (min M N) A0) InvalidArgument 0 (min M N) (getf2_step SS cc T O al M N A p0) (m0, q0))
   as [((m' & q') & E & R & U & F)|[E X]]; try lia.
  - cbn [fst snd]. split; [intros l Hl; lia|]. split; [split; auto|auto].
  - intros k [m q] Hk (R & [U1 U2] & F). cbn [fst snd] in *.
    destruct (getf2_step_ok p0 k m q) as (ip & Hip & FM & Z); try lia.
    set (qk := fun l => q (p0 + l)) in *. set (qk' := fun l => pupd q (p0 + k) ip (p0 + l)).
    assert (Eq : forall l, l <> k -> qk' l = qk l).
    { intros l Hl. unfold qk', qk, pupd. destruct (Nat.eqb_spec (p0 + l) (p0 + k)); auto; lia. }
    assert (Eqk : qk' k = ip) by (unfold qk', pupd; rewrite Nat.eqb_refl; auto).
    assert (El : forall l i j, l <= k -> lu_after qk' l A0 i j = lu_after qk l A0 i j).
    { intros l i j Hl. apply lu_piv_ext. intros l' Hl'. apply Eq. lia. }
    assert (R' : lu_run O (el_cm O) M qk' k A0).
    { intros l Hl. destruct (R l Hl) as [[P1 P2] P3]. rewrite El, Eq by lia. split; auto. split; [rewrite Eq by lia; auto|].
      rewrite Eq by lia. eapply pivot_max_ext; [|exact P2]. intros i Hi. cbn. apply El. lia. }
    assert (LP : lu_pivot O (el_cm O) M qk' k A0).
    { split; rewrite Eqk; auto. eapply pivot_max_ext; [|exact FM]. intros i Hi. cbn beta. rewrite El by lia. symmetry. apply U1. split; lia. }
    assert (Z0 : m (ad ip k) = lu_after qk' k A0 (qk' k) k).
    { rewrite Eqk, El by lia. apply U1. split; lia. }
    destruct Z as [[Z E]|[Z (m' & E & V1 & V2)]].
    + right. split; auto. exists qk', k. split; [lia|]. split; auto. split; auto. rewrite <- Z0. exact Z.
    + left. eexists. split; [exact E|]. cbn [fst snd]. split; [|split; [split|]].
      * intros l Hl. destruct (Nat.eq_dec l k) as [->|]; [|apply R'; lia]. split; auto. change (oeqb O (lu_after qk' k A0 (qk' k) k) (o0 O) = false). rewrite <- Z0. exact Z.
      * intros i j [Hi Hj]. rewrite V1 by (split; auto). cbn [LU_Theory.lu_after]. change (pupd q (p0 + k) ip (p0 + k)) with (qk' k). rewrite Eqk.
        apply (eliminate_ext O (el_cm O) k _ _ M N); auto; try lia. intros i' j' Hi' Hj'. unfold swap_rows.
        change (lu_after (fun l => pupd q (p0 + k) ip (p0 + l)) k A0) with (lu_after qk' k A0). rewrite El by lia.
        apply U1. split; auto. apply interchange_lt; auto; lia.
      * intros x Hx. rewrite V2, U2; auto.
      * intros i Hi. unfold pupd. destruct (Nat.eqb_spec i (p0 + k)); [lia|]. apply F. lia.
  - left. exists m', q'. auto.
  - right. auto.
Qed.
End Getf2.
